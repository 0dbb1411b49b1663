(** Functions of a matrix and of time that are bounded and Lipschitz on bounded sets. *)
From Coq Require Import Reals Lra Ring Field.
From mathcomp Require Import all_ssreflect all_algebra zify.
From Verif Require Import RealF MxBase LqtModel ClqtModel ClqtSpec RealExpSpec RealExp ClqrOpt RealDisc RkConvA RkConvC TvarSpec TvarInv.
Import Order.TTheory GRing.Theory Num.Theory.
Set Implicit Arguments. Unset Strict Implicit. Unset Printing Implicit Defensive.
Local Open Scope ring_scope.
Delimit Scope R_scope with Re.

Section Alg.
Variable R : realFieldType.
Add Ring Rr : (mc_ring R).
Lemma mul_gap (a b c d : R) : a * b - c * d = (a - c) * b + c * (b - d). Proof. by rsn R; ring. Qed.
Lemma mul_gap2 (A B e : R) : A * e * B + A * (B * e) = (A * B + A * B) * e. Proof. by rsn R; ring. Qed.
End Alg.

Section Lip.
Variables (k l : nat) (T : Rf).
Local Notation V := 'M[Rf]_(k, l).
Definition blr (g : V -> Rf -> Rf) : Prop := forall M : Rf, exists2 L : Rf, 0 <= L & forall x y s t, nrm x <= M -> nrm y <= M -> 0 <= s <= T -> 0 <= t <= T ->
  `|g x s| <= L /\ `|g x s - g y t| <= L * (nrm (x - y) + `|s - t|).
Lemma dst_ge0 (x y : V) (s t : Rf) : 0 <= nrm (x - y) + `|s - t|. Proof. by rewrite addr_ge0 ?nrm_ge0. Qed.
Lemma blr_ext g g' : (forall x t, 0 <= t <= T -> g x t = g' x t) -> blr g -> blr g'.
Proof.
move=> e H M; have [L L0 HL] := H M; exists L => // x y s t hx hy hs ht.
by rewrite -!e //; exact: HL.
Qed.
Lemma blr_const (a : Rf) : blr (fun _ _ => a).
Proof. by move=> M; exists `|a| => // x y s t _ _ _ _; rewrite subrr normr0 mulr_ge0 ?dst_ge0. Qed.
Lemma blr_add g g' : blr g -> blr g' -> blr (fun x t => g x t + g' x t).
Proof.
move=> H H' M; have [L L0 HL] := H M; have [L' L0' HL'] := H' M; exists (L + L'); first exact: addr_ge0.
move=> x y s t hx hy hs ht; have [a b] := HL x y s t hx hy hs ht; have [a' b'] := HL' x y s t hx hy hs ht; split.
  by apply: le_trans (ler_norm_add _ _) _; exact: ler_add.
by rewrite opprD addrACA mulrDl; apply: le_trans (ler_norm_add _ _) _; exact: ler_add.
Qed.
Lemma blr_opp g : blr g -> blr (fun x t => - g x t).
Proof.
move=> H M; have [L L0 HL] := H M; exists L => // x y s t hx hy hs ht.
by rewrite -opprD !normrN; exact: HL.
Qed.
Lemma blr_mul g g' : blr g -> blr g' -> blr (fun x t => g x t * g' x t).
Proof.
move=> H H' M; have [L L0 HL] := H M; have [L' L0' HL'] := H' M; exists (L * L' + L * L'); first by rewrite addr_ge0 ?mulr_ge0.
move=> x y s t hx hy hs ht; have [a b] := HL x y s t hx hy hs ht; have [a' b'] := HL' x y s t hx hy hs ht.
have [c _] := HL y x t s hy hx ht hs; split.
  by rewrite normrM; apply: le_trans (ler_pmul _ _ a a') _ => //; rewrite ler_addl mulr_ge0.
rewrite mul_gap -mul_gap2; apply: le_trans (ler_norm_add _ _) _; rewrite !normrM.
by apply: ler_add; apply: ler_pmul.
Qed.
Lemma blr_sum (I : Type) (r : seq I) (g : I -> V -> Rf -> Rf) : (forall i, blr (g i)) -> blr (fun x t => \sum_(i <- r) g i x t).
Proof.
move=> H; elim: r => [|i r IH]; first by apply: blr_ext (blr_const 0) => x t _; rewrite big_nil.
by apply: blr_ext (blr_add (H i) IH) => x t _; rewrite big_cons.
Qed.

Lemma blr_entry i j : blr (fun x _ => x i j).
Proof.
move=> M; exists (`|M| + 1); first by rewrite addr_ge0 ?ler01.
move=> x y s t hx hy _ _; split.
  apply: le_trans (nrm_entry _ _ _) _; apply: le_trans hx _; apply: le_trans (ler_norm _) _; by rewrite ler_addl ler01.
have := nrm_entry (x - y) i j; rewrite !mxE => h; apply: le_trans h _.
by rewrite mulrDl mul1r; apply: ler_paddl; [rewrite mulr_ge0 ?dst_ge0 | rewrite ler_addl].
Qed.
Lemma blr_time (g : Rf -> Rf) (L : Rf) : (forall s t, 0 <= s <= T -> 0 <= t <= T -> `|g s - g t| <= L * `|s - t|) -> blr (fun _ t => g t).
Proof.
move=> H M; exists (`|g 0| + `|L| * `|T| + `|L|); first by rewrite !addr_ge0 ?mulr_ge0.
move=> x y s t _ _ hs ht; split.
  rewrite -addrA -[g s](subrK (g 0)) addrC; apply: le_trans (ler_norm_add _ _) _; rewrite ler_add2l; apply: ler_paddr => //.
  have [s0 sT] := andP hs; have T0 := le_trans s0 sT.
  apply: le_trans (H s 0 hs _) _; rewrite ?lexx // subr0.
  apply: le_trans (ler_wpmul2r _ (ler_norm L)) _ => //; apply: ler_wpmul2l => //; by rewrite !ger0_norm.
apply: le_trans (H s t hs ht) _; apply: le_trans (ler_wpmul2r _ (ler_norm L)) _ => //.
by apply: ler_pmul => //; rewrite ?ler_addr ?addr_ge0 ?mulr_ge0 ?nrm_ge0.
Qed.

Definition bl a b (g : V -> Rf -> 'M[Rf]_(a, b)) : Prop := forall i j, blr (fun x t => g x t i j).
Lemma bl_ext a b (g g' : V -> Rf -> 'M[Rf]_(a, b)) : (forall x t, 0 <= t <= T -> g x t = g' x t) -> bl g -> bl g'.
Proof. by move=> e H i j; apply: blr_ext (H i j) => x t ht; rewrite e. Qed.
Lemma bl_add a b (g g' : V -> Rf -> 'M[Rf]_(a, b)) : bl g -> bl g' -> bl (fun x t => g x t + g' x t).
Proof. by move=> H H' i j; apply: blr_ext (blr_add (H i j) (H' i j)) => x t _; rewrite mxE. Qed.
Lemma bl_opp a b (g : V -> Rf -> 'M[Rf]_(a, b)) : bl g -> bl (fun x t => - g x t).
Proof. by move=> H i j; apply: blr_ext (blr_opp (H i j)) => x t _; rewrite mxE. Qed.
Lemma bl_mul a b c (g : V -> Rf -> 'M[Rf]_(a, b)) (g' : V -> Rf -> 'M[Rf]_(b, c)) : bl g -> bl g' -> bl (fun x t => g x t *m g' x t).
Proof.
move=> H H' i j; apply: (blr_ext (g := fun x t => \sum_q g x t i q * g' x t q j)) => [x t _|]; first by rewrite mxE.
by apply: blr_sum => q; apply: blr_mul.
Qed.
Lemma bl_tr a b (g : V -> Rf -> 'M[Rf]_(a, b)) : bl g -> bl (fun x t => (g x t)^T).
Proof. by move=> H i j; apply: blr_ext (H j i) => x t _; rewrite mxE. Qed.
Lemma bl_time a b (g : R -> 'M[Rf]_(a, b)) : lipschitz_on T g -> bl (fun _ t => g t).
Proof. by move=> [L H] i j; apply: (blr_time (L := L)) => s t hs ht; exact: H. Qed.
Lemma bl_id : bl (fun x _ => x). Proof. by move=> i j; exact: blr_entry. Qed.
(** the form used for the convergence *)
Lemma bl_nrm a b (g : V -> Rf -> 'M[Rf]_(a, b)) : bl g -> forall M : Rf, exists2 L : Rf, 0 <= L & forall x y s t, nrm x <= M -> nrm y <= M -> 0 <= s <= T -> 0 <= t <= T ->
  nrm (g x s) <= L /\ nrm (g x s - g y t) <= L * (nrm (x - y) + `|s - t|).
Proof.
move=> H M.
have E (ij : 'I_a * 'I_b) : exists c : Rf, 0 <= c /\ forall x y s t, nrm x <= M -> nrm y <= M -> 0 <= s <= T -> 0 <= t <= T ->
    `|g x s ij.1 ij.2| <= c /\ `|g x s ij.1 ij.2 - g y t ij.1 ij.2| <= c * (nrm (x - y) + `|s - t|).
  by have [L L0 HL] := H ij.1 ij.2 M; exists L.
have [C HC] := fin_all_exists E.
exists (\sum_i \sum_j C (i, j)); first by apply: sumr_ge0 => i _; apply: sumr_ge0 => j _; exact: (HC (i, j)).1.
move=> x y s t hx hy hs ht; split.
  by apply: ler_sum => i _; apply: ler_sum => j _; exact: ((HC (i, j)).2 x y s t hx hy hs ht).1.
rewrite mulr_suml; apply: ler_sum => i _; rewrite mulr_suml; apply: ler_sum => j _; rewrite !mxE.
exact: ((HC (i, j)).2 x y s t hx hy hs ht).2.
Qed.
(** packing *)
Lemma bl_get a w lo q (g : V -> Rf -> 'M[Rf]_(a, w)) : bl g -> bl (fun x t => get_cols lo q (g x t)).
Proof.
move=> H i j; apply: (blr_ext (g := fun x t => ent (g x t) i (lo + j))) => [x t _|]; first by rewrite mxE.
by rewrite /ent; case: insub => [j'|]; [exact: H | exact: blr_const].
Qed.
Lemma bl_set a w q lo (g : V -> Rf -> 'M[Rf]_(a, q)) (g' : V -> Rf -> 'M[Rf]_(a, w)) : bl g -> bl g' -> bl (fun x t => set_cols lo (g x t) (g' x t)).
Proof.
move=> H H' i j; apply: (blr_ext (g := fun x t => if (lo <= j < lo + q)%N then ent (g x t) i (j - lo) else g' x t i j)) => [x t _|]; first by rewrite mxE.
case: (_ && _); last exact: H'.
by rewrite /ent; case: insub => [j'|]; [exact: H | exact: blr_const].
Qed.
Lemma bl_const a b (A : 'M[Rf]_(a, b)) : bl (fun _ _ => A). Proof. by move=> i j; exact: blr_const. Qed.
End Lip.

Section Inv.
Variable T : Rf.
Hypothesis T0 : 0 <= T.
Definition clamp (t : Rf) : Rf := Order.max 0 (Order.min T t).
Lemma clamp_in t : 0 <= clamp t <= T.
Proof. by rewrite /clamp le_maxr lexx /= le_maxl T0 le_minl lexx. Qed.
Lemma clamp_id t : 0 <= t <= T -> clamp t = t.
Proof. by move=> /andP [h1 h2]; rewrite /clamp (min_idPr h2) (max_idPr h1). Qed.
Lemma clamp_le s t : s <= t -> clamp s <= clamp t /\ clamp t <= clamp s + (t - s).
Proof.
move=> st; have d0 : 0 <= t - s by rewrite subr_ge0.
split; rewrite /clamp.
  by rewrite le_maxl le_maxr lexx /= le_maxr; apply/orP; right; rewrite le_minr !le_minl lexx st orbT.
have c0 : 0 <= Order.max 0 (Order.min T s) by rewrite le_maxr lexx.
rewrite le_maxl addr_ge0 //=.
have h : Order.min T s <= Order.max 0 (Order.min T s) by rewrite le_maxr lexx orbT.
apply: le_trans (ler_add h (lexx (t - s))).
by rewrite le_minl; case: (leP T s) => _; [rewrite ler_addl d0 | rewrite addrC subrK lexx orbT].
Qed.
Lemma clamp_lip s t : `|clamp s - clamp t| <= `|s - t|.
Proof.
have H s' t' : s' <= t' -> `|clamp s' - clamp t'| <= `|s' - t'|.
  move=> st; have [h1 h2] := clamp_le st.
  by rewrite [`|s' - _|]distrC [X in X <= _]distrC !ger0_norm ?subr_ge0 // ler_subl_addl.
by case: (leP s t) => [/H //|/ltW /H]; rewrite distrC [X in _ <= X]distrC.
Qed.
Lemma lip_nrm a b (g : R -> 'M[Rf]_(a, b)) : lipschitz_on T g <-> exists2 L : Rf, 0 <= L & forall s t : Rf, 0 <= s <= T -> 0 <= t <= T -> nrm (g s - g t) <= L * `|s - t|.
Proof.
split=> [[L H]|[L L0 H]].
  exists ((a * b)%:R * `|L|); first by rewrite mulr_ge0 ?ler0n.
  move=> s t hs ht; rewrite -mulrA; apply: nrm_le => i j; rewrite !mxE; apply: le_trans (H s t hs ht i j) _.
  by rewrite ler_wpmul2r // ler_norm.
exists L => s t hs ht i j; apply: le_trans (H s t hs ht); have := nrm_entry (g s - g t) i j; by rewrite !mxE.
Qed.
Lemma lip_mcont a b (g : R -> 'M[Rf]_(a, b)) : lipschitz_on T g -> forall t : Rf, mcont (fun s => g (clamp s)) t.
Proof.
move=> /lip_nrm [L L0 H] t i j eps he.
have ep : 0 < (eps : Rf) by exact/RltP.
have L1 : 0 < L + 1 by rewrite ltr_paddl ?ltr01.
exists ((eps : Rf) / (L + 1)); split; first by apply/RltP; rewrite divr_gt0.
move=> s [_]; rewrite /dist /= /R_dist !RabsE => /RltP hs; apply/RltP.
have := nrm_entry (g (clamp s) - g (clamp t)) i j; rewrite !mxE => h; apply: le_lt_trans h _.
apply: le_lt_trans (H _ _ (clamp_in s) (clamp_in t)) _.
apply: le_lt_trans (ler_wpmul2l L0 (clamp_lip s t)) _.
rewrite ltr_pdivl_mulr // in hs; apply: le_lt_trans hs; rewrite mulrC ler_wpmul2l // ler_addl ler01 //.
Qed.
Lemma lip_inv a (U : R -> 'M[Rf]_a) : lipschitz_on T U -> (forall t : Rf, 0 <= t <= T -> U t \in unitmx) -> lipschitz_on T (fun t => invmx (U t)).
Proof.
move=> H u; have [L L0 HL] := (lip_nrm U).1 H.
have c (t : Rf) : 0 <= t <= T -> mcont (fun s => invmx (U (clamp s))) t.
  by move=> ht; apply: (mcont_invmx (M := fun s => U (clamp s))); [exact: u (clamp_in t) | exact: lip_mcont].
have [M M0 HM] := bounded_on T0 c.
apply/lip_nrm; exists (M * L * M); first by rewrite !mulr_ge0.
move=> s t hs ht.
have -> : invmx (U s) - invmx (U t) = invmx (U s) *m (U t - U s) *m invmx (U t).
  by rewrite mulmxBr mulVmx ?u // mulmxBl mul1mx mulmxK ?u.
have hM r : 0 <= r <= T -> nrm (invmx (U r)) <= M by move=> hr; have := HM r hr; rewrite clamp_id.
apply: le_trans (nrm_mul _ _) _; rewrite -mulrA [M * `|_|]mulrC mulrA; apply: ler_pmul; rewrite ?nrm_ge0 ?hM //.
apply: le_trans (nrm_mul _ _) _; rewrite -mulrA; apply: ler_pmul; rewrite ?nrm_ge0 ?hM //.
by rewrite distrC; exact: HL.
Qed.
Lemma lip_mul a b c (f : R -> 'M[Rf]_(a, b)) (g : R -> 'M[Rf]_(b, c)) : lipschitz_on T f -> lipschitz_on T g -> lipschitz_on T (fun t => f t *m g t).
Proof.
move=> hf hg; have := bl_nrm (bl_mul (bl_time 0 0 hf) (bl_time 0 0 hg)) 0 => -[L L0 H]; apply/lip_nrm; exists L => // s t hs ht.
have z : nrm (0 : 'M[Rf]_(0, 0)) <= 0 by rewrite nrm0.
by have := (H 0 0 s t z z hs ht).2; rewrite subrr nrm0 add0r.
Qed.
Lemma lip_tr a b (f : R -> 'M[Rf]_(a, b)) : lipschitz_on T f -> lipschitz_on T (fun t => (f t)^T).
Proof. by move=> [L H]; exists L => s t hs ht i j; rewrite !mxE; exact: H. Qed.
End Inv.
