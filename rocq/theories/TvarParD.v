(** The blocks of the parallel backward pass as problems of their own, and the exact elements of runs of blocks. *)
From Coq Require Import Reals.
From mathcomp Require Import all_ssreflect all_algebra zify.
From Verif Require Import RealF MxBase LqtModel LqtSpec LqtCore LqtElem LinComb ScanModel Rk4Model ClqtModel ClqtSpec ClqtPack ClqtFwd2 RealExpSpec RealExp ClqrOpt RealDisc RkConvA RkConvC RkConv RkConvP
  FbConvC TrackOptSpec TvarSpec TvarInv TvarLip TvarPack TvarRk Tvar TvarBwd OdeLin TvarExistSpec TvarExist TvarCost ClqrPar ParConvB TvarParA TvarParB TvarParC TvarParFw.
Import Order.TTheory GRing.Theory Num.Theory.
Set Implicit Arguments. Unset Strict Implicit. Unset Printing Implicit Defensive.
Local Open Scope ring_scope.
Delimit Scope R_scope with Re.

Lemma fin_choice (X : Type) (Q : nat -> X -> Prop) B (x0 : X) : (forall k, (k < B)%N -> exists x, Q k x) -> exists f, forall k, (k < B)%N -> Q k (f k).
Proof.
elim: B => [|B IH] H; first by exists (fun=> x0).
have [|f Hf] := IH; first by move=> k kB; apply: H; exact: ltnW.
have [x Hx] := H B (ltnSn B); exists (fun k => if k == B then x else f k) => k.
by rewrite ltnS leq_eqVlt; case: eqP => [-> //|_] /= ?; exact: Hf.
Qed.
Lemma shift_rk k l (f : 'M[Rf]_(k, l) -> Rf -> option 'M[Rf]_(k, l)) (a h t : Rf) x :
  rk4_xt (V := matrix_lmodType Rf k l) f h x (a + t) = rk4_xt (V := matrix_lmodType Rf k l) (fun x t => f x (a + t)) h x t.
Proof. by rewrite /rk4_xt !addrA. Qed.

Lemma for_ext B l (f g : nat -> B -> option B) x : (forall i y, f i y = g i y) -> for_ l f x = for_ l g x.
Proof. by move=> H; elim: l x => [//|i l IH] x /=; rewrite H; case: (g i x) => //= y; exact: IH. Qed.

Section Sub.
Variables n m p pT : nat.
Variable P : clqt Rf n m p pT.
Local Notation T := (kT P).
Hypothesis T0 : 0 <= T.
Hypothesis pw : forall t : Rf, 0 <= t <= T -> [/\ symm (kX P t), psd (kX P t), symm (kU P t) & pd (kU P t)].
Hypothesis lP : lipschitz_data P.
Variables (a L : Rf).
Definition sub : clqt Rf n m p pT :=
  Clqt (fun t => kF P (a + t)) (fun t => kL P (a + t)) (fun t => kX P (a + t)) (fun t => kU P (a + t)) (kXT P)
       (fun t => kc P (a + t)) (fun t => kH P (a + t)) (fun t => kr P (a + t)) (kHT P) (krT P) L.
Hypotheses (a0 : 0 <= a) (L0 : 0 <= L) (aL : a + L <= T).
Lemma sub_in (t : Rf) : 0 <= t <= L -> 0 <= a + t <= T.
Proof. by case/andP=> h1 h2; rewrite addr_ge0 //=; apply: le_trans aL; rewrite ler_add2l. Qed.
Lemma sub_in' (t : Rf) : 0 < t < L -> 0 < a + t < T.
Proof. by case/andP=> h1 h2; rewrite ltr_spaddr //=; apply: lt_le_trans aL; rewrite ltr_add2l. Qed.
Lemma sub_lip k l (g : R -> 'M[Rf]_(k, l)) : lipschitz_on T g -> lipschitz_on L (fun t : Rf => g (a + t)%R).
Proof.
move=> [K H]; exists K => s t hs ht; have := H _ _ (sub_in hs) (sub_in ht).
by rewrite (_ : a + s - (a + t) = s - t) //; abelr.
Qed.
Lemma sub_data : lipschitz_data sub.
Proof. by case: lP => -[h1 h2 h3 h4] [h5 h6 h7]; split; split; apply: sub_lip. Qed.
Lemma sub_w (t : Rf) : 0 <= t <= kT sub -> [/\ symm (kX sub t), psd (kX sub t), symm (kU sub t) & pd (kU sub t)].
Proof. by move=> ht; exact: pw (sub_in ht). Qed.
Lemma sub_follows S v : backward_solution P S v [::] 0 -> follows sub (fun t : Rf => S (a + t)%R) (fun t : Rf => v (a + t)%R).
Proof.
move=> [_ _ c d]; split=> t ht.
  by have [h1 h2 h3] := c _ (sub_in ht); split=> //; exact: mcont_shift.
have [dS [dv [e h1 h2]]] := d _ (sub_in' ht) isT; exists dS, dv; split=> //; exact: mderiv_shift.
Qed.
Lemma sub_loop dt k Sv acc : bwd_loop P dt a k Sv acc = bwd_loop sub dt 0 k Sv acc.
Proof.
elim: k Sv acc => [//|k IH] Sv [[[Ks ds] Ss] vs] /=.
have -> : bwd_step P dt a k Sv = bwd_step sub dt 0 k Sv by rewrite /bwd_step add0r shift_rk.
case: (bwd_step sub dt 0 k Sv) => [Sv'|] //=.
have -> : bwd_gain P dt a k Sv' = bwd_gain sub dt 0 k Sv' by rewrite /bwd_gain add0r.
by case: (bwd_gain sub dt 0 k Sv') => [[K d]|] /=.
Qed.
Lemma sub_pass dt M Q w : clqt_seqBackwardPass P M (Some dt) (Some a) (Some Q) (Some w) = clqt_seqBackwardPass sub M (Some dt) (Some 0) (Some Q) (Some w).
Proof. by rewrite /clqt_seqBackwardPass /dt_or !obindS /= sub_loop. Qed.
Lemma sub_block dt M fw k : (k * M)%:R * dt = a -> block_elem P dt 0 M fw k = block_elem sub dt 0 M fw 0.
Proof.
move=> e; rewrite /block_elem; case: fw; apply: for_ext => i x; rewrite /elem_step !add0r mul0n add0n.
  rewrite natrD mulrDl e shift_rk; reflexivity.
rewrite -addnA natrD mulrDl e shift_rk; reflexivity.
Qed.
End Sub.

Section Fam.
Variables n m p pT : nat.
Variable P : clqt Rf n m p pT.
Local Notation T := (kT P).
Hypothesis T0 : 0 <= T.
Hypothesis cw : convex_weights P.
Hypothesis lP : lipschitz_data P.
Variables (S : R -> 'M[Rf]_n) (v : R -> 'cV[Rf]_n).
Hypothesis sol : backward_solution P S v [::] 0.
Variable fw : bool.
Variable B : nat.
Hypothesis B0 : (0 < B)%N.
Local Notation tau := (T / B%:R).
Local Notation at_ k := (k%:R * tau).
Lemma pwP (t : Rf) : 0 <= t <= T -> [/\ symm (kX P t), psd (kX P t), symm (kU P t) & pd (kU P t)].
Proof. by case: cw => -[_ w] _ pX ht; have [] := w t ht; split=> //; exact: pX. Qed.
Lemma S_psd (t : Rf) : 0 <= t <= T -> psd (S t).
Proof.
have [S' [v' [sol' _ _ pS]]] := back_ex T0 cw lP; have [wP _ _] := cw => ht.
by have [-> _] := back_unique T0 wP lP sol sol' ht; exact: pS.
Qed.
Lemma tau0 : 0 <= tau. Proof. by rewrite divr_ge0 ?ler0n. Qed.
Lemma atB : at_ B = T. Proof. by rewrite mulrC divfK // pnatr_eq0 -lt0n. Qed.
Lemma at_in k : (k <= B)%N -> 0 <= at_ k <= T. Proof. exact: grid_ok. Qed.
Lemma atS k : at_ k + tau = at_ k.+1. Proof. by rewrite -{2}[tau]mul1r -mulrDl -[1]/(1%:R) -natrD addn1. Qed.
Lemma at_sub k : (k < B)%N -> 0 <= at_ k /\ at_ k + tau <= T.
Proof. by move=> kB; rewrite atS; have /andP [h _] := at_in (ltnW kB); have /andP [_ h'] := at_in kB. Qed.
(** the sequential pass over one block *)
Lemma pass_unif (E0 : Rf) : 0 <= E0 -> exists2 D, 0 <= D & forall k, (k < B)%N -> forall M, (0 < M)%N -> D <= M%:R -> forall Q w,
  nrm (Q - S (at_ k.+1)%R) + nrm (w - v (at_ k.+1)%R) <= E0 / M%:R ->
  let t i := at_ k + i%:R * (tau / M%:R) in exists Ks ds Ss vs,
  [/\ clqt_seqBackwardPass P M (Some (tau / M%:R)) (Some (at_ k)) (Some Q) (Some w) = Some (Ks, ds, Ss, vs),
      [/\ size Ks = M, size ds = M, size Ss = M.+1 & size vs = M.+1],
      forall i, (i <= M)%N -> nrm (nth 0 Ss i - S (t i)) <= D / M%:R /\ nrm (nth 0 vs i - v (t i)) <= D / M%:R &
      forall i, (i < M)%N -> nth 0 Ks i = ulT P (t i) *m nth 0 Ss i /\ nth 0 ds i = ulT P (t i) *m nth 0 vs i].
Proof.
move=> E00; apply: fin_unif => [k L L' le H M M0 LM Q w h|k kB].
  have [Ks [ds [Ss [vs [E sz HS HK]]]]] := H M M0 (le_trans le LM) Q w h.
  have l : L / M%:R <= L' / M%:R by rewrite ler_wpmul2r // invr_ge0 ler0n.
  by exists Ks, ds, Ss, vs; split=> // i iM; have [h1 h2] := HS i iM; split; apply: le_trans l.
have [a0 aL] := at_sub kB.
have [D D0 H] := pass_from (P := sub P (at_ k) tau) tau0 (@sub_w _ _ _ _ P pwP (at_ k) tau a0 aL) (sub_data lP a0 aL) (sub_follows a0 aL sol) E00.
exists D => M M0 DM Q w h t; rewrite (sub_pass P (at_ k) tau); apply: H => //=; by rewrite atS.
Qed.
(** the element of one block *)
Definition block_ok (k : nat) (g : elem Rf n) : Prop :=
  [/\ elem_ok g, forall f, eJ f = S (at_ k.+1)%R -> eeta f = v (at_ k.+1)%R -> cJ g f = S (at_ k)%R /\ ceta g f = v (at_ k)%R &
      exists D, forall M, (0 < M)%N -> D <= M%:R -> exists2 g', block_elem P (tau / M%:R) 0 M fw k = Some g' & ed5 g' g <= D / M%:R].
Lemma block_ex k : (k < B)%N -> exists g, block_ok k g.
Proof.
move=> kB; have [a0 aL] := at_sub kB; pose Q := sub P (at_ k) tau.
have pwQ := @sub_w _ _ _ _ P pwP (at_ k) tau a0 aL; have lQ := sub_data lP a0 aL; have foQ := sub_follows a0 aL sol.
have tk M : (0 < M)%N -> (k * M)%:R * (tau / M%:R) = at_ k by move=> M0; rewrite natrM -mulrA [M%:R * _]mulrC divfK // pnatr_eq0 -lt0n.
rewrite /block_ok; case: fw.
  have [A [b [C [eta [J [e0 ec edr]]]]]] := elem_ex_fw (P := Q) tau0 pwQ lQ.
  have i1 : 0 <= kT Q <= kT Q by rewrite lexx tau0.
  exists (emap A b C eta J tau); split.
  - by have [] := ec _ i1.
  - move=> f; rewrite -(atS k) => h1 h2; have := elem_value_fw (P := Q) pwQ e0 ec edr foQ _ i1 h1 h2.
    by rewrite addr0; apply=> t ht; apply: S_psd; exact: (sub_in a0 aL ht).
  have [D D0 H] := block_conv_fw (P := Q) tau0 pwQ lQ e0 ec edr.
  by exists D => M M0 DM; have [g E h] := H M M0 DM; exists g; [rewrite -E; exact: sub_block (tk M M0) | exact: h].
have [A [b [C [eta [J [eT ec edr]]]]]] := elem_ex (P := Q) tau0 pwQ lQ.
have i0 : 0 <= (0 : Rf) <= kT Q by rewrite lexx tau0.
exists (emap A b C eta J 0); split.
- by have [] := ec 0 i0.
- move=> f; rewrite -(atS k) => h1 h2; have := elem_value (P := Q) tau0 pwQ lQ eT ec edr foQ _ h1 h2 i0.
  by rewrite addr0; apply; apply: S_psd; rewrite /= atS; exact: at_in.
have [D D0 H] := block_conv1 (P := Q) tau0 pwQ lQ eT ec edr.
exists D => M M0 DM; have [g E h] := H M M0 DM; exists g; [rewrite -E; exact: sub_block (tk M M0) | exact: h].
Qed.

Section Exact.
Variable g : nat -> elem Rf n.
Hypothesis gok : forall k, (k < B)%N -> block_ok k (g k).
Local Notation e1 := (Elem 1%:M 0 0 0 0 : elem Rf n).
Definition xk k : elem Rf n := if (k < B)%N then g k else Elem 0 0 0 (vT P) (ST P).
Lemma e1_ok : elem_ok e1. Proof. by split; [exact: s0 | exact: p0 | exact: s0 | exact: p0]. Qed.
Lemma xk_ok k : elem_ok (xk k).
Proof.
rewrite /xk; case: ifP => h; first by have [] := gok h.
by case: cw => -[sT _] pT' _; split; [exact: s0 | exact: p0 | exact: symm_cong | exact: psd_cong].
Qed.
Lemma comb1l f : comb2 e1 f = f.
Proof. by case: f => A b C eta J; rewrite /comb2 /= !(mul0mx, mulmx0, addr0, add0r, invmx1, mulmx1, mul1mx, trmx1, subr0, oppr0). Qed.
Lemma comb1r f : comb2 f e1 = f.
Proof. by case: f => A b C eta J; rewrite /comb2 /= !(mul0mx, mulmx0, addr0, add0r, invmx1, mulmx1, mul1mx, trmx1, subr0, oppr0). Qed.
Definition run (l : seq nat) : elem Rf n := foldr (fun k e => comb2 (xk k) e) e1 l.
Lemma run_ok l : elem_ok (run l).
Proof. by elim: l => [|k l IH] /=; [exact: e1_ok | apply: comb_ok => //; exact: xk_ok]. Qed.
Lemma comb2A (e f h : elem Rf n) : elem_ok e -> elem_ok f -> elem_ok h -> comb2 (comb2 e f) h = comb2 e (comb2 f h).
Proof.
move=> oe of_ oh; have := combine_assoc oe of_ oh (combineE oe of_) (combineE of_ oh).
rewrite !combineE; try exact: comb_ok; try by []; exact: Some_inj.
Qed.
Lemma run_cat l l' : comb2 (run l) (run l') = run (l ++ l').
Proof.
elim: l => [|k l IH] /=; first exact: comb1l.
by rewrite comb2A ?IH //; [exact: xk_ok | exact: run_ok | exact: run_ok].
Qed.
Definition exr (i j : nat) := run (iota i (j - i)).
Lemma exr_comb i j k : (i < j)%N -> (j < k)%N -> (k <= B.+1)%N -> combine_abcej (exr i j) (exr j k) = Some (exr i k).
Proof.
move=> ij jk _; rewrite combineE ?run_cat; try exact: run_ok.
congr Some; congr run; rewrite {2}(_ : j = i + (j - i))%N; last by lia.
by rewrite -iotaD; congr iota; lia.
Qed.
Lemma exr1 i : exr i i.+1 = xk i. Proof. by rewrite /exr subSnn /= comb1r. Qed.
Lemma exr_value k : (k <= B)%N -> eJ (exr k B.+1) = S (at_ k)%R /\ eeta (exr k B.+1) = v (at_ k)%R.
Proof.
move=> kB; have [d e] : exists d, (k + d = B)%N by exists (B - k)%N; lia.
elim: d k e {kB} => [|d IH] k e.
  by rewrite (_ : k = B) ?exr1 /xk ?ltnn /= ?atB; [case: sol => -> -> _ _ | lia].
have [hJ he] := IH k.+1 ltac:(lia); have kB : (k < B)%N by lia.
have C := @exr_comb k k.+1 B.+1 (ltnSn k) ltac:(lia) (leqnn _); rewrite exr1 /xk kB in C.
have [_ _ [_ _ ->]] := combine_inv C; have [_ ->] := combine_inv5 C.
by have [_ H _] := gok kB; exact: H.
Qed.
End Exact.
End Fam.
