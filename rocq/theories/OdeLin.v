(** Solutions of linear differential equations and of the Riccati equation, for Lipschitz coefficients. *)
From Coq Require Import Reals Lra.
From mathcomp Require Import all_ssreflect all_algebra zify.
From Verif Require Import RealF MxBase RealExpSpec RealExp ClqrSpec ClqrOpt RealDisc RkConvA RkConv RkConvC TvarSpec TvarInv TvarLip TvarRk OdeEx.
Import Order.TTheory GRing.Theory Num.Theory.
Set Implicit Arguments. Unset Strict Implicit. Unset Printing Implicit Defensive.
Local Open Scope ring_scope.
Delimit Scope R_scope with Re.

Section Lip.
Variable T : Rf.
Hypothesis T0 : 0 <= T.
Notation lip := (lipschitz_on T).
Lemma lipC a b (A : 'M[Rf]_(a, b)) : lip (fun _ => A).
Proof. by exists 0 => s t _ _ i j; rewrite subrr normr0 mul0r. Qed.
Lemma lipD a b (f g : R -> 'M[Rf]_(a, b)) : lip f -> lip g -> lip (fun t => f t + g t).
Proof.
move=> [L H] [M K]; exists (L + M) => s t hs ht i j; rewrite !mxE opprD addrACA mulrDl.
by apply: le_trans (ler_norm_add _ _) _; apply: ler_add; [exact: H | exact: K].
Qed.
Lemma lipN a b (f : R -> 'M[Rf]_(a, b)) : lip f -> lip (fun t => - f t).
Proof. by move=> [L H]; exists L => s t hs ht i j; rewrite !mxE -opprD normrN; exact: H. Qed.
Lemma lipB a b (f g : R -> 'M[Rf]_(a, b)) : lip f -> lip g -> lip (fun t => f t - g t).
Proof. by move=> hf hg; apply: lipD => //; exact: lipN. Qed.
Lemma lipZ a b (q : Rf) (f : R -> 'M[Rf]_(a, b)) : lip f -> lip (fun t => q *: f t).
Proof.
move=> [L H]; exists (`|q| * L) => s t hs ht i j; rewrite !mxE -mulrBr normrM -mulrA ler_wpmul2l //; exact: H.
Qed.
Lemma lip_ext a b (f g : R -> 'M[Rf]_(a, b)) : (forall t : Rf, 0 <= t <= T -> f t = g t) -> lip f -> lip g.
Proof. by move=> e [L H]; exists L => s t hs ht i j; rewrite -!e //; exact: H. Qed.
Lemma lip_rev a b (f : R -> 'M[Rf]_(a, b)) : lip f -> lip (fun t : Rf => f (T - t)%R).
Proof.
have r (t : Rf) : 0 <= t <= T -> 0 <= T - t <= T by move=> /andP [h1 h2]; rewrite subr_ge0 h2 ler_subl_addr ler_addl.
move=> [L H]; exists L => s t hs ht i j; apply: le_trans (H _ _ (r _ hs) (r _ ht) i j) _.
by rewrite (_ : T - s - (T - t) = t - s); [rewrite distrC | abelr].
Qed.
Lemma lip_col a b c (f : R -> 'M[Rf]_(a, c)) (g : R -> 'M[Rf]_(b, c)) : lip f -> lip g -> lip (fun t => col_mx (f t) (g t)).
Proof.
move=> [L H] [M K]; exists (`|L| + `|M|) => s t hs ht i j; rewrite mulrDl.
have e0 := normr_ge0 (s - t); rewrite -(splitK i); case: (split i) => q; rewrite /= ?col_mxEu ?col_mxEd.
  by apply: le_trans (H s t hs ht q j) _; rewrite ler_paddr ?mulr_ge0 // ler_wpmul2r // ler_norm.
by apply: le_trans (K s t hs ht q j) _; rewrite ler_paddl ?mulr_ge0 // ler_wpmul2r // ler_norm.
Qed.
Lemma lip_row a b c (f : R -> 'M[Rf]_(a, b)) (g : R -> 'M[Rf]_(a, c)) : lip f -> lip g -> lip (fun t => row_mx (f t) (g t)).
Proof.
move=> hf hg; have := lip_tr (lip_col (lip_tr hf) (lip_tr hg)); apply: lip_ext => t _.
by rewrite tr_col_mx !trmxK.
Qed.
Lemma lip_block k l (A : R -> 'M[Rf]_k) (B : R -> 'M[Rf]_(k, l)) (C : R -> 'M[Rf]_(l, k)) (D : R -> 'M[Rf]_l) :
  lip A -> lip B -> lip C -> lip D -> lip (fun t => block_mx (A t) (B t) (C t) (D t)).
Proof. by move=> *; apply: lip_col; exact: lip_row. Qed.
Lemma lip_usub a b c (f : R -> 'M[Rf]_(a + b, c)) : lip f -> lip (fun t => usubmx (f t)).
Proof. by move=> [L H]; exists L => s t hs ht i j; rewrite !mxE; exact: H. Qed.
Lemma lip_dsub a b c (f : R -> 'M[Rf]_(a + b, c)) : lip f -> lip (fun t => dsubmx (f t)).
Proof. by move=> [L H]; exists L => s t hs ht i j; rewrite !mxE; exact: H. Qed.

(** ** affine equations *)
Lemma affine_lip k l (A : R -> 'M[Rf]_k) (a : R -> 'M[Rf]_(k, l)) : lip A -> lip a -> exists2 L : Rf, 0 <= L &
  forall x y (s t : Rf), 0 <= s <= T -> 0 <= t <= T -> nrm ((A s *m x + a s) - (A t *m y + a t)) <= L * (nrm (x - y) + `|s - t| * (1 + nrm x)).
Proof.
move=> /(lip_nrm T) [LA LA0 HA] /(lip_nrm T) [La La0 Ha].
have h00 : 0 <= (0 : Rf) <= T by rewrite lexx.
pose MA := nrm (A 0) + LA * T; have MA0 : 0 <= MA by rewrite addr_ge0 ?nrm_ge0 ?mulr_ge0.
have bA (t : Rf) : 0 <= t <= T -> nrm (A t) <= MA.
  move=> ht; have -> : A t = A 0 + (A t - A 0) by rewrite addrC subrK.
  apply: le_trans (nrmD _ _) _; rewrite ler_add2l; apply: le_trans (HA _ _ ht h00) _.
  by case/andP: ht => h1 h2; rewrite subr0 ger0_norm // ler_wpmul2l.
exists (MA + (LA + La)) => [|x y s t hs ht]; first by apply: addr_ge0 => //; exact: addr_ge0.
have -> : (A s *m x + a s) - (A t *m y + a t) = A t *m (x - y) + ((A s - A t) *m x + (a s - a t)).
  by rewrite mulmxBr mulmxBl; abelr.
have d0 := nrm_ge0 (x - y); have x0 := nrm_ge0 x; have e0 := normr_ge0 (s - t).
apply: le_trans (nrmD _ _) _; rewrite [X in _ <= X]mulrDl; apply: ler_add.
  apply: le_trans (nrm_mul _ _) _; apply: ler_pmul; [exact: nrm_ge0 | by [] | exact: bA |].
  by rewrite ler_addl mulr_ge0 ?addr_ge0 ?ler01.
apply: le_trans (nrmD _ _) _; rewrite [X in _ <= X]mulrDl; apply: ler_add.
  apply: le_trans (nrm_mul _ _) _; apply: (@le_trans _ _ (LA * `|s - t| * nrm x)); first by rewrite ler_wpmul2r // HA.
  by rewrite -mulrA ler_wpmul2l // ler_paddl // ler_wpmul2l // ler_addr ler01.
apply: le_trans (Ha _ _ hs ht) _; rewrite ler_wpmul2l // ler_paddl // ler_pemulr // ler_addl //.
Qed.
Lemma affine_ex k l (A : R -> 'M[Rf]_k) (a : R -> 'M[Rf]_(k, l)) (z0 : 'M[Rf]_(k, l)) : lip A -> lip a ->
  exists z, [/\ z 0 = z0, lip z, forall t : Rf, mcont z t & forall t : Rf, 0 < t < T -> mderiv z t (A t *m z t + a t)].
Proof.
move=> hA ha; have [L L0 HL] := affine_lip hA ha.
pose f x t := A t *m x + a t; pose z := sol T0 L0 (f := f) HL z0.
have ode : forall s t : Rf, 0 <= s <= T -> 0 <= t <= T -> nrm (z t - z s - (t - s) *: f (z s) s) <= cv f T L z0 * `|t - s| ^+ 2.
  exact: sol_ode.
have c0 : 0 <= cv f T L z0 by apply: (cv0 T0 _ _ z0).
have lz : lip z.
  apply/(lip_nrm T); exists (sp f T L z0) => [|s t hs ht]; first by apply: (sp0 T0 _ _ z0).
  apply: (@small_le _ ((k * l)%:R * cc f T L z0 s + (k * l)%:R * cc f T L z0 t)) => [|N].
    by rewrite addr_ge0 // mulr_ge0 ?ler0n // (cc0 T0 L0 HL).
  have h1 := sol_poly T0 L0 HL z0 N hs; have h2 := sol_poly T0 L0 HL z0 N ht; have h3 := poly_lip T0 L0 HL z0 N ht hs.
  have -> : z s - z t = (poly f T z0 N t - z t) - (poly f T z0 N s - z s) + (poly f T z0 N s - poly f T z0 N t) by abelr.
  apply: le_trans (nrmD _ _) _; rewrite [sp _ _ _ _ * _]mulrC; apply: ler_add => //.
  by apply: le_trans (nrmB _ _) _; rewrite mulrDl addrC; apply: ler_add.
exists z; split => //; first exact: sol0.
  by move=> t i j; apply: (cont_ext _ (lip_mcont T0 lz t i j)) => s; rewrite [z (clamp _ _)]sol_clamp.
move=> t /andP [t0 tT]; apply: derivative_mderiv.
exists (Num.min t (T - t)), (cv f T L z0); split; first by rewrite lt_minr t0 subr_gt0.
move=> g; rewrite le_minr => /andP [g1 g2]; have ht : 0 <= t <= T by rewrite !ltW.
have /andP [ga gb] : - t <= g <= T - t.
  move: g1 g2; rewrite !ler_norml => /andP [h1 _] /andP [_ h2]; by rewrite h1.
have hg : 0 <= t + g <= T by rewrite -ler_subl_addl sub0r ga addrC -ler_subr_addr.
move=> i j; have := ode t (t + g) ht hg; rewrite (_ : t + g - t = g); last by abelr.
rewrite real_normK ?num_real // => h; apply: le_trans h; apply: le_trans (nrm_entry _ i j).
by rewrite !mxE opprD addrA.
Qed.

(** ** the Riccati equation *)
Section Riccati.
Variable n : nat.
Variables F N Q : R -> 'M[Rf]_n.
Variable S0 : 'M[Rf]_n.
Hypothesis lF : lip F.
Hypothesis lN : lip N.
Hypothesis lQ : lip Q.
Hypothesis wN : forall t : Rf, 0 <= t <= T -> symm (N t) /\ psd (N t).
Hypothesis wQ : forall t : Rf, 0 <= t <= T -> symm (Q t) /\ psd (Q t).
Hypothesis sS : symm S0.
Hypothesis pS : psd S0.
Section Ham.
Variables C D : R -> 'M[Rf]_n.
Hypothesis C0 : C 0 = 1%:M.
Hypothesis D0 : D 0 = S0.
Hypothesis cC : forall t : Rf, mcont C t.
Hypothesis cD : forall t : Rf, mcont D t.
Hypothesis dC : forall t : Rf, 0 < t < T -> mderiv C t (- F t *m C t + N t *m D t).
Hypothesis dD : forall t : Rf, 0 < t < T -> mderiv D t (Q t *m C t + (F t)^T *m D t).
Lemma in_ (t : Rf) : 0 < t < T -> 0 <= t <= T. Proof. by case/andP => h1 h2; rewrite !ltW. Qed.
Lemma ham_d y (t : Rf) : 0 < t < T ->
  derivable_pt_lim (fun s => dot (C s *m y) (D s *m y)) t (qf (N t) (D t *m y) + qf (Q t) (C t *m y)).
Proof.
move=> ht; have := dlim_dot (mderiv_mulr y (dC ht)) (mderiv_mulr y (dD ht)); congr (derivable_pt_lim _ _ _).
have [sN _] := wN (in_ ht).
rewrite !mulmxDl !mulNmx !dotE -!mulmxA [dot (F t *m _) _]dotMl !qf_dot [dot (N t *m _) _]dotC.
by rewrite addrC addrA addrK addrC.
Qed.
Lemma ham_c y (t : Rf) : continuity_pt (fun s => dot (C s *m y) (D s *m y)) t.
Proof. by apply: cont_dot; apply: mcont_mul => //; exact: mcont_const. Qed.
Lemma ham_pos y (t : Rf) : 0 <= t <= T -> 0 <= qf (N t) (D t *m y) + qf (Q t) (C t *m y).
Proof. by move=> ht; have [_ pN] := wN ht; have [_ pQ] := wQ ht; rewrite addr_ge0. Qed.
Lemma sub_in (s t : Rf) : t <= T -> 0 < s < t -> 0 < s < T.
Proof. by move=> tT /andP [h1 h2]; rewrite h1 (lt_le_trans h2). Qed.
Lemma ham_mono y (t : Rf) : 0 <= t <= T -> 0 <= dot (C t *m y) (D t *m y).
Proof.
move=> /andP [t0 tT]; have := @mono_off [::] (fun s => dot (C s *m y) (D s *m y)) 0 t t0 (fun s _ => ham_c y s).
rewrite C0 D0 mul1mx -qf_dot => h; apply: le_trans (pS y) (h _) => s hs _.
by exists (qf (N s) (D s *m y) + qf (Q s) (C s *m y)); [apply: ham_d | apply: ham_pos; apply: in_]; exact: sub_in hs.
Qed.
(** C is invertible *)
Lemma ham_unit (t : Rf) : 0 <= t <= T -> C t \in unitmx.
Proof.
move=> ht; have /andP [t0 tT] := ht; apply: unit_ker => y Cy.
have [G [G0 _ cG dG]] := affine_ex 1%:M (lip_tr lF) (lipC (0 : 'M[Rf]_n)).
have zero (s : Rf) : 0 < s < t -> N s *m (D s *m y) = 0.
  move=> hs; have hs' := sub_in tT hs; have [sN pN] := wN (in_ hs'); have [_ pQ] := wQ (in_ hs').
  apply: psd_ker => //.
  have le : dot (C t *m y) (D t *m y) <= dot (C 0 *m y) (D 0 *m y) by rewrite Cy dot0l C0 D0 mul1mx -qf_dot.
  have := @flat_off [::] (fun s => dot (C s *m y) (D s *m y)) 0 t t0 (fun s _ => ham_c y s) _ le s _ hs (ham_d y hs').
  move=> h; have /eqP : qf (N s) (D s *m y) + qf (Q s) (C s *m y) = 0.
    apply: h => r hr _; exists (qf (N r) (D r *m y) + qf (Q r) (C r *m y)); [apply: ham_d | apply: ham_pos; apply: in_]; exact: sub_in hr.
  by rewrite paddr_eq0 // => /andP [/eqP].
pose v (s : Rf) := (G s)^T *m (C s *m y).
have cv (s : Rf) : 0 <= s <= t -> mcont v s.
  move=> _; apply: mcont_mul; last by apply: mcont_mul => //; exact: mcont_const.
  by move=> i j; apply: (cont_ext _ (cG s j i)) => r; rewrite mxE.
have dv (s : Rf) : 0 < s < t -> mderiv v s 0.
  move=> hs; have hs' := sub_in tT hs.
  have := mderiv_mul (mderiv_tr (dG s hs')) (mderiv_mulr y (dC hs')); congr (mderiv _ _ _).
  by rewrite addr0 trmx_mul trmxK mulmxDl !mulNmx -!mulmxA (zero s hs) addr0 mulmxN subrr.
by have := const_on t0 cv dv; rewrite /v Cy mulmx0 G0 C0 trmx1 !mul1mx.
Qed.
Lemma ham_sym (t : Rf) : 0 <= t <= T -> (C t)^T *m D t = (D t)^T *m C t.
Proof.
move=> ht; have /andP [t0 tT] := ht; pose W (s : Rf) := (C s)^T *m D s - (D s)^T *m C s.
have cT (X : R -> 'M[Rf]_n) (s : Rf) : mcont X s -> mcont (fun s => (X s)^T) s.
  by move=> h i j; apply: (cont_ext _ (h j i)) => r; rewrite mxE.
have cW (s : Rf) : 0 <= s <= t -> mcont W s by move=> _; apply: mcont_sub; apply: mcont_mul => //; exact: cT.
have dW (s : Rf) : 0 < s < t -> mderiv W s 0.
  move=> hs; have hs' := sub_in tT hs; have [sN _] := wN (in_ hs'); have [sQ _] := wQ (in_ hs').
  have := mderiv_add (mderiv_mul (mderiv_tr (dC hs')) (dD hs')) (mderiv_opp (mderiv_mul (mderiv_tr (dD hs')) (dC hs'))).
  congr (mderiv _ _ _); rewrite !raddfD /= !trmx_mul trmxK raddfN /= sN sQ !mulmxDl !mulNmx !mulmxN !mulNmx !opprD ?opprK !mulmxA; abelr.
have := const_on t0 cW dW; rewrite /W C0 D0 trmx1 mul1mx mulmx1 sS subrr => /eqP; by rewrite subr_eq0 => /eqP.
Qed.
Definition ric (t : R) : 'M[Rf]_n := D t *m invmx (C t).
Lemma ric_symm (t : Rf) : 0 <= t <= T -> symm (ric t).
Proof.
move=> ht; have u := ham_unit ht; rewrite /symm /ric trmx_mul trmx_inv.
apply: (canRL (mulmxK u)); rewrite -mulmxA -ham_sym // mulmxA mulVmx ?mul1mx // unitmx_tr //.
Qed.
Lemma ric_psd (t : Rf) : 0 <= t <= T -> psd (ric t).
Proof.
move=> ht x; have u := ham_unit ht; have := ham_mono (invmx (C t) *m x) ht.
by rewrite mulKVmx // qf_dot /ric mulmxA.
Qed.
Lemma ric_d (t : Rf) : 0 < t < T -> mderiv ric t ((F t)^T *m ric t + ric t *m F t - ric t *m N t *m ric t + Q t).
Proof.
move=> ht; have u := ham_unit (in_ ht).
have := mderiv_mul (dD ht) (mderiv_invmx u (dC ht)); congr (mderiv _ _ _).
rewrite /ric !mulmxDl !mulmxDr !mulmxN !mulNmx !mulmxDl !mulmxN !mulNmx mulmxDr mulmxN !mulmxA !mulmxK // opprD opprK; abelr.
Qed.
End Ham.
Lemma riccati_ex : exists S, [/\ S 0 = S0, lip S, forall t : Rf, 0 <= t <= T -> [/\ mcont S t, symm (S t) & psd (S t)] &
  forall t : Rf, 0 < t < T -> mderiv S t ((F t)^T *m S t + S t *m F t - S t *m N t *m S t + Q t)].
Proof.
pose M t := block_mx (- F t) (N t) (Q t) (F t)^T.
have lM : lip M by apply: lip_block => //; [exact: lipN | exact: lip_tr].
have [z [z0 lz cz dz]] := affine_ex (col_mx 1%:M S0) lM (lipC (0 : 'M[Rf]_(n + n, n))).
pose C t := usubmx (z t); pose D t := dsubmx (z t).
have zE t : z t = col_mx (C t) (D t) by rewrite vsubmxK.
have C0 : C 0 = 1%:M by rewrite /C z0 col_mxKu.
have D0 : D 0 = S0 by rewrite /D z0 col_mxKd.
have cC (t : Rf) : mcont C t by move=> i j; apply: (cont_ext _ (cz t (lshift n i) j)) => s; rewrite mxE.
have cD (t : Rf) : mcont D t by move=> i j; apply: (cont_ext _ (cz t (rshift n i) j)) => s; rewrite mxE.
have dzE (t : Rf) : 0 < t < T -> mderiv z t (col_mx (- F t *m C t + N t *m D t) (Q t *m C t + (F t)^T *m D t)).
  by move=> ht; have := dz t ht; rewrite addr0 zE /M mul_block_col.
have dC (t : Rf) : 0 < t < T -> mderiv C t (- F t *m C t + N t *m D t).
  by move=> ht; have := mderiv_usub (dzE t ht); rewrite col_mxKu.
have dD (t : Rf) : 0 < t < T -> mderiv D t (Q t *m C t + (F t)^T *m D t).
  by move=> ht; have := mderiv_dsub (dzE t ht); rewrite col_mxKd.
have u := ham_unit C0 D0 cC cD dC dD.
exists (ric C D); split.
- by rewrite /ric C0 D0 invmx1 mulmx1.
- by apply: lip_mul; [exact: lip_dsub | apply: lip_inv => //; exact: lip_usub].
- move=> t ht; split; [| exact: (ric_symm C0 D0 cC cD dC dD) | exact: (ric_psd C0 D0 cC cD dC dD)].
  by apply: mcont_mul => //; apply: mcont_invmx => //; exact: u.
- exact: (ric_d C0 D0 cC cD dC dD).
Qed.
End Riccati.
End Lip.
