(** The elements of the parallel passes map the solution of the forward equations at the start of a block to the one at its end. *)
From Coq Require Import Reals.
From mathcomp Require Import all_ssreflect all_algebra zify.
From Verif Require Import RealF MxBase LqtModel LqtSpec LqtCore LqtElem LinComb ScanModel ClqtModel ClqtSpec ClqtPack ClqtFwd2 RealExpSpec RealExp ClqrOpt RealDisc RkConvA RkConvC RkConv RkConvP
  FbConvC TrackOptSpec TvarSpec TvarInv TvarLip TvarPack TvarRk Tvar TvarBwd TvarFwd TvarFb OdeLin TvarExistSpec TvarExist TvarCost ClqrPar ParConvB TvarParA TvarParB TvarParC TvarParFw.
Import Order.TTheory GRing.Theory Num.Theory.
Set Implicit Arguments. Unset Strict Implicit. Unset Printing Implicit Defensive.
Local Open Scope ring_scope.
Delimit Scope R_scope with Re.

Section Alg.
Variables (R : realFieldType) (n : nat).
Implicit Types A C D J F N X Q G S M W : 'M[R]_n.
Lemma Mb_alg F N Q C J : (F *m C - C *m Q *m C + C *m F^T + N) *m J + C *m (- Q + J *m N *m J - J *m F - F^T *m J) =
  F *m (1%:M + C *m J) - (1%:M + C *m J) *m F + (1%:M + C *m J) *m N *m J - C *m Q *m (1%:M + C *m J).
Proof. rewrite !mulmxDr !mulmxDl !mulmx1 !mul1mx; mxexp; abel. Qed.
Lemma Gb_alg F N Q C J G M : G *m M = 1%:M -> M *m G = 1%:M ->
  - (G *m (F *m M - M *m F + M *m N *m J - C *m Q *m M) *m G) = - (G *m F) + F *m G - N *m J *m G + G *m C *m Q.
Proof.
move=> GM MG.
have e1 : G *m (F *m M) *m G = G *m F by rewrite -!mulmxA MG mulmx1.
have e2 : G *m (M *m F) *m G = F *m G by rewrite mulmxA GM mul1mx.
have e3 : G *m (M *m N *m J) *m G = N *m J *m G by rewrite !mulmxA GM mul1mx.
have e4 : G *m (C *m Q *m M) *m G = G *m C *m Q by rewrite -!mulmxA MG mulmx1.
rewrite mulmxBr mulmxDr mulmxBr mulmxBl mulmxDl mulmxBl e1 e2 e3 e4; abel.
Qed.
Lemma Wb_alg F N Q C J G A : symm J -> symm N -> G *m (1%:M + C *m J) = 1%:M ->
  (A *m N *m J - A *m F) *m (G *m (C *m A^T)) +
  A *m ((- (G *m F) + F *m G - N *m J *m G + G *m C *m Q) *m (C *m A^T) +
    G *m ((F *m C - C *m Q *m C + C *m F^T + N) *m A^T + C *m (A *m N *m J - A *m F)^T)) + - A *m N *m A^T = 0.
Proof.
move=> sJ sN GM; have hN : N = (G + G *m C *m J) *m N by rewrite -{1}[G]mulmx1 -mulmxA -mulmxDr GM mul1mx.
have -> : - A *m N *m A^T = - (A *m ((G + G *m C *m J) *m N) *m A^T) by rewrite -hN !mulNmx.
mxexp; rewrite sJ sN; mxexp; abel.
Qed.
Lemma yb_alg F N Q C J G A (b c x eta : 'cV[R]_n) : G *m (1%:M + C *m J) = 1%:M ->
  (A *m N *m J - A *m F) *m (G *m (b + C *m eta)) +
  A *m ((- (G *m F) + F *m G - N *m J *m G + G *m C *m Q) *m (b + C *m eta) +
    G *m ((F *m b + C *m x - C *m Q *m b + c) + ((F *m C - C *m Q *m C + C *m F^T + N) *m eta + C *m (- x + J *m N *m eta - F^T *m eta + J *m c)))) +
  (- A *m N *m eta - A *m c) = 0.
Proof.
move=> GM; have h k (z : 'M[R]_(n, k)) : z = G *m z + G *m C *m J *m z.
  by rewrite -mulmxDl -{1}[G]mulmx1 -mulmxA -mulmxDr GM mul1mx.
have -> : - A *m N *m eta - A *m c = - (A *m (G *m N + G *m C *m J *m N) *m eta) - A *m (G *m c + G *m C *m J *m c) by rewrite -!h !mulNmx.
mxexp; abel.
Qed.
Lemma Xf_alg F N Q C D J G A : symm D -> symm Q -> let X := A *m (G *m (C *m A^T)) + D in
  (F *m A - D *m Q *m A) *m (G *m (C *m A^T)) + A *m (- (G *m (C *m (A^T *m Q *m A)) *m G) *m (C *m A^T) + G *m (C *m (F *m A - D *m Q *m A)^T)) +
  (F *m D - D *m Q *m D + D *m F^T + N) = F *m X - X *m Q *m X + X *m F^T + N.
Proof. move=> sD sQ X; rewrite /X; mxexp; rewrite sD sQ; mxexp; abel. Qed.
Lemma yf_alg F Q C D G A (b be c x eta : 'cV[R]_n) : let X := A *m (G *m (C *m A^T)) + D in let y := A *m (G *m (b + C *m eta)) + be in
  (F *m A - D *m Q *m A) *m (G *m (b + C *m eta)) + A *m (- (G *m (C *m (A^T *m Q *m A)) *m G) *m (b + C *m eta) + G *m (C *m (A^T *m x - A^T *m Q *m be))) +
  (F *m be + D *m x - D *m Q *m be + c) = F *m y + X *m x - X *m Q *m y + c.
Proof. move=> X y; rewrite /X /y; mxexp; abel. Qed.
End Alg.

Section Exact.
Variables n m p pT : nat.
Variable P : clqt Rf n m p pT.
Local Notation T := (kT P).
Hypothesis T0 : 0 <= T.
Hypothesis pw : forall t : Rf, 0 <= t <= T -> [/\ symm (kX P t), psd (kX P t), symm (kU P t) & pd (kU P t)].
Hypothesis lP : lipschitz_data P.
Local Notation N := (nn P).
Local Notation qq := (qq P).
Local Notation P0 := (term P (0 : 'M[Rf]_n) 0 0).
Let wt : tracking_weights P0 0. Proof. exact: w0. Qed.
Local Notation x_ t := ((kH P t)^T *m kX P t *m kr P t).
(** solutions of the forward equations with any start *)
Definition goes (b : R -> 'cV[Rf]_n) (C : R -> 'M[Rf]_n) : Prop :=
  (forall t : Rf, 0 <= t <= T -> [/\ mcont b t, mcont C t & symm (C t)]) /\
  forall t : Rf, 0 < t < T -> mderiv b t (kF P t *m b t + C t *m x_ t - C t *m qq t *m b t + kc P t) /\
    mderiv C t (kF P t *m C t - C t *m qq t *m C t + C t *m (kF P t)^T + N t).
Local Notation ra := (ra P).
Lemma ra_bl : bl T ra. Proof. exact: (@bl_ra _ _ _ _ P0 T0 wt lP). Qed.
Lemma goes_cont b C : goes b C -> forall t : Rf, 0 <= t <= T -> mcont (za b C) t.
Proof. by move=> [c _] t /c [cb cC _]; apply: mcont_abc => //; exact: mcont_const. Qed.
Lemma goes_deriv b C : goes b C -> forall t : Rf, 0 < t < T -> mderiv (za b C) t (ra (za b C t) t).
Proof.
move=> [_ d] t ht; have [hb hC] := d t ht.
have := mderiv_abc (mderiv_const 0 t) hb hC; congr (mderiv _ _ _).
by rewrite /ra /za abc_unpack /abc_rhs !mulmx0 subrr /qq !mulmxA.
Qed.
Lemma goes_unique b C b' C' : goes b C -> goes b' C' -> b 0 = b' 0 -> C 0 = C' 0 -> b T = b' T /\ C T = C' T.
Proof.
move=> g g' eb eC.
have [D D0 H] := @rk_order1_from _ _ ra (za b C) T T0 (bl_nrm ra_bl) (goes_cont g) (goes_deriv g) 0 (lexx _).
have [D' D0' H'] := @rk_order1_from _ _ ra (za b' C') T T0 (bl_nrm ra_bl) (goes_cont g') (goes_deriv g') 0 (lexx _).
have z : nrm (za b C T - za b' C' T) <= 0.
  rewrite leNgt; apply/negP => pos; set d := nrm _ in pos.
  have [N0 HN0] := big_nat_above (D + D'); have [N1 HN1] := big_nat_above ((D + D' + 1) / d).
  pose M := (maxn N0 N1).+1; have Mp : (0 < M)%N by [].
  have m0 : D + D' <= M%:R by apply: HN0; rewrite /M; lia.
  have m1 : (D + D' + 1) / d <= M%:R by apply: HN1; rewrite /M; lia.
  pose xs := fix xs i : 'M[Rf]_(n, 2 * n + 1) := if i is i'.+1 then tstp ra (T / M%:R) (xs i') (i'%:R * (T / M%:R)) else za b C 0.
  have tM : M%:R * (T / M%:R) = T by rewrite mulrC divfK // pnatr_eq0.
  have := H M Mp _ xs _ (fun i _ => lexx _) M (leqnn M); rewrite tM subrr nrm0 mul0r lexx => /(_ _ isT) h1.
  have := H' M Mp _ xs _ (fun i _ => lexx _) M (leqnn M); rewrite tM /= {1}/za eb eC subrr nrm0 mul0r lexx => /(_ _ isT) h2.
  have {}h1 := h1 (le_trans _ m0); have {}h2 := h2 (le_trans _ m0).
  have {}h1 : nrm (xs M - za b C T) <= D / M%:R by apply: h1; rewrite ler_addl.
  have {}h2 : nrm (xs M - za b' C' T) <= D' / M%:R by apply: h2; rewrite ler_addr.
  have le : d <= (D + D') / M%:R.
    rewrite /d (_ : za b C T - za b' C' T = (xs M - za b' C' T) - (xs M - za b C T)); last by abelr.
    by apply: le_trans (nrmD _ _) _; rewrite nrmN addrC mulrDl; exact: ler_add.
  move: m1; rewrite ler_pdivr_mulr // => m1; move: le; rewrite ler_pdivl_mulr ?ltr0n // mulrC => le.
  by have := le_trans m1 le; rewrite ger_addl lt_geF ?ltr01.
have /eqP : nrm (za b C T - za b' C' T) = 0 by apply/eqP; rewrite eq_le z nrm_ge0.
rewrite /za abc_sub nrm_abc => h.
have [h1 h2] : nrm (b T - b' T) = 0 /\ nrm (C T - C' T) = 0.
  move/eqP: h => h; have a1 := nrm_ge0 (b T - b' T); have a2 := nrm_ge0 (C T - C' T); have a3 := nrm_ge0 (0 - 0 : 'M[Rf]_n).
  by split; apply/eqP; rewrite eq_le ?a1 ?a2 andbT -h; [rewrite ler_addr addr_ge0 | rewrite -addrA addrCA ler_addl addr_ge0].
by split; apply/eqP; rewrite -subr_eq0; apply/eqP; exact: nrm_eq0.
Qed.
Section Given.
Variables (A C J : R -> 'M[Rf]_n) (b eta : R -> 'cV[Rf]_n).
Local Notation e := (emap A b C eta J).
Hypothesis ec : forall t : Rf, 0 <= t <= T -> [/\ mcont A t, mcont b t, mcont C t, mcont eta t & mcont J t] /\ elem_ok (e t).
Let cT (t : Rf) : 0 <= t <= T -> mcont (fun t => (A t)^T) t.
Proof. by move=> ht i j; have [[cA _ _ _ _] _] := ec ht; apply: (cont_ext _ (cA j i)) => s; rewrite mxE. Qed.
Lemma elem_goes_fw : e 0 = Elem 1%:M 0 0 0 0 ->
  (forall t : Rf, 0 < t < T -> let r := fw_rhs P t (N t) (e t) in
    [/\ mderiv A t (eA r), mderiv b t (eb r), mderiv C t (eC r), mderiv eta t (eeta r) & mderiv J t (eJ r)]) ->
  forall bf Cf, goes bf Cf -> psd (Cf 0) -> forall f, eC f = Cf 0 -> eb f = bf 0 -> cC f (e T) = Cf T /\ cb f (e T) = bf T.
Proof.
move=> e0 edr bf Cf gf pCf f fC fb; set C0 := Cf 0 in pCf fC; set b0 := bf 0 in fb.
have sC0 : symm C0 by case: gf => c _; have [] := c 0 _; rewrite ?lexx.
pose G (t : R) := invmx (1%:M + C0 *m J t).
have un (t : Rf) : 0 <= t <= T -> 1%:M + C0 *m J t \in unitmx.
  by move=> ht; have [_ [_ _ sJ pJ]] := ec ht; exact: unit_ICJ.
pose X (t : R) := A t *m (G t *m (C0 *m (A t)^T)) + C t.
pose y (t : R) := A t *m (G t *m (b0 + C0 *m eta t)) + b t.
have cG (t : Rf) : 0 <= t <= T -> mcont G t.
  move=> ht; have [[cA cb' cC' _ cJ'] _] := ec ht.
  by apply: mcont_invmx; [exact: un | apply: mcont_add; [exact: mcont_const | apply: mcont_mul => //; exact: mcont_const]].
have gX : goes y X.
  split=> t ht.
    have [[cA cb' cC' ceta' cJ'] [sC pC sJ pJ]] := ec ht; split.
    - apply: mcont_add => //; apply: mcont_mul => //; apply: mcont_mul; first exact: cG.
      by apply: mcont_add; [exact: mcont_const | apply: mcont_mul => //; exact: mcont_const].
    - apply: mcont_add => //; apply: mcont_mul => //; apply: mcont_mul; first exact: cG.
      by apply: mcont_mul; [exact: mcont_const | exact: cT].
    have o : elem_ok (Elem 0 0 C0 0 0 : elem Rf n) by split=> //; [exact: s0 | exact: p0].
    by have [h _ _ _] := comb_ok o (ec ht).2; rewrite /symm /X /G; move: h; rewrite /comb2 /= /symm !mulmxA.
  have i : 0 <= t <= T by case/andP: ht => h1 h2; rewrite !ltW.
  have [_ [sC pC sJ pJ]] := ec i; have [sQ _] := qq_ok pw i.
  have [dA db dC deta dJ] : [/\ mderiv A t (kF P t *m A t - C t *m qq t *m A t),
     mderiv b t (kF P t *m b t + C t *m x_ t - C t *m qq t *m b t + kc P t),
     mderiv C t (kF P t *m C t - C t *m qq t *m C t + C t *m (kF P t)^T + N t),
     mderiv eta t ((A t)^T *m x_ t - (A t)^T *m qq t *m b t) & mderiv J t ((A t)^T *m qq t *m A t)].
    by have := edr t ht; rewrite /qq /= !mulmxA.
  have dM := mderiv_add (mderiv_const 1%:M t) (mderiv_mull C0 dJ); rewrite add0r in dM.
  have dG := mderiv_invmx (un t i) dM; rewrite -/(G t) in dG.
  split.
    have := mderiv_add (mderiv_mul dA (mderiv_mul dG (mderiv_add (mderiv_const b0 t) (mderiv_mull C0 deta)))) db; congr (mderiv _ _ _).
    by rewrite add0r; apply: yf_alg.
  have := mderiv_add (mderiv_mul dA (mderiv_mul dG (mderiv_mull C0 (mderiv_tr dA)))) dC; congr (mderiv _ _ _).
  by apply: Xf_alg.
have [eA eb eC eeta eJ] : [/\ A 0 = 1%:M, b 0 = 0, C 0 = 0, eta 0 = 0 & J 0 = 0] by case: e0.
have [||h1 h2] := goes_unique gX gf.
- by rewrite /y /G eA eb eeta eJ !(mulmx0, addr0, invmx1, mul1mx).
- by rewrite /X /G eA eC eJ !(mulmx0, addr0, invmx1, mul1mx, trmx1, mulmx1).
by rewrite -h1 -h2 /cC /cb /cL /= fC fb.
Qed.
Lemma elem_goes_bw : e T = Elem 1%:M 0 0 0 0 ->
  (forall t : Rf, 0 < t < T -> let r := bw_rhs P t (N t) (e t) in
    [/\ mderiv A t (eA r), mderiv b t (eb r), mderiv C t (eC r), mderiv eta t (eeta r) & mderiv J t (eJ r)]) ->
  forall bf Cf, goes bf Cf -> (forall t : Rf, 0 <= t <= T -> psd (Cf t)) -> forall f, eC f = Cf 0 -> eb f = bf 0 -> cC f (e 0) = Cf T /\ cb f (e 0) = bf T.
Proof.
move=> eT edr bf Cf [cf df] pCf f fC fb.
pose G (t : R) := invmx (1%:M + Cf t *m J t).
have un (t : Rf) : 0 <= t <= T -> 1%:M + Cf t *m J t \in unitmx.
  by move=> ht; have [_ [_ _ sJ pJ]] := ec ht; have [_ _ sC] := cf t ht; apply: unit_ICJ => //; exact: pCf.
pose X (t : R) := A t *m (G t *m (Cf t *m (A t)^T)) + C t.
pose y (t : R) := A t *m (G t *m (bf t + Cf t *m eta t)) + b t.
have cG (t : Rf) : 0 <= t <= T -> mcont G t.
  move=> ht; have [[cA cb' cC' _ cJ'] _] := ec ht; have [c1 c2 _] := cf t ht.
  by apply: mcont_invmx; [exact: un | apply: mcont_add; [exact: mcont_const | exact: mcont_mul]].
have cX (t : Rf) : 0 <= t <= T -> mcont X t.
  move=> ht; have [[cA cb' cC' ceta' cJ'] _] := ec ht; have [c1 c2 _] := cf t ht.
  apply: mcont_add => //; apply: mcont_mul => //; apply: mcont_mul; first exact: cG.
  by apply: mcont_mul => //; exact: cT.
have cy (t : Rf) : 0 <= t <= T -> mcont y t.
  move=> ht; have [[cA cb' cC' ceta' cJ'] _] := ec ht; have [c1 c2 _] := cf t ht.
  apply: mcont_add => //; apply: mcont_mul => //; apply: mcont_mul; first exact: cG.
  by apply: mcont_add => //; exact: mcont_mul.
have D (t : Rf) : 0 < t < T -> mderiv X t 0 /\ mderiv y t 0.
  move=> ht; have i : 0 <= t <= T by case/andP: ht => h1 h2; rewrite !ltW.
  have [_ [sC pC sJ pJ]] := ec i; have [hb hC] := df t ht.
  have [sN _] := Nok pw i.
  have [dA db dC deta dJ] : [/\ mderiv A t (A t *m N t *m J t - A t *m kF P t),
     mderiv b t (- A t *m N t *m eta t - A t *m kc P t),
     mderiv C t (- A t *m N t *m (A t)^T),
     mderiv eta t (- x_ t + J t *m N t *m eta t - (kF P t)^T *m eta t + J t *m kc P t) & mderiv J t (- qq t + J t *m N t *m J t - J t *m kF P t - (kF P t)^T *m J t)].
    by have := edr t ht; rewrite /qq /= !mulNmx.
  have GM : G t *m (1%:M + Cf t *m J t) = 1%:M by exact: mulVmx (un t i).
  have MG : (1%:M + Cf t *m J t) *m G t = 1%:M by exact: mulmxV (un t i).
  have dM := mderiv_add (mderiv_const 1%:M t) (mderiv_mul hC dJ); rewrite add0r Mb_alg in dM.
  have dG := mderiv_invmx (un t i) dM; rewrite -/(G t) (Gb_alg _ _ _ _ _ GM MG) in dG.
  split.
    have := mderiv_add (mderiv_mul dA (mderiv_mul dG (mderiv_mul hC (mderiv_tr dA)))) dC; congr (mderiv _ _ _).
    by apply: Wb_alg => //.
  have := mderiv_add (mderiv_mul dA (mderiv_mul dG (mderiv_add hb (mderiv_mul hC deta)))) db; congr (mderiv _ _ _).
  by apply: yb_alg.
have FX := flat_const cX (fun t ht => (D t ht).1); have Fy := flat_const cy (fun t ht => (D t ht).2).
have iT : 0 <= T <= T by rewrite T0 lexx.
have [eA eb eC eeta eJ] : [/\ A T = 1%:M, b T = 0, C T = 0, eta T = 0 & J T = 0] by case: eT.
have -> : cC f (e 0) = X 0 by rewrite /cC /cL /= fC.
have -> : cb f (e 0) = y 0 by rewrite /cb /cL /= fC fb.
rewrite -(FX T iT) -(Fy T iT) /X /y /G eA eb eC eeta eJ !(mulmx0, addr0, invmx1, mul1mx, trmx1, mulmx1); by [].
Qed.
End Given.
End Exact.
