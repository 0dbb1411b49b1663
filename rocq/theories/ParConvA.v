(** The block elements of the regulator's parallel backward pass converge to the exact block element. *)
From Coq Require Import Reals Lra.
From mathcomp Require Import all_ssreflect all_algebra zify.
From Verif Require Import RealF MxBase LqtModel LqtCore ScanModel ClqtFwd2 ClqtModel ClqtSpec ClqtPack Rk4Model Rk4Spec Rk4Proofs ClqrModel ClqrSpec ClqrExact ClqrPar ClqrElem RealExpSpec RealExp RealAssm ClqrOptSpec ClqrOpt RkConvA RkConvSpec RkQuadAlg RkConvB RkConvC RkConv ParAlg.
Import Order.TTheory GRing.Theory Num.Theory.
Set Implicit Arguments. Unset Strict Implicit. Unset Printing Implicit Defensive.
Local Open Scope ring_scope.
Delimit Scope R_scope with Re.
Local Arguments rk4_x : simpl never.

Lemma mderiv_row k l p (f : R -> 'M[Rf]_(p, k)) (g : R -> 'M[Rf]_(p, l)) (t : Rf) a b : mderiv f t a -> mderiv g t b ->
  mderiv (fun t => row_mx (f t) (g t)) t (row_mx a b).
Proof.
move=> hf hg i j; rewrite mxE; case E: (split j) => [j'|j'].
  by apply: dlim_ext (hf i j') => s; rewrite mxE E.
by apply: dlim_ext (hg i j') => s; rewrite mxE E.
Qed.
Lemma mderiv_lsub k l p (f : R -> 'M[Rf]_(p, k + l)) t D : mderiv f t D -> mderiv (fun t => lsubmx (f t)) t (lsubmx D).
Proof. by move=> h i j; rewrite mxE; apply: dlim_ext (h i (lshift l j)) => s; rewrite mxE. Qed.
Lemma mderiv_rsub k l p (f : R -> 'M[Rf]_(p, k + l)) t D : mderiv f t D -> mderiv (fun t => rsubmx (f t)) t (rsubmx D).
Proof. by move=> h i j; rewrite mxE; apply: dlim_ext (h i (rshift k j)) => s; rewrite mxE. Qed.
Lemma nrm_row k l p (A : 'M[Rf]_(p, k)) (B : 'M[Rf]_(p, l)) : nrm (row_mx A B) = nrm A + nrm B.
Proof.
rewrite /nrm -big_split /=; apply: eq_bigr => i _; rewrite big_split_ord /=.
by congr (_ + _); apply: eq_bigr => j _; rewrite ?row_mxEl ?row_mxEr.
Qed.

Section Block.
Variables n m : nat.
Variable q : clqr Rf n m.
Hypotheses (sU : symm (qU q)) (pU : pd (qU q)) (sX : symm (qX q)) (pX : psd (qX q)).
Local Notation ulT := (ulT q).
Local Notation N := (qL q *m ulT).
Local Notation F := (qF q).
Local Notation H := (qham q N).
Local Notation EE := (EE expmR q ulT).
Local Notation val := (val expmR q ulT).
Local Notation As := (As expmR q ulT).
Local Notation Cs := (Cs expmR q ulT).
Local Notation Js := (Js expmR q ulT).
Local Notation Z := ('M[Rf]_(n, n + (n + n))).
(** ** the exact elements *)
Lemma unit_CD (S : 'M[Rf]_n) (t : Rf) : psd S -> 0 <= t -> usubmx (CD expmR q ulT S t) \in unitmx.
Proof. by move=> pS t0; exact: (@unit_C n m (Clqr F (qL q) (qX q) (qU q) S (qT q)) sU pU pX pS t t0). Qed.
Lemma goodt (t : Rf) : 0 <= t -> good expmR q ulT t.
Proof. by move=> t0; have := unit_CD (@psd0 _ _) t0; rewrite CD_block col_mxKu mulmx0 addr0. Qed.
Lemma EE_deriv (t : Rf) : mderiv EE t (- H *m EE t).
Proof.
have := mderiv_aff (expm_deriv H (0 + (- 1) * t)).
rewrite scaleN1r add0r mulN1r -mulNmx; apply: mderiv_ext => s.
by rewrite add0r mulN1r.
Qed.
Local Notation P12 := (P12 expmR q ulT).
Local Notation P22 := (P22 expmR q ulT).
Lemma HEE (t : Rf) : - H *m EE t = block_mx (- F *m P11 expmR q ulT t + N *m P21 expmR q ulT t) (- F *m P12 t + N *m P22 t)
  (qX q *m P11 expmR q ulT t + F^T *m P21 expmR q ulT t) (qX q *m P12 t + F^T *m P22 t).
Proof. by rewrite {1}(EE_block expmR q ulT t) /qham opp_block_mx mulmx_block !opprK. Qed.
Lemma P12_deriv (t : Rf) : mderiv P12 t (- F *m P12 t + N *m P22 t).
Proof. by have := mderiv_rsub (mderiv_usub (EE_deriv t)); rewrite HEE -/(ursubmx _) block_mxKur. Qed.
Lemma P22_deriv (t : Rf) : mderiv P22 t (qX q *m P12 t + F^T *m P22 t).
Proof. by have := mderiv_rsub (mderiv_dsub (EE_deriv t)); rewrite HEE -/(drsubmx _) block_mxKdr. Qed.
Lemma Js_deriv (t : Rf) : 0 <= t -> mderiv Js t (- qriccati q N (Js t)).
Proof.
move=> t0; apply: derivative_mderiv; exact: (@val_derivative Rf expmR n m q ulT (expmR_group _) 0 t (unit_CD (@psd0 _ _) t0)).
Qed.
Lemma Jsym (t : Rf) : 0 <= t -> symm (Js t).
Proof. by move=> t0; exact: (@Js_symm Rf expmR n m q ulT (ultS sU pU) (expmR_group _) expmR_natural sU sX pU t (goodt t0)). Qed.
Lemma symN : symm N. Proof. exact: (@symm_N Rf n m q ulT (ultS sU pU) sU pU). Qed.
Lemma As_deriv (t : Rf) : 0 <= t -> mderiv As t (As t *m F - As t *m N *m Js t).
Proof.
move=> t0; have := mderiv_add (mderiv_tr (P22_deriv t)) (mderiv_opp (mderiv_mul (mderiv_tr (P12_deriv t)) (Js_deriv t0))).
congr (mderiv _ _ _).
exact (as_alg (qF q) (Js t) (P12 t) (P22 t) sX symN).
Qed.
Lemma AsTE (t : Rf) : 0 <= t -> (As t)^T = P22 t - Js t *m P12 t.
Proof. by move=> t0; exact: (@AsT Rf expmR n m q ulT (ultS sU pU) (expmR_group _) expmR_natural sU sX pU t (goodt t0)). Qed.
Lemma Cs_deriv (t : Rf) : 0 <= t -> mderiv Cs t (As t *m N *m (As t)^T).
Proof.
move=> t0; have := mderiv_mul (As_deriv t0) (P12_deriv t); congr (mderiv _ _ _).
by rewrite AsTE //; exact: (cs_alg (As t) F N (Js t) (P12 t) (P22 t)).
Qed.
Lemma Csym (t : Rf) : 0 <= t -> symm (Cs t).
Proof. by move=> t0; exact: (@Cs_symm Rf expmR n m q ulT (ultS sU pU) (expmR_group _) expmR_natural sU sX pU t (goodt t0)). Qed.
Definition mkz (A C J : 'M[Rf]_n) : Z := row_mx A (row_mx C J).
Definition zA (z : Z) : 'M[Rf]_n := lsubmx z.
Definition zC (z : Z) : 'M[Rf]_n := lsubmx (rsubmx z).
Definition zJ (z : Z) : 'M[Rf]_n := rsubmx (rsubmx z).
Lemma mkzK A C J : [/\ zA (mkz A C J) = A, zC (mkz A C J) = C & zJ (mkz A C J) = J].
Proof. by rewrite /zA /zC /zJ /mkz !row_mxKl !row_mxKr row_mxKl. Qed.
Lemma mkz_lin a A C J A' C' J' : a *: mkz A C J + mkz A' C' J' = mkz (a *: A + A') (a *: C + C') (a *: J + J').
Proof. by rewrite /mkz !scale_row_mx !add_row_mx. Qed.
Lemma mkz_add A C J A' C' J' : mkz A C J + mkz A' C' J' = mkz (A + A') (C + C') (J + J').
Proof. by rewrite /mkz !add_row_mx. Qed.
Lemma mkz_opp A C J : - mkz A C J = mkz (- A) (- C) (- J).
Proof. by rewrite /mkz !opp_row_mx. Qed.
Definition zc : Z := mkz 0 0 (qX q).
Definition zB (z : Z) : Z := mkz (zA z *m F) 0 (zJ z *m F + F^T *m zJ z).
Definition zb (y z : Z) : Z := mkz (- (zA y *m N *m zJ z)) (zA y *m N *m (zA z)^T) (- (zJ y *m N *m zJ z)).
Lemma zparts_lin a (x y : Z) : [/\ zA (a *: x + y) = a *: zA x + zA y, zC (a *: x + y) = a *: zC x + zC y & zJ (a *: x + y) = a *: zJ x + zJ y].
Proof. by rewrite /zA /zC /zJ !linearP. Qed.
Lemma zB_lin : linear_map (V := matrix_lmodType Rf n (n + (n + n))) (W := matrix_lmodType Rf n (n + (n + n))) zB.
Proof.
move=> a x y; rewrite /zB; case: (zparts_lin a x y) => -> _ ->.
rewrite [RHS]mkz_lin !mulmxDl !mulmxDr -!scalemxAl -!scalemxAr scaler0 addr0; congr mkz.
by rewrite addrACA scalerDr.
Qed.
Lemma zb_bil : bilinear_map (k := n) (l := n + (n + n)) zb.
Proof.
split=> z a x y; rewrite /zb; case: (zparts_lin a x y) => -> _ ->; rewrite [RHS]mkz_lin.
  have -> : (a *: zA x + zA y)^T = a *: (zA x)^T + (zA y)^T by rewrite linearP.
  by rewrite !mulmxDr -!scalemxAr !opprD -!scalerN.
by rewrite !mulmxDl -!scalemxAl !opprD -!scalerN.
Qed.
Definition zs (t : Rf) : Z := mkz (As t) (Cs t) (Js t).
Lemma zfE A C J : RkQuadAlg.f zc zB zb (mkz A C J) = mkz (A *m F - A *m N *m J) (A *m N *m A^T) (- qriccati q N J).
Proof.
rewrite /RkQuadAlg.f /zB /zb /zc; case: (mkzK A C J) => -> _ ->.
rewrite !mkz_add !add0r; congr mkz; exact: (ric_alg J F N (qX q)).
Qed.
Lemma zs_solves T : solves (RkQuadAlg.f zc zB zb) zs 0 T.
Proof.
have d (t : Rf) : 0 <= t -> mderiv zs t (RkQuadAlg.f zc zB zb (zs t)).
  by move=> t0; rewrite zfE; apply: mderiv_row (As_deriv t0) (mderiv_row (Cs_deriv t0) (Js_deriv t0)).
by split=> t /andP [h1 h2]; [exact: mderiv_cont (d t h1) | exact: d (ltW h1)].
Qed.
(** ** one step of the block element *)
Definition zel (e : elem Rf n) : Z := mkz (eA e) (eC e) (eJ e).
Definition zsym (z : Z) : Z := mkz (zA z) (symz (zC z)) (symz (zJ z)).
Local Notation zstep := (stp (R := Rf) (k := n) (l := n + (n + n)) zc zB zb).
Lemma step_zel h e : exists2 e', qelem_step (qbwpass_bw_ode_f q) (- h) e = Some e' & zel e' = zsym (zstep h (zel e)).
Proof.
pose T (x : 'M[Rf]_(n, 3 * n + 2)) : Z := zel (unpack_abcej x).
have lin : linear_map (V := matrix_lmodType Rf n (3 * n + 2)) (W := matrix_lmodType Rf n (n + (n + n))) T.
  by move=> a x y; rewrite /T abcej_unpack_lin /zel /elem_lin /=; rewrite [RHS]mkz_lin.
have cov z (s : Rf) : (fun z (_ : Rf) => Some (- RkQuadAlg.f zc zB zb z)) (T z + 0) s = omap T ((fun z (_ : Rf) => qbwpass_bw_ode_f q z) z s).
  rewrite addr0 /qbwpass_bw_ode_f ultS // obindS; congr Some.
  rewrite /T abcej_unpack; case: (unpack_abcej z) => A b C eta J; rewrite /zel /qbw_rhs zfE mkz_opp opprB !mulNmx; congr mkz.
  rewrite /= -[- (J *m F)]mulNmx; exact: (ric_alg2 J F N (qX q)).
have := @C41_affine_l Rf (matrix_lmodType Rf n (3 * n + 2)) (matrix_lmodType Rf n (n + (n + n))) T 0 (fun z _ => qbwpass_bw_ode_f q z) (fun z _ => Some (- RkQuadAlg.f zc zB zb z)) (- h) (pack_abcej e) 0 lin cov.
rewrite addr0 {1}/T abcej_unpack -(form_x (V := matrix_lmodType Rf n (n + (n + n)))) -(form_x (V := matrix_lmodType Rf n (3 * n + 2))).
rewrite (@rk4_neg (matrix_lmodType Rf n (n + (n + n))) _ (RkQuadAlg.f zc zB zb)) // rk4_stp /qelem_step.
case: (rk4_x _ _ _) => [x|] // [E]; rewrite obindS; exists (let: Elem A b C eta J := unpack_abcej x in Elem A b (symz C) eta (symz J)).
  by case: (unpack_abcej x).
rewrite E addr0 /T; case: (unpack_abcej x) => A b C eta J; rewrite /zel /zsym /=.
by case: (mkzK A C J) => -> -> ->.
Qed.
End Block.
