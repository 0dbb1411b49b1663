(** The forward elements of the forward-backward pass converge with order four. *)
From Coq Require Import Reals Lra.
From mathcomp Require Import all_ssreflect all_algebra zify.
From Verif Require Import RealF MxBase LqtModel LqtCore ScanModel ClqtFwd2 ClqtModel ClqtSpec ClqtPack Rk4Model Rk4Spec Rk4Proofs ClqrModel ClqrSpec ClqrExact ClqrElem RealExpSpec RealExp RealAssm ClqrOptSpec ClqrOpt RkConvA RkConvSpec RkQuadAlg RkConvB RkConvC RkConv RkConvP ParAlg ParConvA FbAlg.
Import Order.TTheory GRing.Theory Num.Theory.
Set Implicit Arguments. Unset Strict Implicit. Unset Printing Implicit Defensive.
Local Open Scope ring_scope.
Delimit Scope R_scope with Re.
Local Arguments rk4_x : simpl never.

Section Fb.
Variables n m : nat.
Variable q : clqr Rf n m.
Hypotheses (sU : symm (qU q)) (pU : pd (qU q)) (sX : symm (qX q)) (pX : psd (qX q)).
Local Notation ulT := (ulT q).
Local Notation N := (qL q *m ulT).
Local Notation F := (qF q).
Local Notation X := (qX q).
Local Notation H := (qham q N).
Local Notation EE := (EE expmR q ulT).
Local Notation P11 := (P11 expmR q ulT).
Local Notation P12 := (P12 expmR q ulT).
Local Notation P21 := (P21 expmR q ulT).
Local Notation P22 := (P22 expmR q ulT).
Local Notation As := (As expmR q ulT).
Local Notation Cs := (Cs expmR q ulT).
Local Notation Js := (Js expmR q ulT).
Lemma H_comm (t : Rf) : - H *m EE t = EE t *m - H.
Proof. by rewrite mulNmx mulmxN /ClqrExact.EE expm_comm. Qed.
Lemma EEH (t : Rf) : EE t *m - H = block_mx (P11 t *m - F + P12 t *m X) (P11 t *m N + P12 t *m F^T) (P21 t *m - F + P22 t *m X) (P21 t *m N + P22 t *m F^T).
Proof. by rewrite {1}(EE_block expmR q ulT t) /qham opp_block_mx mulmx_block !opprK. Qed.
Lemma comm11 (t : Rf) : - F *m P11 t + N *m P21 t = P11 t *m - F + P12 t *m X.
Proof. by have := congr1 (fun M => ulsubmx M) (H_comm t); rewrite HEE EEH !block_mxKul. Qed.
Lemma P12_deriv' (t : Rf) : mderiv P12 t (P11 t *m N + P12 t *m F^T).
Proof. by have := mderiv_rsub (mderiv_usub (EE_deriv q t)); rewrite H_comm EEH -/(ursubmx _) block_mxKur. Qed.
Lemma P11_deriv' (t : Rf) : mderiv P11 t (P11 t *m - F + P12 t *m X).
Proof. by have := mderiv_lsub (mderiv_usub (EE_deriv q t)); rewrite H_comm EEH -/(ulsubmx _) block_mxKul. Qed.
Lemma AP (t : Rf) : 0 <= t -> As t *m P11 t = 1%:M.
Proof. by move=> t0; exact: (As_P11 (ultS sU pU) (expmR_group _) expmR_natural sU sX pU (goodt sU pU pX t0)). Qed.
Lemma PA (t : Rf) : 0 <= t -> P11 t *m As t = 1%:M.
Proof. by move=> t0; exact: (P11_As (ultS sU pU) (expmR_group _) expmR_natural sU sX pU (goodt sU pU pX t0)). Qed.
Lemma As_deriv' (t : Rf) : 0 <= t -> mderiv As t (F *m As t - Cs t *m X *m As t).
Proof.
move=> t0; have := As_deriv sU pU sX pX t0; congr (mderiv _ _ _).
apply: (fwA_alg (AP t0) (PA t0) (comm11 t)); apply: esym; exact: (Js_P11 (goodt sU pU pX t0)).
Qed.
Lemma Cs_deriv' (t : Rf) : 0 <= t -> mderiv Cs t (F *m Cs t - Cs t *m X *m Cs t + Cs t *m F^T + N).
Proof.
move=> t0; have := mderiv_mul (As_deriv' t0) (P12_deriv' t); congr (mderiv _ _ _).
exact: (fwC_alg F N X (AP t0) (erefl (Cs t))).
Qed.
Variable x0 : 'cV[Rf]_n.
Local Notation Y := ('M[Rf]_(n, 1 + n)).
Definition yb (y : Y) : 'cV[Rf]_n := lsubmx y.
Definition yC (y : Y) : 'M[Rf]_n := rsubmx y.
Definition mky (b : 'cV[Rf]_n) (C : 'M[Rf]_n) : Y := row_mx b C.
Lemma mkyK b C : yb (mky b C) = b /\ yC (mky b C) = C.
Proof. by rewrite /yb /yC row_mxKl row_mxKr. Qed.
Lemma mky_lin a b C b' C' : a *: mky b C + mky b' C' = mky (a *: b + b') (a *: C + C').
Proof. by rewrite /mky scale_row_mx add_row_mx. Qed.
Lemma mky_add b C b' C' : mky b C + mky b' C' = mky (b + b') (C + C').
Proof. by rewrite /mky add_row_mx. Qed.
Lemma yparts a (x y : Y) : yb (a *: x + y) = a *: yb x + yb y /\ yC (a *: x + y) = a *: yC x + yC y.
Proof. by rewrite /yb /yC !linearP. Qed.
Definition fc : Y := mky 0 N.
Definition fB (y : Y) : Y := mky (F *m yb y) (F *m yC y + yC y *m F^T).
Definition fb (y z : Y) : Y := mky (- (yC y *m X *m yb z)) (- (yC y *m X *m yC z)).
Lemma fB_lin : linear_map (V := matrix_lmodType Rf n (1 + n)) (W := matrix_lmodType Rf n (1 + n)) fB.
Proof.
move=> a x y; rewrite /fB; case: (yparts a x y) => -> ->.
rewrite [RHS]mky_lin !mulmxDl !mulmxDr -!scalemxAl -!scalemxAr; congr mky.
by rewrite addrACA scalerDr.
Qed.
Lemma fb_bil : bilinear_map (k := n) (l := 1 + n) fb.
Proof.
split=> z a x y; rewrite /fb; case: (yparts a x y) => eb eC; rewrite ?eb eC [RHS]mky_lin.
  by rewrite !mulmxDr -!scalemxAr !opprD -!scalerN.
by rewrite !mulmxDl -!scalemxAl !opprD -!scalerN.
Qed.
Lemma yfE b C : RkQuadAlg.f fc fB fb (mky b C) = mky (F *m b - C *m X *m b) (F *m C - C *m X *m C + C *m F^T + N).
Proof.
rewrite /RkQuadAlg.f /fc /fB /fb; case: (mkyK b C) => -> ->; rewrite !mky_add add0r; congr mky.
exact: perm4.
Qed.
Definition ys (t : Rf) : Y := mky (As t *m x0) (Cs t).
Lemma ys_deriv (t : Rf) : 0 <= t -> mderiv ys t (RkQuadAlg.f fc fB fb (ys t)).
Proof.
move=> t0; rewrite yfE; apply: mderiv_row (Cs_deriv' t0); have := mderiv_mulr x0 (As_deriv' t0); congr (mderiv _ _ _).
by rewrite mulmxBl !mulmxA.
Qed.
Lemma ys_solves (a T : Rf) : 0 <= a -> solves (RkQuadAlg.f fc fB fb) (fun t => ys (a + t)) 0 T.
Proof.
move=> a0; have d (t : Rf) : 0 <= t -> mderiv (fun t => ys (a + t)) t (RkQuadAlg.f fc fB fb (ys (a + t))).
  move=> t0; have at0 : 0 <= a + 1 * t by rewrite mul1r addr_ge0.
  have := mderiv_aff (a := a) (c := 1) (t := t) (ys_deriv at0).
  by rewrite scale1r mul1r; apply: mderiv_ext => s; rewrite mul1r.
by split=> t /andP [h1 h2]; [exact: mderiv_cont (d t h1) | exact: d (ltW h1)].
Qed.
(** ** one step *)
Definition yel (e : 'M[Rf]_n * 'cV[Rf]_n * 'M[Rf]_n) : Y := mky e.1.2 e.2.
Definition ysym (y : Y) : Y := mky (yb y) (symz (yC y)).
Local Notation ystep := (stp (R := Rf) (k := n) (l := 1 + n) fc fB fb).
Lemma step_yel h e : exists2 e', qabc_step q h e = Some e' & yel e' = ysym (ystep h (yel e)).
Proof.
pose L (x : 'M[Rf]_(n, 2 * n + 1)) : Y := yel (unpack_abc x).
have lin : linear_map (V := matrix_lmodType Rf n (2 * n + 1)) (W := matrix_lmodType Rf n (1 + n)) L.
  by move=> a x y; rewrite /L abc_unpack_lin /yel /=; rewrite [RHS]mky_lin.
have cov z (s : Rf) : (fun z (_ : Rf) => Some (RkQuadAlg.f fc fB fb z)) (L z + 0) s = omap L ((fun z (_ : Rf) => qfwdbwdpass_ode_f q z) z s).
  rewrite addr0 /qfwdbwdpass_ode_f ultS // obindS; congr Some.
  by rewrite /L abc_unpack; case: (unpack_abc z) => [[A b] C]; rewrite /yel /qabc_rhs yfE.
have := @C41_affine_l Rf (matrix_lmodType Rf n (2 * n + 1)) (matrix_lmodType Rf n (1 + n)) L 0 (fun z _ => qfwdbwdpass_ode_f q z) (fun z _ => Some (RkQuadAlg.f fc fB fb z)) h (pack_abc e) 0 lin cov.
rewrite addr0 {1}/L abc_unpack -(form_x (V := matrix_lmodType Rf n (1 + n))) -(form_x (V := matrix_lmodType Rf n (2 * n + 1))).
rewrite rk4_stp /qabc_step.
case: (rk4_x _ _ _) => [x|] // [E]; rewrite obindS; exists (let: (A, b, C) := unpack_abc x in (A, b, symz C)).
  by case: (unpack_abc x) => [[A b] C].
rewrite E addr0 /L; case: (unpack_abc x) => [[A b] C]; rewrite /yel /ysym /=.
by case: (mkyK b C) => -> ->.
Qed.
Lemma iter_next (T : Type) (G : T -> T) i (x y : T) : y = G x -> iter i G y = iter i.+1 G x.
Proof. by move=> ->; rewrite iterSr. Qed.
Lemma abc_loop h k e : exists2 l, qabc_loop q h k e = Some l & size l = k.+1 /\
  forall i, (i <= k)%N -> yel (nth (0, 0, 0) l i) = iter i (fun y => ysym (ystep h y)) (yel e).
Proof.
elim: k e => [|k IH] e; first by exists [:: e] => //; split=> // -[].
have [e' E He] := step_yel h e; have [l El [sl Hl]] := IH e'.
exists (e :: l); first by rewrite /= -/(qabc_loop q h k) E obindS El obindS.
split; first by rewrite /= sl.
case=> [|i] le; first by [].
exact (etrans (Hl i le) (@iter_next _ (fun y => ysym (ystep h y)) i _ _ He)).
Qed.
Lemma nrm_mky b C : nrm (mky b C) = nrm b + nrm C.
Proof. by rewrite /mky nrm_row. Qed.
Lemma mky_sub b C b' C' : mky b C - mky b' C' = mky (b - b') (C - C').
Proof. by rewrite /mky opp_row_mx add_row_mx. Qed.
Lemma ysym_dist (y : Y) b C : symm C -> nrm (ysym y - mky b C) <= nrm (y - mky b C).
Proof.
move=> sC; rewrite [X in _ <= nrm (X - _)](_ : y = mky (yb y) (yC y)); last by rewrite /mky /yb /yC hsubmxK.
rewrite /ysym !mky_sub !nrm_mky ler_add2l symz_sub //; exact: nrm_symz.
Qed.
(** the pass from a perturbed element at time a *)
Lemma fwd_from (a tau E0 : Rf) : 0 <= a -> 0 <= tau -> 0 <= E0 -> exists2 D, 0 <= D & forall M, (0 < M)%N -> D <= M%:R ->
  forall e, nrm (yel e - ys a) <= E0 / M%:R ^+ 4 ->
  exists2 l, qabc_loop q (tau / M%:R) M e = Some l & size l = M.+1 /\
  forall i, (i <= M)%N -> nrm ((nth (0, 0, 0) l i).1.2 - As (a + i%:R * (tau / M%:R)) *m x0) <= D / M%:R ^+ 4 /\
    nrm ((nth (0, 0, 0) l i).2 - Cs (a + i%:R * (tau / M%:R))) <= D / M%:R ^+ 4.
Proof.
move=> a0 tau0 E00.
have [D D0 HD] := @rk_order4_from n (1 + n) fc fB fb fB_lin fb_bil _ tau tau0 (ys_solves tau a0) E0 E00.
exists D => // M M0 DM e he; have [l El [sl Hl]] := abc_loop (tau / M%:R) M e; exists l => //; split=> // i iM.
have Mp : 0 < M%:R :> Rf by rewrite ltr0n.
pose xs i : Y := iter i (fun y => ysym (ystep (tau / M%:R) y)) (yel e).
have h0 : nrm (xs 0%N - ys (a + 0)) <= E0 / M%:R ^+ 4 by rewrite addr0.
have exi : xs i = yel (nth (0, 0, 0) l i) := esym (Hl i iM).
have := HD M M0 DM xs h0 _ i iM; rewrite exi /yel /ys mky_sub nrm_mky => H1.
have {H1} H1 : nrm ((nth (0, 0, 0) l i).1.2 - As (a + i%:R * (tau / M%:R)) *m x0) + nrm ((nth (0, 0, 0) l i).2 - Cs (a + i%:R * (tau / M%:R))) <= D / M%:R ^+ 4.
  by apply: H1 => j jM; apply: ysym_dist; apply: Csym => //; rewrite addr_ge0 // mulr_ge0 ?ler0n // divr_ge0 // ltW.
by split; apply: le_trans H1; rewrite ?ler_addl ?ler_addr nrm_ge0.
Qed.
End Fb.
