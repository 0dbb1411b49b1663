(** LinearModel.getLQT and NonlinearModel.getLQT: the problems they build. *)
From Coq Require Import Ring Field.
From mathcomp Require Import all_ssreflect all_algebra zify.
From Verif Require Import MxBase LinComb Rk4Proofs LqtModel LqtSpec FscModel LinModModel LinModSpec LinModProofs LinModTrack.
Import Order.TTheory GRing.Theory Num.Theory.
Set Implicit Arguments. Unset Strict Implicit. Unset Printing Implicit Defensive.
Local Open Scope ring_scope.

Section Lm.
Variable R : realFieldType.
Add Ring Rr : (mc_ring R).
Add Field Rf : (mc_field R).
Ltac sfield := rsn R; field; repeat split; num_neq0 R.
Lemma tenth_gt0 : 0 < tenth R. Proof. by rewrite invr_gt0 ltr0n. Qed.
Lemma milli2_gt0 : 0 < milli2 R. Proof. by rewrite exprn_gt0 // tenth_gt0. Qed.
Lemma symmZ n a (A : 'M[R]_n) : symm A -> symm (a *: A).
Proof. by move=> h; rewrite /symm linearZ /= h. Qed.
Lemma qfZ1 n a (x : 'cV[R]_n) : qf (a *: 1%:M) x = a * norm2 x.
Proof. by rewrite qf_dot -scalemxAl mul1mx dotZr. Qed.
Lemma pdZ1 n a : 0 < a -> pd (a *: 1%:M : 'M[R]_n).
Proof. by move=> a0 x x0; rewrite qfZ1 mulr_gt0 // dot_gt0. Qed.
Lemma psdZ1 n a : 0 <= a -> psd (a *: 1%:M : 'M[R]_n).
Proof. by move=> a0 x; rewrite qfZ1 mulr_ge0 // dot_ge0. Qed.
Lemma qf1 n (x : 'cV[R]_n) : qf 1%:M x = norm2 x.
Proof. by rewrite qf_dot mul1mx. Qed.

Lemma lm_FE : lm_F R = block_mx 0 1%:M 0 0 :> 'M_(2 + 2).
Proof.
apply/matrixP => i j; rewrite !mxE.
by case: splitP => i' ->; rewrite !mxE; case: splitP => j' ->; rewrite !mxE; case: i' => [[|[|i']]] //= hi; case: j' => [[|[|j']]] //=.
Qed.
Lemma lm_LE : lm_L R = col_mx 0 1%:M :> 'M_(2 + 2, 2).
Proof.
apply/matrixP => i j; rewrite !mxE.
by case: splitP => i' ->; rewrite !mxE; case: i' => [[|[|i']]] //= hi; case: j => [[|[|j']]] //=.
Qed.
Lemma lm_HE : lm_H R = row_mx 1%:M 0 :> 'M_(2, 2 + 2).
Proof.
apply/matrixP => i j; rewrite !mxE.
by case: splitP => j' ->; rewrite !mxE; case: i => [[|[|i']]] //= hi; case: j' => [[|[|j']]] //=.
Qed.
Lemma entE n (v : 'cV[R]_n) (i : 'I_n) : ent v i = v i 0.
Proof. by rewrite /ent insubT //= => h; congr (v _ _); apply: val_inj. Qed.
Lemma ent' n (v : 'cV[R]_n) i (h : (i < n)%N) : ent v i = v (Ordinal h) 0.
Proof. by rewrite -(entE v (Ordinal h)). Qed.
Lemma x0E (z : 'cV[R]_2) : cv_of 4 [:: ent z 0; ent z 1; 0; 0] = state z 0.
Proof.
apply/matrixP => i j; rewrite /state [RHS]mxE !mxE ord1.
case: splitP => i' ->; rewrite ?mxE; case: i' => [[|[|i']]] //= hi.
- by rewrite (ent' z hi).
- by rewrite (ent' z hi).
Qed.
Lemma lm_pos x : lm_H R *m x = pos x.
Proof.
rewrite lm_HE; have E : @mulmx R 2 (2 + 2) 1 (row_mx 1%:M 0) x = pos x; last exact: E.
by rewrite -[x in LHS](@vsubmxK R 2 2 1) mul_row_col mul1mx mul0mx addr0.
Qed.

Lemma stateD (a b c d : 'cV[R]_2) : state a b + state c d = state (a + c) (b + d). Proof. exact: (@add_col_mx R 2 2 1). Qed.
Lemma stateZ k (a b : 'cV[R]_2) : k *: state a b = state (k *: a) (k *: b). Proof. exact: (@scale_col_mx R 2 2 1). Qed.
Lemma lm_Fx q v : lm_F R *m state q v = state v 0.
Proof.
rewrite lm_FE; have E : @mulmx R (2 + 2) (2 + 2) 1 (block_mx 0 1%:M 0 0) (col_mx q v) = col_mx v 0; last exact: E.
by rewrite mul_block_col !mul0mx mul1mx !add0r.
Qed.
Lemma lm_Lu u : lm_L R *m u = state 0 u.
Proof.
rewrite lm_LE; have E : @mulmx R (2 + 2) 2 1 (col_mx 0 1%:M) u = col_mx 0 u; last exact: E.
by rewrite mul_col_mx mul0mx mul1mx.
Qed.
Lemma lm_F2 : lm_F R *m lm_F R = 0.
Proof.
rewrite lm_FE; have E : @mulmx R (2 + 2) (2 + 2) (2 + 2) (block_mx 0 1%:M 0 0) (block_mx 0 1%:M 0 0) = 0; last exact: E.
by rewrite mulmx_block !mulmx0 !mul0mx !addr0 block_mx0.
Qed.

Lemma lm_None expm (xy : seq 'cV[R]_2) steps : lm_getLQT expm xy steps = None <-> steps = 0%N \/ xy = [::].
Proof.
rewrite /lm_getLQT; case: eqP => [->|s0]; first by split=> // _; left.
case: xy => [|z xy]; first by split=> // _; right.
split; last by case=> // h; case: s0.
case E : lti_disc_u => [[A B] Q].
rewrite [List.nth_error _ _]/= [obind _ (Some z)]/= ref_loopE ?mod0n ?eqxx ?div0n //; lia.
Qed.

Lemma lm_l expm (xy : seq 'cV[R]_2) steps : expm_series expm -> (0 < steps)%N -> xy <> [::] ->
  let dt := steps%:R^-1 in let T := (steps * size xy)%N in
  exists P, lm_getLQT expm xy steps = Some (P, state (nth 0 xy 0) 0) /\ problem_ok P /\ size (stages P) = T /\
  all_stages (fun s => forall q v u, next s (state q v) u = state (q + dt *: v + (dt ^+ 2 / 2%:R) *: u) (v + dt *: u)) (stages P) /\
  forall x us, size us = T -> let xs := traj (stages P) x us in
  total_cost P x us =
    \sum_(i < size xy) 50%:R * norm2 (pos (nth 0 xs (i * steps)) - nth 0 xy i)
    + \sum_(k < T | (k %% steps != 0)%N) 10%:R ^- 6 / 2%:R * norm2 (pos (nth 0 xs k) - nth 0 xy (k %/ steps))
    + \sum_(k < T) norm2 (nth 0 us k) / 20%:R
    + norm2 (nth 0 xs T - state (last 0 xy) 0) / 2%:R.
Proof.
move=> hexp s0 ne dt T.
have sz : (0 < size xy)%N by case: xy ne {T}.
have st0 : (steps == 0)%N = false by apply/negP => /eqP h; rewrite h in s0.
rewrite /lm_getLQT st0 div1r -/dt.
rewrite (disc_l hexp _ _ _ _ lm_F2) (nthE 0 sz) [obind _ (Some _)]/= x0E.
rewrite ref_loop_all // [obind _ (Some _)]/= x0E.
set A := 1%:M + _; set B := _ + _; set Xr := mkseq _ _.
have szX : size Xr = T by rewrite size_mkseq.
eexists; split; [by []|split; [|split; [|split]]].
- apply: track_ok; [exact/symmZ/symm1|exact/pdZ1/tenth_gt0|exact: symm1|exact/pd_psd/pd1|].
  move=> z /mapP[k _ ->]; rewrite /ref_at /=; case: ifP => _; split; try exact/symmZ/symm1; apply: psdZ1; rewrite ?ler0n ?ltW ?milli2_gt0 //.
- by rewrite /= size_map.
- apply: track_next => z q v u; rewrite /next /= addr0 /A /B.
  rewrite !mulmxDl -!scalemxAl mul1mx lm_Fx -mulmxA lm_Lu lm_Fx !stateZ !stateD !scaler0 !addr0 add0r.
  by congr (state _ _); rewrite addrA.
move=> x us su; set xs := traj _ x us.
rewrite /total_cost track_ctg ?szX // -/xs /final_cost /= qf1 mul1mx; congr (_ + _).
rewrite big_split /=; congr (_ + _); last first.
  by apply: eq_bigr => k _; rewrite qfZ1 /tenth [_^-1 * _]mulrC -mulrA -invfM -natrM.
rewrite (sum_refs _ _ _ (fun k => lm_H R *m nth 0 xs k)) //; congr (_ + _); apply: eq_bigr => k _; rewrite lm_pos qfZ1.
- by rewrite mulrAC; congr (_ * _); rewrite -[100%N]/(50 * 2)%N natrM mulfK // pnatr_eq0.
by rewrite mulrAC /milli2 /tenth exprVn.
Qed.

(** ** NonlinearModel.getLQT *)
Lemma nm_HE : nm_H R = row_mx 1%:M 0 :> 'M_(3, 3 + 1).
Proof.
apply/matrixP => i j; rewrite !mxE.
by case: splitP => j' ->; rewrite !mxE; case: i => [[|[|[|i']]]] //= hi; case: j' => [[|[|[|j']]]] //=.
Qed.
Lemma nm_LE : nm_L R = lm_L R. Proof. by []. Qed.
Lemma nm_pose x : nm_H R *m x = pose3 x.
Proof.
rewrite nm_HE; have E : @mulmx R 3 (3 + 1) 1 (row_mx 1%:M 0) x = pose3 x; last exact: E.
by rewrite -[x in LHS](@vsubmxK R 3 1 1) mul_row_col mul1mx mul0mx addr0.
Qed.
Lemma nm_x0E (z : 'cV[R]_3) : cv_of 4 [:: ent z 0; ent z 1; ent z 2; 0] = at_rest3 z.
Proof.
apply/matrixP => i j; rewrite /at_rest3 [RHS]mxE !mxE ord1.
case: splitP => i' ->; rewrite ?mxE; case: i' => [[|[|[|i']]]] //= hi.
- by rewrite (ent' z hi).
- by rewrite (ent' z hi).
- by rewrite (ent' z hi).
Qed.
Lemma nm_rTE (z : 'cV[R]_3) : cv_of 3 [:: ent z 0; ent z 1; ent z 2] = z.
Proof.
apply/matrixP => i j; rewrite !mxE ord1.
by case: i => [[|[|[|i']]]] //= hi; rewrite (ent' z hi).
Qed.
Lemma qf_diag n (v : seq R) (x : 'cV[R]_n) : qf (diag_of n v) x = \sum_(i < n) nth 0 v i * coord x i ^+ 2.
Proof.
rewrite qf_dot /dot /sc !mxE; apply: eq_bigr => i _.
rewrite mul_diag_mx !mxE -/(ent x i) /coord insubT //= => h; rewrite mulrCA expr2; congr (_ * (x _ _ * x _ _)); exact: val_inj.
Qed.
Lemma symm_diag n v : symm (diag_of n v : 'M[R]_n).
Proof. by rewrite /symm tr_diag_mx. Qed.
Lemma coord0 n (x : 'cV[R]_n) : (forall i : 'I_n, coord x i = 0) -> x = 0.
Proof.
move=> h; apply/matrixP => i j; rewrite mxE ord1 -(h i) /coord insubT //= => hi; congr (x _ _); exact: val_inj.
Qed.
Lemma psd_diag n v : (forall i, 0 <= nth 0 v i) -> psd (diag_of n v : 'M[R]_n).
Proof. by move=> h x; rewrite qf_diag sumr_ge0 // => i _; rewrite mulr_ge0 ?h // sqr_ge0. Qed.
Lemma pd_diag n v : (forall i, (i < n)%N -> 0 < nth 0 v i) -> pd (diag_of n v : 'M[R]_n).
Proof.
move=> h x x0; have ge : forall i : 'I_n, 0 <= nth 0 v i * coord x i ^+ 2.
  by move=> i; rewrite mulr_ge0 ?sqr_ge0 // ltW // h.
rewrite qf_diag lt_def sumr_ge0 ?andbT //; apply: contra x0; rewrite psumr_eq0 // => /allP hx.
apply/eqP/coord0 => i; have := hx i (mem_index_enum i); rewrite /= mulf_eq0 sqrf_eq0 (gt_eqF (h i (ltn_ord i))) /=.
by move/eqP.
Qed.

Lemma diag3 (a b c : R) (e : 'cV[R]_3) : qf (diag_of 3 [:: 2%:R * a; 2%:R * b; 2%:R * c]) e / 2%:R =
  a * coord e 0 ^+ 2 + b * coord e 1 ^+ 2 + c * coord e 2 ^+ 2.
Proof.
have d2 (x y : R) : 2%:R * x * y / 2%:R = x * y by rewrite -[2%:R * x * y]mulrA mulrC mulKf // pnatr_eq0.
rewrite qf_diag !big_ord_recl big_ord0 addr0 addrA.
by rewrite -[RHS](mulKf (x := 2%:R)) ?pnatr_eq0 // [RHS]mulrC !mulrDr !mulrA.
Qed.

Lemma nm_None (xy : seq 'cV[R]_3) steps : nm_getLQT xy steps = None <-> steps = 0%N \/ xy = [::].
Proof.
rewrite /nm_getLQT; case: xy => [|z xy]; first by split=> // _; right.
have [->|s0] := posnP steps; first by split=> // _; left.
split; last by case=> // h; rewrite h in s0.
rewrite [List.nth_error _ _]/= [obind _ (Some z)]/= ref_loop_all // [obind _ (Some _)]/= muln_eq0 /=.
by case: eqP => // h; rewrite h in s0.
Qed.

Lemma nm_l (xy : seq 'cV[R]_3) steps : (0 < steps)%N -> xy <> [::] ->
  let T := (steps * size xy)%N in
  exists P, nm_getLQT xy steps = Some (P, at_rest3 (nth 0 xy 0)) /\ problem_ok P /\ size (stages P) = T /\
  all_stages (fun s => forall q v u, next s (state q v) u = state q (v + u)) (stages P) /\
  forall x us, size us = T -> let xs := traj (stages P) x us in
  total_cost P x us =
    \sum_(i < size xy) (let e := pose3 (nth 0 xs (i * steps)) - nth 0 xy i in
                        50%:R * coord e 0 ^+ 2 + 50%:R * coord e 1 ^+ 2 + 500%:R * coord e 2 ^+ 2)
    + \sum_(k < T | (k %% steps != 0)%N) 10%:R ^- 6 / 2%:R * norm2 (pose3 (nth 0 xs k) - nth 0 xy (k %/ steps))
    + \sum_(k < T) (coord (nth 0 us k) 0 ^+ 2 / 2%:R + 50%:R * coord (nth 0 us k) 1 ^+ 2)
    + 10%:R ^- 6 / 2%:R * norm2 (pose3 (nth 0 xs T) - last 0 xy).
Proof.
move=> s0 ne T.
have sz : (0 < size xy)%N by case: xy ne {T}.
have T0 : (T == 0%N) = false by apply/negP; rewrite muln_eq0 => /orP[] /eqP h; rewrite h in s0 sz.
rewrite /nm_getLQT (nthE 0 sz) [obind _ (Some _)]/= nm_x0E ref_loop_all // [obind _ (Some _)]/= nm_rTE -/T T0.
set Xr := mkseq _ _.
have szX : size Xr = T by rewrite size_mkseq.
have m2 : milli2 R = 10%:R ^- 6 by rewrite /milli2 /tenth exprVn.
have d2 (a b : R) : 2%:R * a * b / 2%:R = a * b by rewrite -[2%:R * a * b]mulrA mulrC mulKf // pnatr_eq0.
have h100 : 100%:R = 2%:R * 50%:R :> R by rewrite -natrM; congr (_%:R); vm_compute.
have w3 (a b c a' b' c' : R) : a = a' -> b = b' -> c = c' -> diag_of 3 [:: a; b; c] = diag_of 3 [:: a'; b'; c'] by move=> -> -> ->.
have h1000 : 1000%:R = 2%:R * 500%:R :> R by rewrite -natrM; congr (_%:R); vm_compute.
eexists; split; [by []|split; [|split; [|split]]].
- apply: track_ok.
  + exact: symm_diag.
  + by apply: pd_diag => -[|[|i]] //= _; rewrite ?ltr01 ?ltr0n.
  + exact/symmZ/symm1.
  + by apply/psdZ1/ltW/milli2_gt0.
  move=> z /mapP[k _ ->]; rewrite /ref_at /=; case: ifP => _; split.
  + exact: symm_diag.
  + by apply: psd_diag => -[|[|[|i]]] //=; rewrite ?nth_nil ?ler0n.
  + exact/symmZ/symm1.
  + by apply/psdZ1/ltW/milli2_gt0.
- by rewrite /= size_map.
- by apply: track_next => z q v u; rewrite /next /= addr0 mul1mx nm_LE lm_Lu stateD addr0.
move=> x us su; set xs := traj _ x us.
rewrite /total_cost track_ctg ?szX // -/xs /final_cost /= qfZ1 nm_pose mulrAC m2; congr (_ + _).
rewrite big_split /=; congr (_ + _); last first.
  apply: eq_bigr => k _; rewrite qf_diag !big_ord_recl big_ord0 /= addr0 mul1r mulrDl.
  by rewrite -[100%N]/(2 * 50)%N natrM d2.
rewrite (sum_refs _ _ _ (fun k => nm_H R *m nth 0 xs k)) //; congr (_ + _); apply: eq_bigr => k _; rewrite nm_pose ?qfZ1.
- by rewrite (w3 _ _ _ _ _ _ h100 h100 h1000); exact: diag3.
by rewrite mulrAC m2.
Qed.
End Lm.
