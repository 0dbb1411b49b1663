(** The regulator's Runge-Kutta passes are the tracker's. *)
From Coq Require Import Ring Field.
From mathcomp Require Import all_ssreflect all_algebra zify.
From Verif Require Import ScanModel ScanSpec ScanProofs ScanUse MxBase LqtModel LqtCore LqtElem LqtMore LinComb Rk4Model Rk4Spec Rk4Proofs ClqtModel ClqtPack ClqtFwd ClqtFwd2 ClqtBwd ClqtVal ClqrModel ClqrSpec.
Import Order.TTheory GRing.Theory Num.Theory.
Set Implicit Arguments. Unset Strict Implicit. Unset Printing Implicit Defensive.
Local Open Scope ring_scope.
Local Arguments rk4_xt : simpl never.
Local Arguments rk4_xtp : simpl never.
Local Arguments rk4_x : simpl never.
Local Arguments rk4_xp : simpl never.

Lemma rk4_ext (R : realFieldType) (V : lmodType R) (f g : V -> R -> option V) h x t :
  (forall z s, f z s = g z s) -> rk4_xt f h x t = rk4_xt g h x t.
Proof.
move=> E; rewrite /rk4_xt E; case: (g x t) => //= k1; rewrite E; case: (g _ _) => //= k2; rewrite E.
by case: (g _ _) => //= k3; rewrite E.
Qed.
Lemma omap_seq_ext {X Y} (f g : X -> option Y) l : (forall x, f x = g x) -> omap_seq f l = omap_seq g l.
Proof. by move=> E; elim: l => //= x l IH; rewrite E IH. Qed.
Lemma for_ext {X} l (f g : nat -> X -> option X) s : (forall i s, f i s = g i s) -> for_ l f s = for_ l g s.
Proof. by move=> E; elim: l s => //= i l IH s; rewrite E; case: (g i s). Qed.

Lemma obindN {X Y} (f : X -> option Y) : obind f None = None.
Proof. by []. Qed.

Section Refine.
Variable R : realFieldType.
Variable expm : forall n, 'M[R]_n -> 'M[R]_n.
Variables n m : nat.
Variable q : clqr R n m.
Local Notation T := (tracker q).
Local Notation elem := (elem R n).

Lemma ULT_tracker t : ULT T t = qULT q. Proof. by []. Qed.
Lemma dt_tracker dt ks : dt_or T dt ks = qdt_or q dt ks. Proof. by []. Qed.
Lemma ST_tracker : ST T = qXT q. Proof. by rewrite /ST /= mulmx1 trmx1 mul1mx. Qed.
Lemma vT_tracker : vT T = 0. Proof. by rewrite /vT /= mulmx0. Qed.

Lemma riccati_tracker t N Q : riccati_rhs T t N (Q, 0) = (qriccati q N Q, 0).
Proof. by rewrite /riccati_rhs /qriccati /= trmx1 mulmx1 mulNmx mul1mx !mulmx0 subr0 addr0 addr0. Qed.

Lemma rk4_riccati ult h Q t : qULT q = Some ult ->
  rk4_xt (V := matrix_lmodType R n (n + 1)) (riccati_ode_f T) h (pack_Sv (Q, 0)) t =
  omap (fun Q => pack_Sv (Q, 0)) (rk4_x (V := matrix_lmodType R n n) (fun Q => Some (qriccati q (qL q *m ult) Q)) h Q).
Proof.
move=> E; rewrite (form_x _ h Q t).
have L : linear_map (V := matrix_lmodType R n n) (W := matrix_lmodType R n (n + 1)) (fun Q => pack_Sv (Q, 0) : 'M[R]_(n, n + 1)).
  by move=> a x y; rewrite -(Psiphi_pack_lin a (x, 0) (y, 0)) /= scaler0 addr0.
have := @C41_affine_l R _ _ (fun Q : matrix_lmodType R n n => pack_Sv (Q, 0) : 'M[R]_(n, n + 1)) 0 (fun z _ => Some (qriccati q (qL q *m ult) z))
   (riccati_ode_f T) h Q t L.
rewrite addr0 => ->; first by case: (rk4_xt _ _ _ _) => //= y; rewrite addr0.
by move=> z s; rewrite addr0 /riccati_ode_f ULT_tracker E obindS Sv_unpack riccati_tracker.
Qed.
Lemma bwd_step_tracker ult dt t0 k Q : qULT q = Some ult ->
  bwd_step T dt t0 k (Q, 0) =
  omap (fun Q => (symz Q, 0)) (rk4_x (V := matrix_lmodType R n n) (fun Q => Some (qriccati q (qL q *m ult) Q)) (- dt) Q).
Proof. by move=> E; rewrite /bwd_step (rk4_riccati _ _ _ E); case: (rk4_x _ _ _) => // y; rewrite [omap _ _]/= obindS Sv_unpack. Qed.

Lemma bwd_loop_tracker ult dt t0 k Q acc : qULT q = Some ult ->
  bwd_loop T dt t0 k (Q, 0) (no_affine acc) = omap (@no_affine R n m) (qbwd_rk4 q ult dt k Q acc).
Proof.
move=> E; elim: k Q acc => [|k IH] Q acc //.
rewrite -[LHS]/(let? Sv' := bwd_step T dt t0 k (Q, 0) in let? '(K, d) := bwd_gain T dt t0 k Sv' in
   bwd_loop T dt t0 k Sv' (K :: acc.1, d :: nseq (size acc.1) 0, Sv'.1 :: acc.2, Sv'.2 :: nseq (size acc.2) 0)).
rewrite -[qbwd_rk4 q ult dt k.+1 Q acc]/(let? Q' := rk4_x (V := matrix_lmodType R n n) (fun Q => Some (qriccati q (qL q *m ult) Q)) (- dt) Q in
   qbwd_rk4 q ult dt k (symz Q') (ult *m symz Q' :: acc.1, symz Q' :: acc.2)).
rewrite (bwd_step_tracker _ _ _ _ E); case: (rk4_x _ _ _) => [Q'|] //; rewrite [omap _ (Some _)]/= !obindS /bwd_gain ULT_tracker E !obindS mulmx0.
exact: (IH (symz Q') (ult *m symz Q' :: acc.1, symz Q' :: acc.2)).
Qed.

Theorem seq_backward_tracker steps dt t0 Q v : (0 < steps)%N -> (v = None \/ v = Some 0) ->
  clqt_seqBackwardPass T steps dt t0 Q v = omap (@no_affine R n m) (clqr_seqBackwardPass expm q steps dt Q Rk4).
Proof.
move=> pos hv; rewrite /clqt_seqBackwardPass /clqr_seqBackwardPass dt_tracker ST_tracker.
have -> : or_else v (vT T) = 0 by rewrite vT_tracker; case: hv => ->.
case: (qdt_or _ _ _) => [h|] //=; case E : (qULT q) => [ult|] /=.
  exact: (bwd_loop_tracker h _ _ _ ([::], [:: or_else Q (qXT q)]) E).
case: steps pos => // k _; rewrite -[RHS]/(None : option (bwd_res R n m)) /bwd_loop -/bwd_loop /bwd_step C41_raises_l //.
by rewrite /riccati_ode_f ULT_tracker E.
Qed.

(** sequential forward pass *)
Lemma seq_forward_loop dt t0 zoh Ks k x :
  fwd_loop T dt t0 zoh Ks (nseq (size Ks) 0) k x = qfwd_loop (qfwd_rk4 q dt zoh) Ks x.
Proof.
elim: Ks k x => //= K Ks IH k x; rewrite addr0 /qfwd_rk4 (form_x _ dt x (t0 + k%:R * dt)).
rewrite (@rk4_ext _ _ (cl_ode T zoh K 0 (- K *m x)) (fun z _ =>
   (if zoh then fun x0 : 'cV_n => Some (qF q *m x0 + qL q *m (- K *m x)) else fun x0 : 'cV_n => Some ((qF q - qL q *m K) *m x0)) z)).
  by case: (rk4_xt _ _ _ _) => //= y; rewrite IH.
by move=> z s; rewrite /cl_ode; case: zoh {IH} => /=; rewrite !addr0 // mulNmx mulmxN mulmxBl mulmxA.
Qed.
Theorem seq_forward_tracker x0 Ks dt t0 zoh :
  clqt_seqForwardPass T x0 Ks (nseq (size Ks) 0) dt t0 zoh = clqr_seqForwardPass expm q x0 Ks dt Rk4 zoh.
Proof.
rewrite /clqt_seqForwardPass /clqr_seqForwardPass dt_tracker; case: (qdt_or _ _ _) => //= h.
by rewrite seq_forward_loop.
Qed.

(** forward value functions *)
Lemma abc_rhs_tracker t N e : abc_rhs T t N e = qabc_rhs q N e.
Proof. by case: e => [[A b] C]; rewrite /abc_rhs /qabc_rhs /= trmx1 !mulmx1 !mulmx0 !addr0. Qed.
Lemma fwdbwd_ode_tracker x t : fwdbwdpass_ode_f T x t = qfwdbwdpass_ode_f q x.
Proof.
rewrite /fwdbwdpass_ode_f /qfwdbwdpass_ode_f ULT_tracker; case: (qULT q) => [ult|]; last by rewrite !obindN.
by rewrite !obindS abc_rhs_tracker -[kL T t]/(qL q).
Qed.
Lemma abc_step_tracker dt t e : abc_step T dt t e = qabc_step q dt e.
Proof.
rewrite /abc_step /qabc_step (form_x _ dt _ t) (@rk4_ext _ _ _ (fun z _ => qfwdbwdpass_ode_f q z)); first by [].
move=> z s; exact: fwdbwd_ode_tracker.
Qed.
Lemma abc_loop_tracker dt t0 steps k e : abc_loop T dt t0 steps k e = qabc_loop q dt steps e.
Proof.
elim: steps k e => [|s IH] k e; first by [].
rewrite -[LHS]/(let? e' := abc_step T dt (t0 + k%:R * dt) e in let? l := abc_loop T dt t0 s k.+1 e' in Some (e :: l)).
rewrite -[RHS]/(let? e' := qabc_step q dt e in let? l := qabc_loop q dt s e' in Some (e :: l)).
by rewrite abc_step_tracker; case: (qabc_step _ _ _) => [e'|]; [rewrite !obindS IH|rewrite !obindN].
Qed.
Theorem seq_fwdbwd_tracker x0 steps dt t0 A b C :
  clqt_seqFwdBwdPass T x0 steps dt t0 A b C = clqr_seqFwdBwdPass q x0 steps dt A b C Rk4.
Proof.
rewrite /clqt_seqFwdBwdPass /clqr_seqFwdBwdPass dt_tracker; case: (qdt_or _ _ _) => //= h; exact: abc_loop_tracker.
Qed.
Theorem combine_tracker (Ks : seq 'M[R]_(m, n)) Ss es :
  combineForwardBackward Ks (nseq (size Ks) 0) Ss (nseq (size Ss) 0) es = qcombineForwardBackward Ks Ss es.
Proof.
elim: Ss Ks es => [|Q Ss IH] Ks [|[[A b] C] es] //=; rewrite mulmx0 addr0; case: (solve _ _) => //= x.
by case: Ks => [|K Ks] /=; rewrite ?(IH [::]) ?IH; case: (qcombineForwardBackward _ _ _) => [[us xs]|] //=; rewrite addr0.
Qed.

(** block elements *)
Lemma bw_rhs_tracker t N e : bw_rhs T t N e = qbw_rhs q N e.
Proof.
case: e => A b C eta J; rewrite /bw_rhs /qbw_rhs /= trmx1 !mulNmx !mul1mx !mulmx1 !mulmx0 oppr0 add0r !addr0; congr Elem.
by abel.
Qed.
Lemma fw_rhs_tracker t N e : fw_rhs T t N e = qfw_rhs q N e.
Proof. by case: e => A b C eta J; rewrite /fw_rhs /qfw_rhs /= trmx1 !mulmx1 !mulmx0 !addr0 sub0r !mulNmx. Qed.
Lemma bw_ode_tracker x t : bwpass_bw_ode_f T x t = qbwpass_bw_ode_f q x.
Proof.
rewrite /bwpass_bw_ode_f /qbwpass_bw_ode_f ULT_tracker; case: (qULT q) => [ult|]; last by rewrite !obindN.
by rewrite !obindS bw_rhs_tracker -[kL T t]/(qL q).
Qed.
Lemma fw_ode_tracker x t : bwpass_fw_ode_f T x t = qbwpass_fw_ode_f q x.
Proof.
rewrite /bwpass_fw_ode_f /qbwpass_fw_ode_f ULT_tracker; case: (qULT q) => [ult|]; last by rewrite !obindN.
by rewrite !obindS fw_rhs_tracker -[kL T t]/(qL q).
Qed.
Lemma block_elem_tracker dt t0 steps forward k : block_elem T dt t0 steps forward k = qblock_elem q dt steps forward.
Proof.
rewrite /block_elem /qblock_elem; case: forward; apply: for_ext => i e; rewrite /elem_step /qelem_step.
  rewrite (form_x _ _ _ (t0 + (k * steps + i)%:R * dt)).
  by rewrite (@rk4_ext _ _ _ (fun z _ => qbwpass_fw_ode_f q z)); last by move=> z s; exact: fw_ode_tracker.
rewrite (form_x _ _ _ (t0 + (k * steps + i + 1)%:R * dt)).
by rewrite (@rk4_ext _ _ _ (fun z _ => qbwpass_bw_ode_f q z)); last by move=> z s; exact: bw_ode_tracker.
Qed.
Lemma omap_seq_same {X Y} (r : option Y) (l : seq X) : (0 < size l)%N -> omap_seq (fun=> r) l = omap (nseq (size l)) r.
Proof.
elim: l => //= x [|y l] IH _; first by case: r IH.
by rewrite [omap_seq _ (y :: l)]IH //; case: r IH.
Qed.
End Refine.
