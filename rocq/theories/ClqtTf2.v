(** Steps and sequential passes of the TensorFlow continuous-time tracker. *)
From mathcomp Require Import all_ssreflect all_algebra zify.
From Verif Require Import ScanModel TfScan MxBase LqtModel LqtSpec LqtCore LqtTfModel LinComb Rk4Model Rk4Spec Rk4Proofs ClqtModel ClqtPack ClqtFwd2 ClqtTfModel ClqtTf.
Import Order.TTheory GRing.Theory Num.Theory.
Set Implicit Arguments. Unset Strict Implicit. Unset Printing Implicit Defensive.
Local Open Scope ring_scope.

Section Loops.
Context {X Y : Type}.
Variable body : X -> Y -> option X.
Lemma tf_scan_cons x y l : tf_scan body x (y :: l) = let? x' := body x y in let? r := tf_scan body x' l in Some (x' :: r).
Proof. by []. Qed.
Lemma tf_scan_rev_nil x : tf_scan_rev body x [::] = Some [::]. Proof. by []. Qed.
Lemma tf_scan_rev_rcons x l y :
  tf_scan_rev body x (rcons l y) = let? x' := body x y in let? r := tf_scan_rev body x' l in Some (rcons r x').
Proof.
rewrite /tf_scan_rev rev_rcons tf_scan_cons; case: (body x y) => //= x'.
by case: (tf_scan body x' (rev l)) => //= r; rewrite rev_cons.
Qed.
Lemma tf_scan_size x l r : tf_scan body x l = Some r -> size r = size l.
Proof.
elim: l x r => [|y l IH] x r; first by case=> <-.
rewrite tf_scan_cons; case: (body x y) => //= x'; case E: (tf_scan body x' l) => [r'|] //= [<-] /=.
by rewrite (IH _ _ E).
Qed.
Lemma tf_scan_rev_size x l r : tf_scan_rev body x l = Some r -> size r = size l.
Proof. by rewrite /tf_scan_rev; case E: (tf_scan _ _ _) => [r'|] //= [<-]; rewrite size_rev (tf_scan_size E) size_rev. Qed.
(** last carry, and first carry of the reversed scan, as loops *)
Lemma tf_scan_last (g : nat -> Y) (f : nat -> X -> option X) x l : (forall i e, List.In i l -> f i e = body e (g i)) ->
  omap (fun r => last x r) (tf_scan body x (map g l)) = for_ l f x.
Proof.
elim: l x => [|i l IH] x H; first by [].
rewrite for_cons (H i x) /=; last by left.
case: (body x (g i)) => //= x'; rewrite -IH; last by move=> j e h; apply: H; right.
by case: (tf_scan body x' _).
Qed.
Lemma tf_scan_rev_head (g : nat -> Y) (f : nat -> X -> option X) x l : (forall i e, List.In i l -> f i e = body e (g i)) ->
  omap (fun r => head x r) (tf_scan_rev body x (map g l)) = for_ (rev l) f x.
Proof.
elim/last_ind: l x => [|l i IH] x H; first by [].
have inr j : List.In j l -> List.In j (rcons l i) by rewrite -cats1 => h; apply/List.in_or_app; left.
rewrite map_rcons tf_scan_rev_rcons rev_rcons for_cons (H i x); last by rewrite -cats1; apply/List.in_or_app; right; left.
case: (body x (g i)) => //= x'; rewrite -IH; last by move=> j e h; apply: H; exact: inr.
by case: (tf_scan_rev body x' _) => //= -[].
Qed.
End Loops.

Lemma obind_map {X Y Z} (T : Y -> Z) (f : X -> Y) (g : X -> Z) (o : option X) : (forall u, g u = T (f u)) ->
  (let? u := o in Some (g u)) = omap T (let? u := o in Some (f u)).
Proof. by move=> H; case: o => //= u; rewrite H. Qed.

Section Step.
Variable R : realFieldType.
Variables n m p pT : nat.
Variable P : clqt R n m p pT.
Hypothesis U : forall t, tf_ULT P t = ULT P t.

Lemma rk4_ext (V : lmodType R) (f g : V -> R -> option V) h x t : (forall z s, f z s = g z s) -> rk4_xt f h x t = rk4_xt g h x t.
Proof.
move=> E; rewrite /rk4_xt E; case: (g x t) => [k1|] //=; rewrite E; case: (g _ _) => [k2|] //=; rewrite E.
by case: (g _ _) => [k3|] //=; rewrite E.
Qed.

Lemma riccati_tf x t : tf_riccati_f P x t tt = riccati_ode_f P x t.
Proof.
rewrite /tf_riccati_f /riccati_ode_f; rewrite -/(tf_unpack_Sv x) -[unpack_Sv x]/(tf_unpack_Sv x).
case: (tf_unpack_Sv x) => Q v; rewrite U; case: (ULT P t) => [u|] //=; congr Some.
by rewrite Sv_tf_np; congr (pack_Sv (_, _)); rewrite ?mulNmx ?mulmxA.
Qed.
Lemma bwd_body_tf dt t0 k Q v K d : tf_bwd_body P dt (Q, v, K, d) (t0 + k%:R * dt) =
  let? Sv := bwd_step P dt t0 k (Q, v) in let? '(K, d) := bwd_gain P dt t0 k Sv in Some (Sv.1, Sv.2, K, d).
Proof.
rewrite /tf_bwd_body form_tf /bwd_step Sv_tf_np.
rewrite (_ : t0 + k%:R * dt + dt = t0 + k.+1%:R * dt); last by rewrite -(addn1 k) natrD mulrDl mul1r addrA.
rewrite (@rk4_ext (matrix_lmodType R n (n + 1)) _ (riccati_ode_f P)); last by move=> z s; exact: riccati_tf.
case: (rk4_xt _ _ _ _) => [x|]; last by [].
rewrite !obindS /=.
by rewrite /bwd_gain U; case: (ULT P _).
Qed.

Lemma tf_timesS t0 dt k : tf_times t0 dt k.+1 = rcons (tf_times t0 dt k) (t0 + k%:R * dt) :> seq R.
Proof. by rewrite /tf_times -addn1 iotaD map_cat cats1. Qed.

Lemma bwd_loop_tf dt t0 k Q v K d Ks ds Ss vs : bwd_loop P dt t0 k (Q, v) (Ks, ds, Ss, vs) =
  let? r := tf_scan_rev (tf_bwd_body P dt) (Q, v, K, d) (tf_times t0 dt k) in
  Some ([seq e.1.2 | e <- r] ++ Ks, [seq e.2 | e <- r] ++ ds, [seq e.1.1.1 | e <- r] ++ Ss, [seq e.1.1.2 | e <- r] ++ vs).
Proof.
elim: k Q v K d Ks ds Ss vs => [|k IH] Q v K d Ks ds Ss vs; first by [].
rewrite tf_timesS tf_scan_rev_rcons bwd_body_tf.
rewrite -[LHS]/(let? Sv' := bwd_step P dt t0 k (Q, v) in let? '(K, d) := bwd_gain P dt t0 k Sv' in
      bwd_loop P dt t0 k Sv' (K :: Ks, d :: ds, Sv'.1 :: Ss, Sv'.2 :: vs)).
case: (bwd_step P dt t0 k (Q, v)) => [[Q' v']|]; last by [].
rewrite !obindS; case: (bwd_gain P dt t0 k (Q', v')) => [[K' d']|]; last by [].
rewrite !obindS (IH Q' v' K' d'); case: (tf_scan_rev _ _ _) => [r|]; last by [].
by rewrite !obindS !map_rcons !cat_rcons.
Qed.

Definition swap_bwd (r : bwd_res R n m) : tf_bwd_res R n m := let: (Ks, ds, Ss, vs) := r in (Ss, vs, Ks, ds).
Theorem seq_backward_tf steps dt t0 Q v : tf_seq_backwardpass P steps dt t0 Q v =
  omap swap_bwd (clqt_seqBackwardPass P steps (Some dt) (Some t0) (Some Q) (Some v)).
Proof.
rewrite /clqt_seqBackwardPass /tf_seq_backwardpass  -[dt_or _ _ _]/(Some dt) obindS.
rewrite  -[or_else _ _]/t0  -[or_else _ _]/Q  -[or_else _ _]/v.
rewrite (bwd_loop_tf _ _ _ _ _ 0 0); case: (tf_scan_rev _ _ _) => [r|]; last by [].
by rewrite !obindS /= !cats0 !cats1.
Qed.

(** forward pass; no condition on U *)
Lemma fwd_body_tf zoh dt x u0 t K d : tf_fwd_body P zoh dt (x, u0) (t, K, d) =
  omap (fun x' => (x', - K *m x + d)) (rk4_xt (V := matrix_lmodType R n 1) (cl_ode P zoh K d (- K *m x + d)) dt x t).
Proof.
rewrite /tf_fwd_body !form_tf mulNmx; case: zoh.
  by rewrite (@rk4_ext (matrix_lmodType R n 1) _ (cl_ode P true K d (- (K *m x) + d))) //; case: (rk4_xt _ _ _ _).
rewrite (@rk4_ext (matrix_lmodType R n 1) _ (cl_ode P false K d (- (K *m x) + d))); first by case: (rk4_xt _ _ _ _).
by move=> z s; rewrite /tf_f_no_zoh /cl_ode /= mulNmx.
Qed.
Lemma fwd_loop_tf zoh dt t0 Ks ds k x u0 : size Ks = size ds ->
  fwd_loop P dt t0 zoh Ks ds k x =
  let? r := tf_scan (tf_fwd_body P zoh dt) (x, u0) (zip (zip [seq t0 + i%:R * dt | i <- iota k (size ds)] Ks) ds) in
  Some ([seq e.2 | e <- r], [seq e.1 | e <- r]).
Proof.
elim: Ks ds k x u0 => [|K Ks IH] [|d ds] k x u0 //.
move=> /eqP; rewrite [size _]/= [size (d :: ds)]/= eqSS => /eqP sz.
rewrite -[zip _ _]/((t0 + k%:R * dt, K, d) :: zip (zip [seq t0 + i%:R * dt | i <- iota k.+1 (size ds)] Ks) ds).
rewrite tf_scan_cons fwd_body_tf.
rewrite -[LHS]/(let? x' := rk4_xt (V := matrix_lmodType R n 1) (cl_ode P zoh K d (- K *m x + d)) dt x (t0 + k%:R * dt) in
          let? '(us, xs) := fwd_loop P dt t0 zoh Ks ds k.+1 x' in Some (- K *m x + d :: us, x' :: xs)).
case: (rk4_xt _ _ _ _) => [x'|]; last by [].
rewrite !obindS (IH _ _ _ (- K *m x + d) sz); case: (tf_scan _ _ _) => [r|]; last by [].
by [].
Qed.
Definition swap {X Y} (z : X * Y) : Y * X := (z.2, z.1).
Theorem seq_forward_tf x0 Ks ds dt t0 zoh : size Ks = size ds -> (0 < size ds)%N ->
  tf_seq_forwardpass P x0 Ks ds dt t0 zoh = omap swap (clqt_seqForwardPass P x0 Ks ds (Some dt) (Some t0) zoh).
Proof.
move=> sz; rewrite /tf_seq_forwardpass; case: ds sz => [|d ds] sz // _; rewrite sz eqxx.
rewrite  -[~~ true]/false; cbv iota; rewrite /clqt_seqForwardPass  -[dt_or _ _ _]/(Some dt) obindS  -[or_else _ _]/t0.
rewrite (fwd_loop_tf _ _ _ _ _ d sz) -/(tf_times t0 dt (size (d :: ds))).
case: (tf_scan _ _ _) => [r|]; last by [].
by [].
Qed.

(** the forward value function pass *)
Lemma abc_tf_unpack (x : 'M[R]_(n, 2 * n + 1)) : tf_unpack_abc (lay _ x) = unpack_abc x.
Proof. by rewrite /tf_unpack_abc /unpack_abc; congr (_, _, _); apply: get_ext => i j; rewrite ent_lay //; lia. Qed.
Lemma abc_lay_pack e : lay _ (@pack_abc R n e) = tf_pack_abc e.
Proof. by apply: ent_ext => i j _; rewrite abc_tf_np ent_lay //; lia. Qed.
Lemma abc_f_tf (x : 'M[R]_(n, 2 * n + 1)) t : tf_abc_f P (lay _ x) t tt = omap (lay _) (fwdbwdpass_ode_f P x t).
Proof.
rewrite /tf_abc_f /fwdbwdpass_ode_f abc_tf_unpack; case: (unpack_abc x) => [[A b] C]; rewrite U.
apply: obind_map => u; rewrite abc_lay_pack; congr (tf_pack_abc (_, _, _)); by rewrite ?mulmxA.
Qed.
Lemma abc_body_tf dt e t : tf_abc_body P dt e t = abc_step P dt t e.
Proof.
rewrite /tf_abc_body /abc_step form_tf -abc_lay_pack -[lay _ _]addr0.
rewrite (@C41_affine_l R (matrix_lmodType R n (2 * n + 1)) (matrix_lmodType R n (n + (n + 1))) (@lay R n _ _) 0 (fwdbwdpass_ode_f P)).
- case: (rk4_xt _ _ _ _) => [x|] //; rewrite  -[omap _ _]/(Some _) !obindS addr0 abc_tf_unpack; by case: (unpack_abc x) => [[A b] C].
- move=> a x y; exact: lay_lin.
- by move=> z s; rewrite addr0; exact: abc_f_tf.
Qed.
Lemma abc_loop_tf dt t0 steps k e :
  abc_loop P dt t0 steps k e = let? r := tf_scan (tf_abc_body P dt) e [seq t0 + i%:R * dt | i <- iota k steps] in Some (e :: r).
Proof.
elim: steps k e => [|s IH] k e; first by [].
rewrite -[LHS]/(let? e' := abc_step P dt (t0 + k%:R * dt) e in let? l := abc_loop P dt t0 s k.+1 e' in Some (e :: l)).
rewrite  -[iota _ _]/(k :: iota k.+1 s) map_cons tf_scan_cons abc_body_tf; case: (abc_step _ _ _ _) => [e'|]; last by [].
by rewrite !obindS IH; case: (tf_scan _ _ _).
Qed.
Theorem seq_fwdbwd_tf x0 steps dt t0 A b C : tf_seq_fwdbwdpass P steps dt t0 (A, b, C) =
  clqt_seqFwdBwdPass P x0 steps (Some dt) (Some t0) (Some A) (Some b) (Some C).
Proof. by rewrite /clqt_seqFwdBwdPass /tf_seq_fwdbwdpass  -[dt_or _ _ _]/(Some dt) obindS abc_loop_tf. Qed.

(** elements *)
Lemma abcej_tf_unpack (x : 'M[R]_(n, 3 * n + 2)) : tf_unpack_abcej (lay _ x) = unpack_abcej x.
Proof. by rewrite /tf_unpack_abcej /unpack_abcej; congr Elem; apply: get_ext => i j; rewrite ent_lay //; lia. Qed.
Lemma abcej_lay_pack e : lay _ (@pack_abcej R n e) = tf_pack_abcej e.
Proof. by apply: ent_ext => i j _; rewrite abcej_tf_np ent_lay //; lia. Qed.
Lemma bw_f_tf (x : 'M[R]_(n, 3 * n + 2)) t : tf_bw_f P (lay _ x) t tt = omap (lay _) (bwpass_bw_ode_f P x t).
Proof.
rewrite /tf_bw_f /bwpass_bw_ode_f abcej_tf_unpack; case: (unpack_abcej x) => A b C eta J; rewrite U.
by apply: obind_map => u; rewrite abcej_lay_pack /bw_rhs /fw_rhs ?mulNmx ?mulmxA.
Qed.
Lemma fw_f_tf (x : 'M[R]_(n, 3 * n + 2)) t : tf_fw_f P (lay _ x) t tt = omap (lay _) (bwpass_fw_ode_f P x t).
Proof.
rewrite /tf_fw_f /bwpass_fw_ode_f abcej_tf_unpack; case: (unpack_abcej x) => A b C eta J; rewrite U.
by apply: obind_map => u; rewrite abcej_lay_pack /bw_rhs /fw_rhs ?mulNmx ?mulmxA.
Qed.
Lemma elem_body_tf tf ode h e t : (forall x s, tf (lay _ x) s tt = omap (lay _) (ode x s)) ->
  tf_elem_body (n := n) tf h e t = @elem_step R n ode h t e.
Proof.
move=> H; rewrite /tf_elem_body /elem_step form_tf -abcej_lay_pack -[lay _ _]addr0.
rewrite (@C41_affine_l R (matrix_lmodType R n (3 * n + 2)) (matrix_lmodType R n (n + (n + (n + (1 + 1))))) (@lay R n _ _) 0 ode).
- case: (rk4_xt _ _ _ _) => [x|] //; rewrite  -[omap _ _]/(Some _) !obindS addr0 abcej_tf_unpack; by case: (unpack_abcej x).
- move=> a x y; exact: lay_lin.
- by move=> z s; rewrite addr0; exact: H.
Qed.
Lemma block_tf dt t0 steps forward k : (0 < steps)%N ->
  (if forward then tf_block_fw P else tf_block_bw P) dt steps (t0 + k%:R * steps%:R * dt) = block_elem P dt t0 steps forward k.
Proof.
move=> sp; rewrite /block_elem; case: forward.
  rewrite /tf_block_fw -(tf_scan_last (body := fun e t => tf_elem_body (tf_fw_f P) dt e t) (g := fun i => t0 + k%:R * steps%:R * dt + i%:R * dt)).
    rewrite /tf_times; case E: (tf_scan _ _ _) => [r|] //=.
    by have := tf_scan_size E; rewrite size_map size_iota; case: r {E} => [|e r] //= sz; move: sp; rewrite -sz.
  move=> i e _; have -> : t0 + (k * steps + i)%:R * dt = t0 + k%:R * steps%:R * dt + i%:R * dt by rewrite natrD natrM mulrDl addrA.
  exact: esym (elem_body_tf _ _ _ fw_f_tf).
rewrite /tf_block_bw -(tf_scan_rev_head (body := fun e t => tf_elem_body (tf_bw_f P) (- dt) e (t + dt)) (g := fun i => t0 + k%:R * steps%:R * dt + i%:R * dt)).
  rewrite /tf_times; case E: (tf_scan_rev _ _ _) => [r|] //=.
  by have := tf_scan_rev_size E; rewrite size_map size_iota; case: r {E} => [|e r] //= sz; move: sp; rewrite -sz.
move=> i e _; have -> : t0 + (k * steps + i + 1)%:R * dt = t0 + k%:R * steps%:R * dt + i%:R * dt + dt.
  by rewrite !natrD natrM !mulrDl mul1r !addrA.
exact: esym (elem_body_tf _ _ _ bw_f_tf).
Qed.

Lemma psi_body_tf forward dt e t K d : tf_psi_body P forward dt e (t, K, d) =
  if forward then psi_step (fwpass_fw_ode_f P) dt t (K, d) e else psi_step (fwpass_bw_ode_f P) (- dt) (t + dt) (K, d) e.
Proof.
rewrite /tf_psi_body /psi_step; case: forward; rewrite form_tf form_xtp Psiphi_tf_np.
  rewrite (@rk4_ext (matrix_lmodType R n (n + 1)) _ (fun z s => fwpass_fw_ode_f P z s (K, d))) // => z s.
  rewrite /tf_psi_fw_f /fwpass_fw_ode_f -[unpack_Psiphi z]/(tf_unpack_Psiphi z).
  by case: (tf_unpack_Psiphi z) => Psi phi; rewrite Psiphi_tf_np.
rewrite (@rk4_ext (matrix_lmodType R n (n + 1)) _ (fun z s => fwpass_bw_ode_f P z s (K, d))) // => z s.
rewrite /tf_psi_bw_f /fwpass_bw_ode_f -[unpack_Psiphi z]/(tf_unpack_Psiphi z).
by case: (tf_unpack_Psiphi z) => Psi phi; rewrite Psiphi_tf_np !mulNmx.
Qed.
End Step.
Arguments swap_bwd {R n m} r.
