(** The regulator's parallel Runge-Kutta passes are the tracker's. *)
From Coq Require Import Ring Field.
From mathcomp Require Import all_ssreflect all_algebra zify.
From Verif Require Import ScanModel ScanSpec ScanProofs ScanUse MxBase LqtModel LqtCore LqtElem LqtMore LinComb Rk4Model Rk4Spec Rk4Proofs ClqtModel ClqtPack ClqtFwd ClqtFwd2 ClqtBwd ClqtVal ScanRel ClqrModel ClqrSpec ClqrProofs.
Import Order.TTheory GRing.Theory Num.Theory.
Set Implicit Arguments. Unset Strict Implicit. Unset Printing Implicit Defensive.
Local Open Scope ring_scope.
Local Arguments rk4_xt : simpl never.
Local Arguments rk4_xtp : simpl never.
Local Arguments rk4_x : simpl never.
Local Arguments rk4_xp : simpl never.

Section Par.
Variable R : realFieldType.
Variable expm : forall n, 'M[R]_n -> 'M[R]_n.
Variables n m : nat.
Variable q : clqr R n m.
Local Notation T := (tracker q).
Local Notation elem := (elem R n).

(** ** the affine parts of the elements stay zero *)
Definition lin_elem (e : elem) := eb e = 0 /\ eeta e = 0.
Definition flip (e : elem) : elem := Elem (eA e) (- eb e) (eC e) (- eeta e) (eJ e).
Lemma self_opp k l (M : 'M[R]_(k, l)) : M = - M -> M = 0.
Proof.
move=> E; apply/matrixP => i j; have := congr1 (fun N : 'M_(_, _) => N i j) E; rewrite !mxE => h.
have : M i j *+ 2 == 0 by rewrite mulr2n {2}h subrr.
by rewrite mulrn_eq0 /= => /eqP.
Qed.
Lemma flip_lin e : lin_elem e <-> flip e = e.
Proof.
case: e => A b C eta J; rewrite /lin_elem /flip /=; split=> [[-> ->]|[/esym/self_opp -> /esym/self_opp ->] //].
by rewrite !oppr0.
Qed.
Definition flipx (x : 'M[R]_(n, 3 * n + 2)) : 'M[R]_(n, 3 * n + 2) := pack_abcej (flip (unpack_abcej x)).
Lemma flipx_lin : linear_map (V := matrix_lmodType R n (3 * n + 2)) (W := matrix_lmodType R n (3 * n + 2)) flipx.
Proof.
move=> a x y; rewrite /flipx -abcej_pack_lin abcej_unpack_lin; congr pack_abcej.
by rewrite /flip /elem_lin /= !opprD -!scalerN.
Qed.
Lemma elem_step_lin ode h e e' : (forall x, ode (flipx x) = omap flipx (ode x)) ->
  lin_elem e -> qelem_step ode h e = Some e' -> lin_elem e'.
Proof.
move=> H /flip_lin fe; rewrite /qelem_step (form_x _ _ _ 0).
have := @C41_affine_l R _ _ flipx 0 (fun z _ => ode z) (fun z _ => ode z) h (pack_abcej e) 0 flipx_lin.
rewrite addr0 [flipx (pack_abcej e)]/flipx abcej_unpack fe => E.
case E2: (rk4_xt _ _ _ _) => [x|]; last by [].
rewrite E2 in E; have {}E : x = flipx x.
  have /Some_inj : Some x = omap (fun y => flipx y + 0) (Some x) by apply: E => z s; rewrite addr0; exact: H.
  by rewrite addr0.
have fx : lin_elem (unpack_abcej x) by apply/flip_lin; rewrite {2}E /flipx abcej_unpack.
by rewrite obindS; case: (unpack_abcej x) fx => A b C eta J fx [<-].
Qed.
Lemma bw_flip x : qbwpass_bw_ode_f q (flipx x) = omap flipx (qbwpass_bw_ode_f q x).
Proof.
rewrite /qbwpass_bw_ode_f; case: (qULT q) => // ult; rewrite !obindS /flipx abcej_unpack; congr (Some _); rewrite abcej_unpack; congr pack_abcej.
by case: (unpack_abcej x) => A b C eta J; rewrite /flip /= !mulmxN opprB opprK; congr Elem; rewrite addrC.
Qed.
Lemma fw_flip x : qbwpass_fw_ode_f q (flipx x) = omap flipx (qbwpass_fw_ode_f q x).
Proof.
rewrite /qbwpass_fw_ode_f; case: (qULT q) => // ult; rewrite !obindS /flipx abcej_unpack; congr (Some _); rewrite abcej_unpack; congr pack_abcej.
by case: (unpack_abcej x) => A b C eta J; rewrite /flip /= !mulmxN opprB opprK; congr Elem; rewrite addrC.
Qed.
Lemma for_inv {X} (I : X -> Prop) l (body : nat -> X -> option X) s s' :
  (forall i x x', I x -> body i x = Some x' -> I x') -> I s -> for_ l body s = Some s' -> I s'.
Proof.
move=> H; elim: l s => [|i l IH] s Is; first by case=> <-.
by rewrite for_cons; case E: (body i s) => [x|] // /IH; apply; exact: H E.
Qed.
Lemma block_lin dt steps forward e : qblock_elem q dt steps forward = Some e -> lin_elem e.
Proof.
rewrite /qblock_elem; case: forward; apply: (for_inv (I := lin_elem)) => // i x x' lx.
  by apply: elem_step_lin => //; exact: fw_flip.
by apply: elem_step_lin => //; exact: bw_flip.
Qed.
Lemma combine_lin e f g : lin_elem e -> lin_elem f -> combine_abcej e f = Some g -> lin_elem g.
Proof.
case: e f => A b C eta J [A' b' C' eta' J'] [/= -> ->] [/= -> ->]; rewrite /combine_abcej /=.
case E1: (solve (1%:M + C *m J') A) => [x1|] //=; have [u _] := (solveP _ _ _).1 E1; rewrite !(solve_unit _ u) /=.
case E2: (solve (1%:M + J' *m C) (0 - J' *m 0)) => [y1|] //=; have [u' _] := (solveP _ _ _).1 E2; rewrite !(solve_unit _ u') /= => -[<-].
move: E2; rewrite (solve_unit _ u') => -[<-].
by split; rewrite /= !mulmx0 ?subr0 !addr0 !mulmx0.
Qed.

(** ** backward pass *)
Lemma div_nats_pos (x : R) ks h : div_nats x ks = Some h -> all (fun k => 0 < k)%N ks.
Proof. by elim: ks x => //= k ks IH x; case: eqP => // /eqP k0 /IH ->; rewrite lt0n k0. Qed.
Theorem par_init_tracker blocks steps dt t0 forward : div_nats (qT q) [:: steps; blocks] = Some dt ->
  clqt_parBackwardPass_init T blocks steps dt t0 forward = clqr_parBackwardPass_init q blocks steps Rk4 forward.
Proof.
move=> E; rewrite /clqt_parBackwardPass_init /clqr_parBackwardPass_init E obindS.
rewrite (@omap_seq_ext _ _ _ (fun=> qblock_elem q dt steps forward)); last by move=> k; exact: block_elem_tracker.
have := div_nats_pos E => /= /andP [_ /andP [b0 _]].
rewrite omap_seq_same ?size_iota //; case: (qblock_elem _ _ _ _) => //= e; by rewrite ST_tracker vT_tracker.
Qed.
Lemma qbwd_size ult dt k Q acc r : qbwd_rk4 q ult dt k Q acc = Some r -> size r.1 = (k + size acc.1)%N /\ size r.2 = (k + size acc.2)%N.
Proof.
elim: k Q acc => [|k IH] Q acc; first by case=> <-.
rewrite /qbwd_rk4 -/qbwd_rk4; case: (rk4_x _ _ _) => //= Q' /IH /= [-> ->]; by rewrite !addSnnS.
Qed.
Lemma extract_cons dt t0 steps k e es : par_extract_loop T dt t0 steps k (e :: es) =
  let? '(bKs, bds, bSs, bvs) := clqt_seqBackwardPass T steps (Some dt) (Some (t0 + k%:R * dt * steps%:R)) (Some (eJ e)) (Some (eeta e)) in
  let? '(Ks, ds, Ss, vs) := par_extract_loop T dt t0 steps k.+1 es in
  Some (bKs ++ Ks, bds ++ ds, behead bSs ++ Ss, behead bvs ++ vs).
Proof. by []. Qed.
Lemma qextract_cons dt steps meth e es : qpar_extract_loop expm q dt steps meth (e :: es) =
  let? '(bKs, bSs) := clqr_seqBackwardPass expm q steps (Some dt) (Some (eJ e)) meth in
  let? '(Ks, Ss) := qpar_extract_loop expm q dt steps meth es in
  Some (bKs ++ Ks, behead bSs ++ Ss).
Proof. by []. Qed.
Lemma extract_tracker dt t0 steps k es : (0 < steps)%N -> (forall e, List.In e es -> eeta e = 0) ->
  par_extract_loop T dt t0 steps k es = omap (@no_affine R n m) (qpar_extract_loop expm q dt steps Rk4 es).
Proof.
move=> pos; elim: es k => [|e es IH] k H //.
rewrite extract_cons qextract_cons.
rewrite (@seq_backward_tracker R expm) //; last by right; rewrite H //; left.
case E: (clqr_seqBackwardPass _ _ _ _ _ _) => [[bKs bSs]|]; last by [].
rewrite [omap _ (Some _)]/= /no_affine !obindS; cbv beta iota; rewrite IH; last by move=> e' ie; apply: H; right.
case: (qpar_extract_loop _ _ _ _ _ _) => [[Ks Ss]|] //=; rewrite /no_affine /= !size_cat !nseqD; congr (Some (_, _)).
by case: bSs E.
Qed.
Theorem par_backward_tracker blocks steps :
  clqt_parBackwardPass T blocks steps None None false = omap (@no_affine R n m) (clqr_parBackwardPass expm q blocks steps Rk4 Rk4).
Proof.
rewrite /clqt_parBackwardPass /clqr_parBackwardPass dt_tracker /qdt_or.
case E: (div_nats _ _) => [dt|]; last by rewrite /clqr_parBackwardPass_init E.
rewrite obindS (par_init_tracker _ _ E); case E1: (clqr_parBackwardPass_init _ _ _ _ _) => [es|]; last by [].
rewrite !obindS /par_backward_pass_scan; case E2: (my_assoc_scan _ _ _) => [r|]; last by [].
rewrite !obindS; have /= /andP [s0 /andP [b0 _]] := div_nats_pos E.
have L : List.Forall lin_elem es /\ size es = blocks.+1.
  move: E1; rewrite /clqr_parBackwardPass_init E obindS; case E3: (qblock_elem _ _ _ _) => [e|] // [<-].
  rewrite size_rcons size_nseq; split=> //; rewrite -cats1; apply/List.Forall_app; split; last by repeat constructor.
  by elim: (blocks) => //= k IH; constructor=> //; exact: block_lin E3.
have [lr br] := scan_bracketing _ _ _ _ E2.
have {lr} lr : size r = blocks.+1 by have -> : size r = length r by []; rewrite lr -[length _]/(size es); case: L.
have sr e : List.In e r -> lin_elem e.
  move=> ie; have [k ek] := List.In_nth_error _ _ ie; apply: (br_inv _ _ combine_lin _ _ (br _ _ ek)).
  case: L => /List.Forall_forall F _; apply/List.Forall_forall => x ix; apply: F.
  by rewrite -[es](List.firstn_skipn k); apply/List.in_or_app; right.
case: r E2 br sr lr => [//|e r] _ _ sr [lr].
rewrite /clqt_parBackwardPass_extract /clqr_parBackwardPass_extract lr E obindS.
rewrite extract_tracker //; last by move=> e' ie; case: (sr e') => //; right.
case: (qpar_extract_loop _ _ _ _ _ _) => [[Ks Ss]|] //=; case: (sr e) => [|_ ->]; [by left|by []].
Qed.

(** ** forward pass *)
Lemma psi_fw_ode z s K : fwpass_fw_ode_f T z s (K, 0) = qfwpass_fw_ode_f q z K.
Proof.
rewrite /fwpass_fw_ode_f /qfwpass_fw_ode_f; case: (unpack_Psiphi z) => Psi phi; congr (Some (pack_Psiphi (_, _))).
by rewrite /tc /tF /= mulmx0 !addr0.
Qed.
Lemma psi_bw_ode z s K : fwpass_bw_ode_f T z s (K, 0) = qfwpass_bw_ode_f q z K.
Proof.
rewrite /fwpass_bw_ode_f /qfwpass_bw_ode_f; case: (unpack_Psiphi z) => Psi phi; congr (Some (pack_Psiphi (_, _))).
by rewrite /tc /tF /= mulmx0 !addr0 mulmx0.
Qed.
Lemma rk4_same (V : lmodType R) A B (f : V -> R -> A -> option V) (g : V -> B -> option V) h x t a b :
  (forall z s, f z s a = g z b) -> rk4_xtp f h x t a = rk4_xp g h x b.
Proof. by move=> E; rewrite form_xtp (form_xp _ _ _ t); apply: rk4_ext => z s; rewrite E. Qed.
Lemma qpsi_fw h t K e : psi_step (fwpass_fw_ode_f T) h t (K, 0) e = qpsi_step (qfwpass_fw_ode_f q) h K e.
Proof.
rewrite /psi_step /qpsi_step.
rewrite (@rk4_same (matrix_lmodType R n (n + 1)) _ _ (fwpass_fw_ode_f T) (qfwpass_fw_ode_f q) h _ t (K, 0) K); first exact: erefl.
by move=> z s; exact: psi_fw_ode.
Qed.
Lemma qpsi_bw h t K e : psi_step (fwpass_bw_ode_f T) h t (K, 0) e = qpsi_step (qfwpass_bw_ode_f q) h K e.
Proof.
rewrite /psi_step /qpsi_step.
rewrite (@rk4_same (matrix_lmodType R n (n + 1)) _ _ (fwpass_bw_ode_f T) (qfwpass_bw_ode_f q) h _ t (K, 0) K); first exact: erefl.
by move=> z s; exact: psi_bw_ode.
Qed.
Lemma nth_zeros {X Y} (l : seq X) (z : Y) i x : List.nth_error l i = Some x -> List.nth_error (nseq (size l) z) i = Some z.
Proof. by elim: l i => [|y l IH] [|i] //=; exact: IH. Qed.
Lemma block_psi_tracker dt t0 Ks steps forward k :
  block_psi T dt t0 Ks (nseq (size Ks) 0) steps forward k = qblock_psi q dt Ks steps forward k.
Proof.
rewrite /block_psi /qblock_psi; case: forward; apply: for_ext => i e;
  case E: (List.nth_error Ks _) => [K|] //; rewrite !obindS (nth_zeros _ E) obindS; [exact: qpsi_fw|exact: qpsi_bw].
Qed.
Theorem fwd_init_tracker x0 Ks blocks steps dt t0 forward : div_nats (qT q) [:: steps; blocks] = Some dt ->
  clqt_parForwardPass_init T x0 Ks (nseq (size Ks) 0) blocks steps dt t0 forward =
  clqr_parForwardPass_init q x0 Ks blocks steps Rk4 forward.
Proof.
move=> E; rewrite /clqt_parForwardPass_init /clqr_parForwardPass_init E obindS; case: ifP => // _; congr (obind _ _).
by apply: omap_seq_ext => k; exact: block_psi_tracker.
Qed.
Lemma zeros_map {X Y} (l : seq X) (z : Y) : nseq (size l) z = map (fun=> z) l.
Proof. by elim: l => //= x l ->. Qed.
Lemma slice_zeros {X Y} a b (l : seq X) (z : Y) : slice a b (nseq (size l) z) = nseq (size (slice a b l)) z.
Proof. by rewrite !zeros_map /slice map_take map_drop. Qed.
Lemma fwd_loop_cons dt t0 zoh steps k Ks ds e f es : par_fwd_loop T dt t0 zoh steps k Ks ds (e :: f :: es) =
  let? '(bus, bxs) := clqt_seqForwardPass T e.2 (slice (k * steps) ((k + 1) * steps) Ks) (slice (k * steps) ((k + 1) * steps) ds)
                         (Some dt) (Some (t0 + k%:R * steps%:R * dt)) zoh in
  let? '(us, xs) := par_fwd_loop T dt t0 zoh steps k.+1 Ks ds (f :: es) in
  Some (bus ++ us, take (size bus) bxs ++ xs).
Proof. by []. Qed.
Lemma qfwd_loop_cons dt meth zoh steps k Ks e f es : qpar_fwd_loop expm q dt meth zoh steps k Ks (e :: f :: es) =
  let? '(bus, bxs) := clqr_seqForwardPass expm q e.2 (slice (k * steps) ((k + 1) * steps) Ks) (Some dt) meth zoh in
  let? '(us, xs) := qpar_fwd_loop expm q dt meth zoh steps k.+1 Ks (f :: es) in
  Some (bus ++ us, take (size bus) bxs ++ xs).
Proof. by []. Qed.
Lemma par_fwd_loop_tracker dt t0 zoh steps k Ks es :
  par_fwd_loop T dt t0 zoh steps k Ks (nseq (size Ks) 0) es = qpar_fwd_loop expm q dt Rk4 zoh steps k Ks es.
Proof.
elim: es k => [|e [|f es] IH] k //; rewrite fwd_loop_cons qfwd_loop_cons slice_zeros (seq_forward_tracker expm).
by case: (clqr_seqForwardPass _ _ _ _ _ _ _) => [[bus bxs]|] //; rewrite !obindS IH.
Qed.
Theorem par_forward_tracker x0 Ks blocks steps zoh :
  clqt_parForwardPass T x0 Ks (nseq (size Ks) 0) blocks steps None None true zoh =
  clqr_parForwardPass expm q x0 Ks blocks steps Rk4 Rk4 zoh.
Proof.
rewrite /clqt_parForwardPass /clqr_parForwardPass dt_tracker /qdt_or.
case E: (div_nats _ _) => [dt|]; last by rewrite /clqr_parForwardPass_init E; case: ifP.
rewrite obindS (fwd_init_tracker _ _ _ _ E); case E1: (clqr_parForwardPass_init _ _ _ _ _ _ _) => [es|]; last by [].
rewrite !obindS; case E2: (par_forward_pass_scan _) => [r|]; last by [].
rewrite !obindS /clqt_parForwardPass_extract /clqr_parForwardPass_extract.
have [lr _] := scan_bracketing _ _ _ _ E2.
have {lr} lr : size r = blocks.+1.
  have -> : size r = length r by []; rewrite lr -[length _]/(size es).
  move: E1; rewrite /clqr_parForwardPass_init E; case: ifP => // _; rewrite obindS; case E3: (omap_seq _ _) => [l|] // [<-] /=.
  by have [_ ->] := omap_seq_P (T := fun=> True) (fun _ _ _ => I) E3; rewrite size_iota.
by rewrite lr E; case: ifP => // _; rewrite obindS par_fwd_loop_tracker.
Qed.

(** ** forward-backward pass *)
Theorem fb_init_tracker x0 blocks steps dt t0 forward : div_nats (qT q) [:: steps; blocks] = Some dt ->
  clqt_parFwdBwdPass_init T x0 blocks steps dt t0 forward = clqr_parFwdBwdPass_init q x0 blocks steps Rk4 forward.
Proof.
move=> E; rewrite /clqt_parFwdBwdPass_init /clqr_parFwdBwdPass_init E obindS.
rewrite (@omap_seq_ext _ _ _ (fun=> qblock_elem q dt steps forward)); last by move=> k; exact: block_elem_tracker.
have := div_nats_pos E => /= /andP [_ /andP [b0 _]].
by rewrite omap_seq_same ?size_iota //; case: (qblock_elem _ _ _ _).
Qed.
Lemma fb_loop_cons dt t0 steps k Ks ds Ss vs e f es : par_fb_loop T dt t0 steps k Ks ds Ss vs (e :: f :: es) =
  let? l := abc_loop T dt (t0 + k%:R * steps%:R * dt) steps 0 (eA e, eb e, eC e) in
  let? '(bus, bxs) := combineForwardBackward (slice (k * steps) ((k + 1) * steps) Ks) (slice (k * steps) ((k + 1) * steps) ds)
                         (slice (k * steps) ((k + 1) * steps + 1) Ss) (slice (k * steps) ((k + 1) * steps + 1) vs) l in
  if es is [::] then
    if bxs is x :: t then Some (bus, rcons (take (size bus) bxs) (last x t)) else None
  else let? '(us, xs) := par_fb_loop T dt t0 steps k.+1 Ks ds Ss vs (f :: es) in Some (bus ++ us, take (size bus) bxs ++ xs).
Proof. by []. Qed.
Lemma qfb_loop_cons dt meth steps k Ks Ss e f es : qpar_fb_loop q dt meth steps k Ks Ss (e :: f :: es) =
  let? l := clqr_seqFwdBwdPass q 0 steps (Some dt) (Some (eA e)) (Some (eb e)) (Some (eC e)) meth in
  let? '(bus, bxs) := qcombineForwardBackward (slice (k * steps) ((k + 1) * steps) Ks) (slice (k * steps) ((k + 1) * steps + 1) Ss) l in
  if es is [::] then
    if bxs is x :: t then Some (bus, rcons (take (size bus) bxs) (last x t)) else None
  else let? '(us, xs) := qpar_fb_loop q dt meth steps k.+1 Ks Ss (f :: es) in Some (bus ++ us, take (size bus) bxs ++ xs).
Proof. by []. Qed.
Lemma par_fb_loop_tracker dt t0 steps k Ks Ss es :
  par_fb_loop T dt t0 steps k Ks (nseq (size Ks) 0) Ss (nseq (size Ss) 0) es = qpar_fb_loop q dt Rk4 steps k Ks Ss es.
Proof.
elim: es k => [|e [|f es] IH] k //; rewrite fb_loop_cons qfb_loop_cons.
rewrite !slice_zeros /clqr_seqFwdBwdPass obindS abc_loop_tracker; case: (qabc_loop _ _ _ _) => // l; rewrite !obindS.
rewrite combine_tracker; case: (qcombineForwardBackward _ _ _) => [[us xs]|] //; rewrite !obindS.
by case: es IH => // g es IH; rewrite IH.
Qed.
Theorem par_fwdbwd_tracker x0 Ks Ss blocks steps :
  clqt_parFwdBwdPass T x0 Ks (nseq (size Ks) 0) Ss (nseq (size Ss) 0) blocks steps None None true =
  clqr_parFwdBwdPass q x0 Ks Ss blocks steps Rk4 Rk4.
Proof.
rewrite /clqt_parFwdBwdPass /clqr_parFwdBwdPass dt_tracker /qdt_or.
case E: (div_nats _ _) => [dt|]; last by rewrite /clqr_parFwdBwdPass_init E.
rewrite obindS (fb_init_tracker _ _ _ E); case E1: (clqr_parFwdBwdPass_init _ _ _ _ _ _) => [es|]; last by [].
rewrite !obindS; case E2: (par_fwdbwd_pass_scan _) => [r|]; last by [].
rewrite !obindS /clqt_parFwdBwdPass_extract /clqr_parFwdBwdPass_extract.
have [lr _] := scan_bracketing _ _ _ _ E2.
have {lr} lr : size r = blocks.+1.
  have -> : size r = length r by []; rewrite lr -[length _]/(size es).
  by move: E1; rewrite /clqr_parFwdBwdPass_init E obindS; case: (qblock_elem _ _ _ _) => // e [<-] /=; rewrite size_nseq.
by rewrite lr E; case: ifP => // _; case: ifP => // _; rewrite obindS par_fb_loop_tracker.
Qed.
End Par.
