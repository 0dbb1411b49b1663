(** Parallel passes of the TensorFlow continuous-time tracker. *)
From mathcomp Require Import all_ssreflect all_algebra zify.
From Verif Require Import ScanModel ScanSpec ScanProofs ScanUse TfScan MxBase LqtModel LqtSpec LqtCore LqtElem LqtMore LqtTfModel LinComb Rk4Model Rk4Spec Rk4Proofs ClqtModel ClqtPack ClqtFwd2 ClqtVal ClqtTfModel ClqtTf ClqtTf2.
Import Order.TTheory GRing.Theory Num.Theory.
Set Implicit Arguments. Unset Strict Implicit. Unset Printing Implicit Defensive.
Local Open Scope ring_scope.

Lemma zip_map2 {I X Y} (f : I -> X) (g : I -> Y) l : zip (map f l) (map g l) = [seq (f i, g i) | i <- l].
Proof. by elim: l => //= i l ->. Qed.
Lemma as_map {X} (x0 : X) l : l = [seq nth x0 l i | i <- iota 0 (size l)].
Proof. by rewrite -/(mkseq _ _) mkseq_nth. Qed.
Lemma omap_seq_map {X Y Z} (h : X -> Y) (f : Y -> option Z) l : omap_seq f (map h l) = omap_seq (fun x => f (h x)) l.
Proof. by elim: l => //= x l ->. Qed.
Lemma omap_seq_ext {X Y} (f g : X -> option Y) l : (forall x, List.In x l -> f x = g x) -> omap_seq f l = omap_seq g l.
Proof. by elim: l => //= x l IH H; rewrite H; [rewrite IH // => y h; apply: H; right | left]. Qed.
Lemma omap_seq_size {X Y} (f : X -> option Y) l r : omap_seq f l = Some r -> size r = size l.
Proof. by elim: l r => [|x l IH] r /=; [case=> <- | case: (f x) => //= y; case E: (omap_seq f l) => [ys|] //= [<-] /=; rewrite (IH _ E)]. Qed.
Lemma chunks_slice {X} b s k (l : seq X) : chunks b s (drop (k * s) l) = [seq slice (i * s) ((i + 1) * s) l | i <- iota k b].
Proof.
elim: b k => //= b IH k; congr (_ :: _); first by rewrite /slice; congr take; lia.
by rewrite drop_drop -IH; congr (chunks b s (drop _ l)); lia.
Qed.
Lemma reshape2E {X} b s (l : seq X) : size l = (b * s)%N ->
  reshape2 b s l = Some [seq slice (i * s) ((i + 1) * s) l | i <- iota 0 b].
Proof. by move=> h; rewrite /reshape2 h eqxx -chunks_slice mul0n drop0. Qed.
Lemma slice_in {X} b s k (l : seq X) : size l = (b * s)%N -> (k < b)%N -> size (slice (k * s) ((k + 1) * s) l) = s.
Proof. by move=> h kb; rewrite slice_size; nia. Qed.

Section Par.
Variable R : realFieldType.
Variables n m p pT : nat.
Variable P : clqt R n m p pT.

Lemma block_psi_tf dt t0 Ks ds blocks steps forward k : size Ks = (blocks * steps)%N -> size ds = (blocks * steps)%N ->
  (k < blocks)%N -> (0 < steps)%N ->
  tf_block_psi P forward dt steps (t0 + k%:R * steps%:R * dt, slice (k * steps) ((k + 1) * steps) Ks, slice (k * steps) ((k + 1) * steps) ds)
  = block_psi P dt t0 Ks ds steps forward k.
Proof.
move=> sK sd kb sp; have sK' := slice_in sK kb; have sd' := slice_in sd kb.
pose g i := (t0 + k%:R * steps%:R * dt + i%:R * dt, nth 0 Ks (k * steps + i), nth 0 ds (k * steps + i)).
have inp : zip (zip (tf_times (t0 + k%:R * steps%:R * dt) dt steps) (slice (k * steps) ((k + 1) * steps) Ks)) (slice (k * steps) ((k + 1) * steps) ds)
  = map g (iota 0 steps).
  rewrite (as_map 0 (slice _ _ Ks)) (as_map 0 (slice _ _ ds)) sK' sd' /tf_times !zip_map2.
  apply/eq_in_map => i; rewrite mem_iota => /andP [_ h]; rewrite /g !nth_slice //; lia.
have lt i : List.In i (iota 0 steps) -> (k * steps + i < blocks * steps)%N by move/in_mem_iota; nia.
have eK i : List.In i (iota 0 steps) -> List.nth_error Ks (k * steps + i) = Some (nth 0 Ks (k * steps + i)).
  by move/lt => h; apply: nthe; rewrite sK.
have ed i : List.In i (iota 0 steps) -> List.nth_error ds (k * steps + i) = Some (nth 0 ds (k * steps + i)).
  by move/lt => h; apply: nthe; rewrite sd.
rewrite /tf_block_psi /block_psi inp; case: forward.
  rewrite -(tf_scan_last (body := tf_psi_body P true dt) (g := g)).
    case E: (tf_scan _ _ _) => [r|] //=.
    by have := tf_scan_size E; rewrite size_map size_iota; case: r {E} => [|e r] //= sz; move: sp; rewrite -sz.
  move=> i e h; rewrite (eK i h) (ed i h) 2!obindS /g psi_body_tf.
  by have -> : t0 + (k * steps + i)%:R * dt = t0 + k%:R * steps%:R * dt + i%:R * dt by rewrite natrD natrM mulrDl addrA.
rewrite -(tf_scan_rev_head (body := tf_psi_body P false dt) (g := g)).
  case E: (tf_scan_rev _ _ _) => [r|] //=.
  by have := tf_scan_rev_size E; rewrite size_map size_iota; case: r {E} => [|e r] //= sz; move: sp; rewrite -sz.
move=> i e h; rewrite (eK i h) (ed i h) 2!obindS /g psi_body_tf.
have -> : t0 + (k * steps + i + 1)%:R * dt = t0 + k%:R * steps%:R * dt + i%:R * dt + dt.
  by rewrite !natrD natrM !mulrDl mul1r !addrA.
by [].
Qed.

Lemma par_forward_init_tf x0 Ks ds blocks steps dt t0 forward : size Ks = (blocks * steps)%N -> size ds = (blocks * steps)%N ->
  (0 < steps)%N ->
  tf_par_forwardpass_init P forward blocks steps x0 Ks ds dt t0 = clqt_parForwardPass_init P x0 Ks ds blocks steps dt t0 forward.
Proof.
move=> sK sd sp; rewrite /tf_par_forwardpass_init /clqt_parForwardPass_init sK eqxx -[if ~~ true then _ else _]/(let? _ := _ in _).
rewrite (reshape2E sK) (reshape2E sd) 2!obindS /tf_blocks !zip_map2 omap_seq_map.
congr obind; apply: omap_seq_ext => k /in_mem_iota h; exact: (@block_psi_tf dt t0 Ks ds blocks).
Qed.

Lemma par_fwd_loop_tf dt t0 zoh steps k Ks ds e es : size Ks = size ds -> ((k + size es) * steps <= size Ks)%N -> (0 < steps)%N ->
  par_fwd_loop P dt t0 zoh steps k Ks ds (e :: es) =
  let? rs := omap_seq (fun z : nat * ('M[R]_n * 'cV[R]_n) => tf_seq_forwardpass P z.2.2 (slice (z.1 * steps) ((z.1 + 1) * steps) Ks)
       (slice (z.1 * steps) ((z.1 + 1) * steps) ds) dt (t0 + z.1%:R * steps%:R * dt) zoh) (zip (iota k (size es)) (belast e es)) in
  Some (flatten [seq r.2 | r <- rs], rcons (flatten [seq take (size r.1).-1 r.1 | r <- rs]) (last e es).2).
Proof.
move=> sz + sp; elim: es k e => [|e' es IH] k e le; first by [].
rewrite -[LHS]/(let? '(bus, bxs) := clqt_seqForwardPass P e.2 (slice (k * steps) ((k + 1) * steps) Ks) (slice (k * steps) ((k + 1) * steps) ds)
                                 (Some dt) (Some (t0 + k%:R * steps%:R * dt)) zoh in
          let? '(us, xs) := par_fwd_loop P dt t0 zoh steps k.+1 Ks ds (e' :: es) in
          Some (bus ++ us, take (size bus) bxs ++ xs)).
have s1 : size (slice (k * steps) ((k + 1) * steps) Ks) = steps by rewrite slice_size; move: le; rewrite /=; nia.
have s2 : size (slice (k * steps) ((k + 1) * steps) ds) = steps by rewrite slice_size -?sz; move: le; rewrite /=; nia.
rewrite IH; last by move: le; rewrite /=; nia.
rewrite -[zip (iota k (size (e' :: es))) _]/((k, e) :: zip (iota k.+1 (size es)) (belast e' es)) -[omap_seq _ (_ :: _)]/(let? y := tf_seq_forwardpass P e.2 (slice (k * steps) ((k + 1) * steps) Ks)
       (slice (k * steps) ((k + 1) * steps) ds) dt (t0 + k%:R * steps%:R * dt) zoh in let? ys := omap_seq _ _ in Some (y :: ys)).
rewrite [in RHS]seq_forward_tf ?s1 ?s2 //.
case E: (clqt_seqForwardPass _ _ _ _ _ _ _) => [[bus bxs]|]; last by [].
rewrite obindS -[omap swap _]/(Some (bxs, bus)) obindS.
case: (omap_seq _ _) => [rs|]; last by [].
rewrite !obindS -[last e (e' :: es)]/(last e' es).
rewrite -[flatten [seq r.2 | r <- _ :: _]]/(bus ++ flatten [seq r.2 | r <- rs]).
rewrite -[flatten [seq take _ _ | r <- _ :: _]]/(take (size bxs).-1 bxs ++ flatten [seq take (size r.1).-1 r.1 | r <- rs]) rcons_cat.
suff -> : size bus = (size bxs).-1 by [].
have E2 : tf_seq_forwardpass P e.2 (slice (k * steps) ((k + 1) * steps) Ks) (slice (k * steps) ((k + 1) * steps) ds) dt (t0 + k%:R * steps%:R * dt) zoh = Some (bxs, bus).
  by rewrite seq_forward_tf ?s1 ?s2 // E.
move: E2; rewrite /tf_seq_forwardpass; case: (slice _ _ ds) => [|d l] //; case: ifP => // _.
by case: (tf_scan _ _ _) => [r|] //= [<- <-] /=; rewrite !size_map.
Qed.


Theorem par_forward_tf x0 Ks ds blocks steps dt t0 forward zoh mp :
  size Ks = (blocks * steps)%N -> size ds = (blocks * steps)%N -> (0 < steps)%N -> (blocks + 1 < 2 * mp)%N ->
  tf_par_forwardpass P blocks steps x0 Ks ds dt t0 forward zoh mp =
  omap swap (clqt_parForwardPass P x0 Ks ds blocks steps (Some dt) (Some t0) forward zoh).
Proof.
move=> sK sd sp lim; rewrite /tf_par_forwardpass /clqt_parForwardPass par_forward_init_tf //.
rewrite -[dt_or _ _ _]/(Some dt) obindS -[or_else _ _]/t0.
rewrite /clqt_parForwardPass_init sK eqxx -[if ~~ true then _ else _]/(let? es := omap_seq (block_psi P dt t0 Ks ds steps forward) (iota 0 blocks) in Some ((1%:M, x0) :: es)).
case E: (omap_seq _ _) => [es|]; last by [].
have := omap_seq_size E; rewrite size_iota => se.
rewrite !obindS fc_scan -[fun x y => Some (lqt_par_comb_f x y)]/(fun x y : 'M[R]_n * 'cV[R]_n => Some (combine_fc x y)).
rewrite (tfp_scan_mp (fun _ => True) _ (@fc_closed R n) (@fc_assoc R n)) //; last by rewrite -[length es]/(size es) se; lia.
- case Es: (scanl_o _ _ _) => [[|e r]|]; [by case: (es) Es => // ? ? /=; case: (scanl_o _ _ _) | | by []].
  have sr : size r = blocks.
    by have [/= L _] := scanl_o_spec _ _ _ _ Es; rewrite -se; move: L => []; rewrite -!/(size _).
  rewrite !obindS /tf_par_forwardpass_extract /clqt_parForwardPass_extract sr.
  rewrite -[(size (e :: r)).-1]/(size r) sr sK eqxx -[if ~~ true then _ else _]/(par_fwd_loop _ _ _ _ _ _ _ _ _).
  rewrite par_fwd_loop_tf ?sK ?sd ?sr //.
  rewrite (reshape2E sK) (reshape2E sd) 2!obindS.
  rewrite (as_map (0, 0) (belast e r)) size_belast sr /tf_blocks !zip_map2 omap_seq_map.
  rewrite -[X in zip X _]map_id zip_map2 omap_seq_map.
  rewrite (@omap_seq_ext _ _ _ (fun x => tf_seq_forwardpass P (nth (0, 0) (belast e r) x).2 (slice (x * steps) ((x + 1) * steps) Ks)
       (slice (x * steps) ((x + 1) * steps) ds) dt (t0 + x%:R * steps%:R * dt) zoh)) //.
  by case: (omap_seq _ _).
- by move: lim; case: (mp) => //; lia.
- exact: forall_T.
Qed.

Theorem par_forward_seq_tf x0 Ks ds blocks steps dt t0 forward mp :
  size Ks = (blocks * steps)%N -> size ds = (blocks * steps)%N -> (0 < steps)%N -> (0 < blocks)%N -> (blocks + 1 < 2 * mp)%N ->
  tf_par_forwardpass P blocks steps x0 Ks ds dt t0 forward false mp = tf_seq_forwardpass P x0 Ks ds dt t0 false.
Proof.
move=> sK sd sp bp lim; rewrite par_forward_tf // par_forward_eq_l ?sK // seq_forward_tf // ?sK ?sd //; nia.
Qed.
End Par.
