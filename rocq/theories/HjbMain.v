(** The finite-difference solvers at the level of the returned value functions (C53, C72), and the analytic block value
    functions (C54). *)
From Coq Require Import Ring Field.
From mathcomp Require Import all_ssreflect all_algebra zify.
From Verif Require Import ScanModel Ord FscModel MxBase LinComb LqtModel ClqtModel ClqtTfModel PararealModel.
From Verif Require Import Rk4Proofs HjbModel HjbSpec HjbProofs HjbFd.
Import Order.TTheory GRing.Theory Num.Theory.
Set Implicit Arguments. Unset Strict Implicit. Unset Printing Implicit Defensive.
Local Open Scope ring_scope.

Section Main.
Variable R : realFieldType.
Local Notation K := (Fcost R).
Add Ring Rr : (mc_ring R).
Add Field Rf : (mc_field R).
Ltac sfield := rsn R; field; repeat split; num_neq0 R.
Variables (f L : R -> R -> R).

Lemma size_sym (dx : R) (V : seq R) : (1 < size V)%N -> size (dv_sym dx V) = (size V - 2)%N.
Proof. by move=> s1; rewrite size_map size_zip size_drop size_but2 minnn. Qed.
Section One.
Variables (xs us : seq R) (dx dt : R).
Lemma nth_sym (V : seq R) i : (i.+2 < size V)%N -> nth 0 (dv_sym dx V) i = (nth 0 V i.+2 - nth 0 V i) / (2%:R * dx).
Proof.
move=> h; have sz : size (zip (drop 2 V) (but_last2 V)) = (size V - 2)%N by rewrite size_zip size_drop size_but2 minnn.
rewrite /dv_sym (nth_map (0, 0)) ?sz; last by lia.
by rewrite nth_zip ?size_drop ?size_but2 //= nth_drop /but_last2 nth_take ?add2n //; lia.
Qed.
Lemma symfd_step_l V : us <> [::] -> (1 < size xs)%N -> size V = size xs -> exists V', [/\ symfd_step f L xs us dx dt V = Some V', size V' = size xs &
  forall i, (i < size xs)%N -> 0 <= dt -> least_of [seq symmetric_cost f L dx dt xs V i u | u <- us] (nth 0 V' i)].
Proof.
move=> us0 s1 sV; have s1' : (1 < size V)%N by rewrite sV.
pose dm := mkseq (symmetric_quotient dx V) (size V).
have dmE : dv_all (@dv_sym R) dx V = dm.
  rewrite (dvF dx size_sym s1') /dm /mkseq; apply/eq_in_map => i; rewrite mem_iota add0n /= => iS.
  rewrite /symmetric_quotient; case: (altP (i =P 0%N)) => // i0; case: (altP (i.+1 =P size V)) => // iN.
  by rewrite nth_sym ?prednK ?lt0n // ltn_neqAle iN.
pose Q i := [seq L (nth 0 xs i) u + f (nth 0 xs i) u * nth 0 dm i | u <- us].
have Q0 i : Q i <> [::] by rewrite /Q; case: (us) us0.
pose q i := odflt 0 (@vmin K (Q i)).
have qL i : least_of (Q i) (q i) by have [z E H] := vmin_least (@Q0 i); rewrite /q E.
exists (mkseq (fun i => nth 0 V i + q i * dt) (size xs)); split; last 1 first.
- move=> i iS d0; rewrite nth_mkseq //.
  have QC : [seq symmetric_cost f L dx dt xs V i u | u <- us] = [seq nth 0 V i + z * dt | z <- Q i].
    by rewrite -map_comp; apply: eq_map => u /=; rewrite /symmetric_cost /dm nth_mkseq ?sV.
  rewrite QC; have [h1 h2] := qL i; split; first by apply/mapP; exists (q i).
  by move=> y /mapP [z zQ ->]; rewrite ler_add2l; apply: ler_wpmul2r => //; exact: h2.
- rewrite /symfd_step dmE [in zip xs V](to_mkseq xs) [X in zip (zip _ X)](to_mkseq V) (to_mkseq dm) /dm !size_mkseq -/dm sV !zip_mkseq.
  rewrite (@omap_seqE _ _ _ (fun z => z.1.2 + odflt 0 (@vmin K [seq L z.1.1 u + f z.1.1 u * z.2 | u <- us]) * dt)).
    by rewrite /mkseq -map_comp.
  move=> z zI; rewrite symfd_pointE.
  have ne : [seq L z.1.1 u + f z.1.1 u * z.2 | u <- us] <> [::] by case: (us) us0.
  by have [q' -> _] := vmin_least ne.
by rewrite size_mkseq.
Qed.
Lemma symfd_total V : us <> [::] -> (1 < size xs)%N -> size V = size xs ->
  exists2 V', symfd_step f L xs us dx dt V = Some V' & size V' = size xs.
Proof. by move=> us0 s1 sV; have [V' [E sV' _]] := symfd_step_l us0 s1 sV; exists V'. Qed.

Lemma cfl_fwd (v w v' w' l c : R) : 0 < dx -> 0 <= dt -> 0 <= c -> dt * c <= dx -> v <= v' -> w <= w' ->
  v + (l + c * ((w - v) / dx)) * dt <= v' + (l + c * ((w' - v') / dx)) * dt.
Proof.
move=> dx0 dt0 c0 cfl hv hw; rewrite -subr_ge0.
rewrite (_ : _ - _ = (v' - v) * ((dx - dt * c) / dx) + (w' - w) * (dt * c / dx)).
  by rewrite addr_ge0 // mulr_ge0 ?subr_ge0 ?divr_ge0 ?subr_ge0 ?(ltW dx0) ?mulr_ge0.
by sfield; exact: dx0.
Qed.
Lemma cfl_bwd (v w v' w' l c : R) : 0 < dx -> 0 <= dt -> c <= 0 -> dt * - c <= dx -> v <= v' -> w <= w' ->
  v + (l + c * ((v - w) / dx)) * dt <= v' + (l + c * ((v' - w') / dx)) * dt.
Proof.
move=> dx0 dt0 c0 cfl hv hw.
have E (a b : R) : c * ((a - b) / dx) = (- c) * ((b - a) / dx) by sfield; exact: dx0.
by rewrite !E; apply: cfl_fwd; rewrite ?oppr_ge0.
Qed.
Lemma upwind_cost_mono V W i u : 0 < dx -> 0 <= dt -> size V = size xs -> size W = size xs -> (1 < size xs)%N -> (i < size xs)%N ->
  (forall j, nth 0 V j <= nth 0 W j) -> dt * `|f (nth 0 xs i) u| <= dx ->
  (i = 0%N -> 0 <= f (nth 0 xs i) u) -> (i.+1 = size xs -> f (nth 0 xs i) u <= 0) ->
  upwind_cost f L dx dt xs V i u <= upwind_cost f L dx dt xs W i u.
Proof.
move=> dx0 dt0 sV sW s1 iS VW; rewrite /upwind_cost /upwind_quotient sV sW; move: (f _ u) (L _ u) => c l cfl h0 hN.
have c1 : 0 <= c -> dt * c <= dx by move=> h; move: cfl; rewrite ger0_norm.
have c2 : c <= 0 -> dt * - c <= dx by move=> h; move: cfl; rewrite ler0_norm.
case: (altP (i =P 0%N)) => [i0|i0].
  by rewrite i0; apply: cfl_fwd => //; [exact: h0 | apply: c1; exact: h0].
case: (altP (i.+1 =P size xs)) => [iN|iN] /=.
  by apply: cfl_bwd => //; [exact: hN | apply: c2; exact: hN].
case: ltP => hc /=; last by apply: cfl_bwd => //; exact: c2.
by apply: cfl_fwd => //; [exact: ltW | apply: c1; exact: ltW].
Qed.
Lemma least_mono (g h : R -> R) p q : least_of [seq g u | u <- us] p -> least_of [seq h u | u <- us] q ->
  (forall u, u \in us -> g u <= h u) -> p <= q.
Proof.
case=> _ p2 [/mapP [u uI ->] _] H; apply: le_trans (H _ uI).
by apply: p2; apply/mapP; exists u.
Qed.
End One.

Section Api.
Variables (LT : R -> R) (T : R) (blocks steps : nat) (xs us : seq R).
Hypotheses (b0 : (0 < blocks)%N) (s0 : (0 < steps)%N).

Lemma empty_u mk : (forall dx dt V, (1 < size xs)%N -> size V = size xs -> mk xs [::] dx dt V = None) ->
  tf_seq_fd LT mk T blocks steps xs [::] = seq_fd LT mk T blocks steps xs [::].
Proof.
move=> H; rewrite /tf_seq_fd /seq_fd; case E : (grid_dx xs) => [dx|] //; rewrite !obindS' /= (negPf (lt0n_neq0 b0)) (negPf (lt0n_neq0 s0)) /=.
case: ifP => // _.
have sx : (1 < size xs)%N by case: (xs) E => [|x [|y l]].
have -> : fd_blocks (mk xs [::] dx (T / blocks%:R / steps%:R)) steps blocks [seq LT x | x <- xs] = None.
  by case: (blocks) b0 => // b _; case: (steps) s0 => // s _ /=; rewrite H // size_map.
rewrite /tf_scan_rev; have := size_rev (iota 0 (blocks * steps)); rewrite size_iota.
case: (rev _) => [|y l] /= E2; first by move: (muln_gt0 blocks steps); rewrite -E2 b0 s0.
by rewrite H // size_map.
Qed.
Lemma grid_dxE : (1 < size xs)%N -> grid_dx xs = Some (nth 0 xs 1 - nth 0 xs 0).
Proof. by case: xs => [|x [|y l]]. Qed.
Lemma tf_fd_l mk : (forall dx dt V, (1 < size xs)%N -> size V = size xs -> mk xs [::] dx dt V = None) ->
  (us <> [::] -> (1 < size xs)%N -> forall dx dt V, size V = size xs -> exists2 V', mk xs us dx dt V = Some V' & size V' = size xs) ->
  tf_seq_fd LT mk T blocks steps xs us = seq_fd LT mk T blocks steps xs us.
Proof.
move=> H0 H; case Eu : us => [|u us']; first exact: empty_u.
rewrite -Eu; have us0 : us <> [::] by rewrite Eu.
case: (ltnP 1 (size xs)) => s1; last first.
  by rewrite /tf_seq_fd /seq_fd; case: (xs) s1 => [|x [|y l]].
have dxE := grid_dxE s1; have {}H := H us0 s1.
case: (altP ((nth 0 xs 1 - nth 0 xs 0) =P 0)) => [d0|d0].
  by rewrite /tf_seq_fd /seq_fd dxE !obindS' d0 eqxx /= (negPf (lt0n_neq0 b0)) (negPf (lt0n_neq0 s0)).
apply: (tf_seq_fdE b0 s0 dxE d0 (g := fun V => odflt [::] (mk xs us (nth 0 xs 1 - nth 0 xs 0) (T / blocks%:R / steps%:R) V)) (I := fun V => size V = size xs)).
  by move=> V sV; have [V' -> sV'] := H (nth 0 xs 1 - nth 0 xs 0) (T / blocks%:R / steps%:R) V sV.
by rewrite size_map.
Qed.
Lemma seq_fd_ext mk mk' : (forall dx dt V, mk xs us dx dt V = mk' xs us dx dt V) -> seq_fd LT mk T blocks steps xs us = seq_fd LT mk' T blocks steps xs us.
Proof.
move=> E; rewrite /seq_fd; case: (grid_dx xs) => // dx; rewrite !obindS'; case: (div_nats _ _) => // dt; rewrite !obindS'; case: ifP => // _.
suff -> : forall b V, fd_blocks (mk xs us dx dt) steps b V = fd_blocks (mk' xs us dx dt) steps b V by [].
have Ei s V : iter_o s (mk xs us dx dt) V = iter_o s (mk' xs us dx dt) V.
  by elim: s V => //= s IH V; rewrite E; case: (mk' _ _ _ _ _) => //= V'; exact: IH.
by elim=> //= b IH V; rewrite Ei; case: (iter_o _ _ _) => //= V'; rewrite IH.
Qed.
Lemma empty_zip {X Y} (s : seq X) (t : seq Y) : (0 < size s)%N -> (0 < size t)%N -> exists z l, zip s t = z :: l.
Proof. by case: s t => [|x s] [|y t] // _ _; exists (x, y), (zip s t). Qed.
Lemma size_dv mid dx V : (1 < size V)%N -> (0 < size (dv_all (R := R) mid dx V))%N.
Proof. by case: V => [|x [|y l]]. Qed.
Lemma tf_symfd_l : tf_seq_bw_pass_symfd f L LT T blocks steps xs us = seqBackwardPass_symfd f L LT T blocks steps xs us.
Proof.
rewrite /tf_seq_bw_pass_symfd tf_fd_l.
- by apply: seq_fd_ext => dx dt V; exact: tf_symfd_stepE.
- move=> dx dt V s1 sV; rewrite /tf_symfd_step.
  have sz : (0 < size (zip xs V))%N by rewrite size_zip sV minnn; apply: leq_trans s1.
  by have [|z [l ->]] := empty_zip sz (size_dv (@dv_sym R) dx (V := V) _); rewrite ?sV.
by move=> us0 s1 dx dt V sV; rewrite tf_symfd_stepE; exact: symfd_total.
Qed.
Lemma tf_upwind_l : tf_seq_bw_pass_upwind f L LT T blocks steps xs us = seqBackwardPass_upwind f L LT T blocks steps xs us.
Proof.
rewrite /tf_seq_bw_pass_upwind tf_fd_l //.
- move=> dx dt V s1 sV; rewrite /upwind_step.
  have sz : (0 < size (zip xs V))%N by rewrite size_zip sV minnn; apply: leq_trans s1.
  have sz2 : (0 < size (zip (dv_all (@dv_fwd R) dx V) (dv_all (@dv_bwd R) dx V)))%N.
    by rewrite size_zip leq_min !size_dv ?sV.
  by have [z [l ->]] := empty_zip sz sz2.
move=> us0 s1 dx dt V sV; have [V' [-> sV' _]] := @upwind_step_l R f L xs us dx dt us0 s1 V sV.
by exists V'.
Qed.
End Api.

Section Up.
Variables (T : R) (blocks steps : nat) (xs us : seq R).
Hypotheses (b0 : (0 < blocks)%N) (s0 : (0 < steps)%N) (us0 : us <> [::]) (s1 : (1 < size xs)%N).
Let dx := nth 0 xs 1 - nth 0 xs 0.
Let dt := T / blocks%:R / steps%:R.
Hypothesis (dx0 : 0 < dx) (T0 : 0 <= T).
Lemma dt_ge0 : 0 <= dt. Proof. by rewrite !divr_ge0 ?ler0n. Qed.
Let g V := odflt [::] (upwind_step f L xs us dx dt V).
Lemma gI V : size V = size xs -> upwind_step f L xs us dx dt V = Some (g V) /\ size (g V) = size xs.
Proof. by move=> sV; rewrite /g; have [V' [-> sV' _]] := @upwind_step_l R f L xs us dx dt us0 s1 V sV. Qed.
Lemma g_least V i : size V = size xs -> (i < size xs)%N -> least_of [seq upwind_cost f L dx dt xs V i u | u <- us] (nth 0 (g V) i).
Proof. by move=> sV iS; rewrite /g; have [V' [-> _ H]] := @upwind_step_l R f L xs us dx dt us0 s1 V sV; apply: H => //; exact: dt_ge0. Qed.
Lemma upwindE LT : seqBackwardPass_upwind f L LT T blocks steps xs us =
  Some (rev [seq itV LT xs g (k * steps) | k <- iota 0 blocks.+1]).
Proof.
apply: (seq_fdE b0 s0 (grid_dxE s1) _ (I := fun V => size V = size xs)).
- by rewrite gt_eqF.
- exact: gI.
by rewrite size_map.
Qed.
Lemma size_it LT k : size (itV LT xs g k) = size xs.
Proof. by elim: k => [|k IH]; [rewrite size_map | rewrite /itV iterS; case: (gI IH)]. Qed.
Lemma nth_rev_it (W : nat -> seq R) k : (k <= blocks)%N ->
  nth [::] (rev [seq W i | i <- iota 0 blocks.+1]) k = W (blocks - k)%N.
Proof.
move=> kb; rewrite nth_rev size_map size_iota ?ltnS // subSS (nth_map 0%N) ?size_iota ?ltnS ?leq_subr //.
by rewrite nth_iota ?ltnS ?leq_subr.
Qed.

(** each returned value function comes from the next one by the upwind scheme *)
Lemma upwind_dp_l LT : steps = 1%N -> exists Vs, [/\ seqBackwardPass_upwind f L LT T blocks steps xs us = Some Vs,
  size Vs = blocks.+1, nth [::] Vs blocks = [seq LT x | x <- xs] &
  forall k i, (k < blocks)%N -> (i < size xs)%N ->
    least_of [seq upwind_cost f L dx dt xs (nth [::] Vs k.+1) i u | u <- us] (nth 0 (nth [::] Vs k) i)].
Proof.
move=> e1; eexists; split; first exact: upwindE.
- by rewrite size_rev size_map size_iota.
- by rewrite (nth_rev_it (fun k => itV LT xs g (k * steps))) // subnn.
move=> k i kb iS; rewrite !(nth_rev_it (fun k => itV LT xs g (k * steps))) //; last exact: ltnW.
have -> : (blocks - k)%N = (blocks - k.+1).+1 by lia.
by rewrite e1 !muln1 {2}/itV iterS; apply: g_least => //; exact: size_it.
Qed.

Hypothesis cfl : forall x u, x \in xs -> u \in us -> dt * `|f x u| <= dx.
Lemma g_mono V W : size V = size xs -> size W = size xs -> (forall j, nth 0 V j <= nth 0 W j) ->
  forall i, (i < size xs)%N ->
  (i = 0%N -> forall u, u \in us -> 0 <= f (nth 0 xs i) u) -> (i.+1 = size xs -> forall u, u \in us -> f (nth 0 xs i) u <= 0) ->
  nth 0 (g V) i <= nth 0 (g W) i.
Proof.
move=> sV sW VW i iS h0 hN; apply: least_mono (g_least sV iS) (g_least sW iS) _ => u uI.
apply: upwind_cost_mono => //; first exact: dt_ge0.
- by apply: cfl => //; exact: mem_nth.
- by move=> e; exact: h0.
by move=> e; exact: hN.
Qed.
Section Two.
Variables LT1 LT2 : R -> R.
Hypothesis le_LT : forall x, x \in xs -> LT1 x <= LT2 x.
Lemma le0 j : nth 0 [seq LT1 x | x <- xs] j <= nth 0 [seq LT2 x | x <- xs] j.
Proof.
case: (ltnP j (size xs)) => h; last by rewrite !nth_default ?size_map.
by rewrite !(nth_map 0) //; apply: le_LT; exact: mem_nth.
Qed.
Lemma upwind_mono_l : (forall u, u \in us -> 0 <= f (nth 0 xs 0) u) -> (forall u, u \in us -> f (last 0 xs) u <= 0) ->
  exists V1 V2, [/\ seqBackwardPass_upwind f L LT1 T blocks steps xs us = Some V1,
    seqBackwardPass_upwind f L LT2 T blocks steps xs us = Some V2 &
    forall k i, (k <= blocks)%N -> (i < size xs)%N -> nth 0 (nth [::] V1 k) i <= nth 0 (nth [::] V2 k) i].
Proof.
move=> in0 inN; exists (rev [seq itV LT1 xs g (k * steps) | k <- iota 0 blocks.+1]), (rev [seq itV LT2 xs g (k * steps) | k <- iota 0 blocks.+1]).
split; [exact: upwindE | exact: upwindE |].
move=> k i kb iS; rewrite (nth_rev_it (fun k => itV LT1 xs g (k * steps))) // (nth_rev_it (fun k => itV LT2 xs g (k * steps))) //.
elim: (_ * _)%N i iS => [|m IH] i iS; first exact: le0.
rewrite /itV !iterS; apply: g_mono => //; try exact: size_it.
- move=> j; case: (ltnP j (size xs)) => h; first exact: IH.
  by rewrite !nth_default // ?(size_it LT1) ?(size_it LT2).
- by move=> -> u; exact: in0.
move=> e u; rewrite (_ : nth 0 xs i = last 0 xs); first exact: inN.
by rewrite -nth_last -e.
Qed.
Lemma upwind_mono_inner_l : blocks = 1%N -> steps = 1%N ->
  exists V1 V2, [/\ seqBackwardPass_upwind f L LT1 T blocks steps xs us = Some V1,
    seqBackwardPass_upwind f L LT2 T blocks steps xs us = Some V2 &
    forall k i, (0 < i)%N -> (i.+1 < size xs)%N -> nth 0 (nth [::] V1 k) i <= nth 0 (nth [::] V2 k) i].
Proof.
move=> eb es; exists (rev [seq itV LT1 xs g (k * steps) | k <- iota 0 blocks.+1]), (rev [seq itV LT2 xs g (k * steps) | k <- iota 0 blocks.+1]).
split; [exact: upwindE | exact: upwindE |].
move=> k i i0 iS; case: (leqP k blocks) => kb; last by rewrite !(nth_default [::]) // size_rev size_map size_iota.
rewrite (nth_rev_it (fun k => itV LT1 xs g (k * steps))) // (nth_rev_it (fun k => itV LT2 xs g (k * steps))) //.
have : ((blocks - k) * steps <= 1)%N by rewrite eb es muln1 leq_subr.
case: (_ * _)%N => [|[|m]] // _; first exact: le0.
apply: g_mono; rewrite ?size_map //; try exact: le0.
- exact: ltnW.
- by move=> e; rewrite e in i0.
by move=> e; rewrite e ltnn in iS.
Qed.
End Two.
End Up.

Lemma symfd_dp_l LT T blocks xs us : (0 < blocks)%N -> us <> [::] -> (1 < size xs)%N -> nth 0 xs 0 <> nth 0 xs 1 -> 0 <= T ->
  let dx := nth 0 xs 1 - nth 0 xs 0 in let dt := T / blocks%:R in
  exists Vs, [/\ seqBackwardPass_symfd f L LT T blocks 1 xs us = Some Vs,
  size Vs = blocks.+1, nth [::] Vs blocks = [seq LT x | x <- xs] &
  forall k i, (k < blocks)%N -> (i < size xs)%N ->
    least_of [seq symmetric_cost f L dx dt xs (nth [::] Vs k.+1) i u | u <- us] (nth 0 (nth [::] Vs k) i)].
Proof.
move=> b0 us0 s1 ne T0 dx dt.
have dn : dx != 0 by rewrite subr_eq0; apply/eqP => e; exact: ne.
have d0 : 0 <= dt by rewrite divr_ge0 ?ler0n.
have hE : T / blocks%:R / 1%:R = dt by rewrite divr1.
pose g V := odflt [::] (symfd_step f L xs us dx dt V).
have gE V : size V = size xs -> symfd_step f L xs us dx (T / blocks%:R / 1%:R) V = Some (g V) /\ size (g V) = size xs.
  by move=> sV; rewrite hE /g; have [V' [-> sV' _]] := @symfd_step_l xs us dx dt V us0 s1 sV.
have gL V i : size V = size xs -> (i < size xs)%N -> least_of [seq symmetric_cost f L dx dt xs V i u | u <- us] (nth 0 (g V) i).
  by move=> sV iS; rewrite /g; have [V' [-> _ H]] := @symfd_step_l xs us dx dt V us0 s1 sV; exact: H.
have sI k : size (itV LT xs g k) = size xs by elim: k => [|k IH]; [rewrite size_map | rewrite /itV iterS; case: (gE _ IH)].
exists (rev [seq itV LT xs g (k * 1) | k <- iota 0 blocks.+1]); split.
- by apply: (seq_fdE b0 _ (grid_dxE s1) dn (I := fun V => size V = size xs)) => //; rewrite size_map.
- by rewrite size_rev size_map size_iota.
- by rewrite (nth_rev_it (fun k => itV LT xs g (k * 1))) // subnn.
move=> k i kb iS; rewrite !(nth_rev_it (fun k => itV LT xs g (k * 1))) //; last exact: ltnW.
have -> : (blocks - k)%N = (blocks - k.+1).+1 by lia.
by rewrite !muln1 {2}/itV iterS; apply: gL.
Qed.

(** a pass with several steps per block returns every steps-th value function of the pass with one step per block *)
Lemma any_sub_l (mk : seq R -> seq R -> R -> R -> seq R -> option (seq R)) (LT : R -> R) (T : R) blocks steps (xs us : seq R) : (us <> [::] -> (1 < size xs)%N -> forall dx dt V, size V = size xs -> exists2 V', mk xs us dx dt V = Some V' & size V' = size xs) ->
  (0 < blocks)%N -> (0 < steps)%N -> us <> [::] -> (1 < size xs)%N -> nth 0 xs 0 <> nth 0 xs 1 ->
  exists Vs Ws, [/\ seq_fd LT mk T blocks steps xs us = Some Vs, seq_fd LT mk T (blocks * steps) 1 xs us = Some Ws,
    size Vs = blocks.+1, size Ws = (blocks * steps).+1 & forall k, (k <= blocks)%N -> nth [::] Vs k = nth [::] Ws (k * steps)].
Proof.
move=> H b0 s0 us0 s1 ne; have {}H := H us0 s1.
have dn : nth 0 xs 1 - nth 0 xs 0 != 0 :> R by rewrite subr_eq0; apply/eqP => e; exact: ne.
pose h := T / blocks%:R / steps%:R.
have hE : T / (blocks * steps)%:R / 1%:R = h by rewrite divr1 natrM invfM mulrA.
pose g V := odflt [::] (mk xs us (nth 0 xs 1 - nth 0 xs 0) h V).
have gE V : size V = size xs -> mk xs us (nth 0 xs 1 - nth 0 xs 0) h V = Some (g V) /\ size (g V) = size xs.
  by move=> sV; rewrite /g; have [V' -> sV'] := H (nth 0 xs 1 - nth 0 xs 0) h V sV.
have bs : (0 < blocks * steps)%N by rewrite muln_gt0 b0.
exists (rev [seq itV LT xs g (k * steps) | k <- iota 0 blocks.+1]), (rev [seq itV LT xs g (k * 1) | k <- iota 0 (blocks * steps).+1]); split.
- by apply: (seq_fdE b0 s0 (grid_dxE s1) dn (I := fun V => size V = size xs)) => //; rewrite size_map.
- apply: (seq_fdE bs _ (grid_dxE s1) dn (I := fun V => size V = size xs)) => //; last by rewrite size_map.
  by move=> V sV; rewrite hE; exact: gE.
- by rewrite size_rev size_map size_iota.
- by rewrite size_rev size_map size_iota.
move=> k kb; rewrite (nth_rev_it (fun k => itV LT xs g (k * steps))) // (nth_rev_it (fun k => itV LT xs g (k * 1))).
  by rewrite muln1 mulnBl.
by rewrite leq_mul2r kb orbT.
Qed.
Lemma upwind_sub_l LT T blocks steps xs us : (0 < blocks)%N -> (0 < steps)%N -> us <> [::] -> (1 < size xs)%N ->
  nth 0 xs 0 <> nth 0 xs 1 ->
  exists Vs Ws, [/\ seqBackwardPass_upwind f L LT T blocks steps xs us = Some Vs,
    seqBackwardPass_upwind f L LT T (blocks * steps) 1 xs us = Some Ws,
    size Vs = blocks.+1, size Ws = (blocks * steps).+1 &
    forall k, (k <= blocks)%N -> nth [::] Vs k = nth [::] Ws (k * steps)].
Proof.
apply: any_sub_l => us0 s1 dx dt V sV; have [V' [E sV' _]] := @upwind_step_l R f L xs us dx dt us0 s1 V sV.
by exists V'.
Qed.
Lemma symfd_sub_l LT T blocks steps xs us : (0 < blocks)%N -> (0 < steps)%N -> us <> [::] -> (1 < size xs)%N ->
  nth 0 xs 0 <> nth 0 xs 1 ->
  exists Vs Ws, [/\ seqBackwardPass_symfd f L LT T blocks steps xs us = Some Vs,
    seqBackwardPass_symfd f L LT T (blocks * steps) 1 xs us = Some Ws,
    size Vs = blocks.+1, size Ws = (blocks * steps).+1 &
    forall k, (k <= blocks)%N -> nth [::] Vs k = nth [::] Ws (k * steps)].
Proof. by apply: any_sub_l => us0 s1 dx dt V sV; exact: symfd_total. Qed.

(** ** the analytic block value functions *)
Lemma at2_map2 (F : R -> R -> R) (xs : seq R) i j : (i < size xs)%N -> (j < size xs)%N ->
  at2 [seq [seq F x y | y <- xs] | x <- xs] i j = F (nth 0 xs i) (nth 0 xs j).
Proof. by move=> iS jS; rewrite /at2 (nth_map 0) // (nth_map 0). Qed.
Lemma reach (a x y : R) : 1 <= a ->
  reflect (exists2 c, 1 <= c <= a & y = c * x) (((0 < x) && (x <= y) && (y <= a * x)) || ((x <= 0) && (a * x <= y) && (y <= x))).
Proof.
move=> a1; apply: (iffP orP) => [[/andP [/andP [x0 xy] ya]|/andP [/andP [x0 ay] yx]]|[c /andP [c1 ca] ->]].
- exists (y / x); last by rewrite divfK // gt_eqF.
  by rewrite ler_pdivl_mulr // mul1r xy ler_pdivr_mulr.
- move: x0; rewrite le_eqVlt => /orP [/eqP e|x0].
    by exists 1; rewrite ?lexx ?a1 // mul1r; move: ay yx; rewrite e mulr0 => h1 h2; apply/le_anti/andP.
  exists (y / x); last by rewrite divfK // lt_eqF.
  by rewrite ler_ndivl_mulr // mul1r yx ler_ndivr_mulr.
case: (ltP 0 x) => x0; [left | right].
  by rewrite ler_pmul2r // ca -{1}[x]mul1r ler_pmul2r // c1.
by rewrite ler_wnmul2r //= -{2}[x]mul1r ler_wnmul2r.
Qed.
Lemma block_np_l (inf_value a : R) (xs : seq R) i j : 1 <= a -> (i < size xs)%N -> (j < size xs)%N ->
  ((exists2 c, 1 <= c <= a & nth 0 xs j = c * nth 0 xs i) -> at2 (block_V_np inf_value a xs) i j = 0) /\
  (~ (exists2 c, 1 <= c <= a & nth 0 xs j = c * nth 0 xs i) -> at2 (block_V_np inf_value a xs) i j = inf_value).
Proof.
move=> a1 iS jS; rewrite at2_map2 //; move: (nth 0 xs i) (nth 0 xs j) => x y.
pose c := ((0 < x) && (x <= y) && (y <= a * x)) || ((x <= 0) && (a * x <= y) && (y <= x)).
have H : reflect (exists2 c, 1 <= c <= a & y = c * x) c := reach x y a1.
split=> /H h; rewrite -[LHS]/((1 - c%:R) * inf_value); first by rewrite h subrr mul0r.
by rewrite (negPf h) subr0 mul1r.
Qed.
Lemma block_tf_l (inf_value a : R) (xs : seq R) i j : 1 <= a -> (i < size xs)%N -> (j < size xs)%N -> 0 <= nth 0 xs i ->
  at2 (block_V_tf inf_value a xs) i j = at2 (block_V_np inf_value a xs) i j.
Proof.
move=> a1 iS jS; rewrite !at2_map2 //; move: (nth 0 xs i) (nth 0 xs j) => x y x0.
pose c := ((0 < x) && (x <= y) && (y <= a * x)) || ((x <= 0) && (a * x <= y) && (y <= x)).
pose d := ((0 <= x) && (x <= y) && (y <= a * x)) || ((0 <= x) && (a * x <= y) && (y <= x)).
rewrite -[RHS]/((1 - c%:R) * inf_value) -[LHS]/(if d then 0 else inf_value).
suff -> : d = c by case: (c); rewrite ?subrr ?mul0r ?subr0 ?mul1r.
rewrite /d /c.
rewrite x0 /=; move: x0; rewrite le_eqVlt => /orP [/eqP <-|x0].
  by rewrite mulr0 ltxx lexx /= andbC orbb.
rewrite x0 (lt_geF x0) /= orbF.
have xa : x <= a * x by rewrite ler_pmull.
apply/orP/idP => [[]|->]; [by []| |by left].
move=> /andP [ay yx]; have e : y = x by apply/le_anti; rewrite yx (le_trans xa ay).
by rewrite e lexx.
Qed.
Lemma block_tf_neg (inf_value a : R) (xs : seq R) i : 1 <= a -> (i < size xs)%N -> nth 0 xs i < 0 ->
  at2 (block_V_np inf_value a xs) i i = 0 /\ at2 (block_V_tf inf_value a xs) i i = inf_value.
Proof.
move=> a1 iS x0; split; last by rewrite at2_map2 // (lt_geF x0).
by apply: (block_np_l inf_value a1 iS iS).1; exists 1; rewrite ?lexx // mul1r.
Qed.
End Main.
