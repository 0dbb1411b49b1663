(** C100: the tracker with constant data is optimal in the limit. *)
From Coq Require Import Reals.
From mathcomp Require Import all_ssreflect all_algebra.
From Verif Require Import RealF MxBase LqtModel ClqtModel ClqtSpec TrackSpec TrackOptSpec TrackOpt TrackEx TrackConvEx.
Import Order.TTheory GRing.Theory Num.Theory.
Set Implicit Arguments. Unset Strict Implicit. Unset Printing Implicit Defensive.
Local Open Scope ring_scope.

(** ** C100 *)
(** The backward pass does not raise once there are enough steps, and its value functions and gains differ by at most
    D / steps^4 from optimal ones. *)
Theorem C100_value (n m p pT : nat) (P : clqt Rf n m p pT) : constant P -> weights_ok P -> psd (kX P 0) -> psd (kXT P) -> 0 <= kT P ->
  exists (D : Rf) N0, forall steps, (N0 <= steps)%N -> (0 < steps)%N ->
  exists Ks ds Ss vs Ks' ds' Ss' vs' ss',
  [/\ clqt_seqBackwardPass P steps None None None None = Some (Ks, ds, Ss, vs),
      [/\ size Ks = steps, size ds = steps, size Ss = steps.+1 & size vs = steps.+1],
      optimal_policy P (fun j => j%:R * (kT P / steps%:R)) steps Ks' ds' Ss' vs' ss',
      forall i, (i <= steps)%N -> within (D / steps%:R ^+ 4) (nth 0 Ss i) (nth 0 Ss' i) /\ within (D / steps%:R ^+ 4) (nth 0 vs i) (nth 0 vs' i) &
      forall i, (i < steps)%N -> within (D / steps%:R ^+ 4) (nth 0 Ks i) (nth 0 Ks' i) /\ within (D / steps%:R ^+ 4) (nth 0 ds i) (nth 0 ds' i)].
Proof. exact: track_value. Qed.
Print Assumptions C100_value.
Example C100_value_ex : let P := ex_drift Rf in
  [/\ constant P /\ weights_ok P, psd (kX P 0), psd (kXT P), 0 <= kT P & kc P 0 != 0 /\ kr P 0 != 0].
Proof. exact: ex_drift_real. Qed.

(** The same for the parallel backward pass, for every number of blocks. *)
Theorem C100_parallel_value (n m p pT : nat) (P : clqt Rf n m p pT) : constant P -> weights_ok P -> psd (kX P 0) -> psd (kXT P) -> 0 <= kT P ->
  forall blocks, (0 < blocks)%N -> exists (D : Rf) N0, forall steps, (N0 <= steps)%N -> (0 < steps)%N ->
  let N := (blocks * steps)%N in exists Ks ds Ss vs Ks' ds' Ss' vs' ss',
  [/\ clqt_parBackwardPass P blocks steps None None false = Some (Ks, ds, Ss, vs),
      [/\ size Ks = N, size ds = N, size Ss = N.+1 & size vs = N.+1],
      optimal_policy P (fun j => j%:R * (kT P / N%:R)) N Ks' ds' Ss' vs' ss',
      forall i, (i <= N)%N -> within (D / steps%:R ^+ 4) (nth 0 Ss i) (nth 0 Ss' i) /\ within (D / steps%:R ^+ 4) (nth 0 vs i) (nth 0 vs' i) &
      forall i, (i < N)%N -> within (D / steps%:R ^+ 4) (nth 0 Ks i) (nth 0 Ks' i) /\ within (D / steps%:R ^+ 4) (nth 0 ds i) (nth 0 ds' i)].
Proof. exact: track_par_value. Qed.
Print Assumptions C100_parallel_value.
Example C100_parallel_value_ex : let P := ex_drift Rf in
  [/\ constant P /\ weights_ok P, psd (kX P 0), psd (kXT P), 0 <= kT P & kc P 0 != 0 /\ kr P 0 != 0].
Proof. exact: ex_drift_real. Qed.

(** There is an optimal trajectory x with control u from x0; with the gains of the backward pass the computed states and
    controls are within D / steps of x and u at the grid times, with or without hold. *)
Theorem C100_trajectory (n m p pT : nat) (P : clqt Rf n m p pT) : constant P -> weights_ok P -> psd (kX P 0) -> psd (kXT P) -> 0 <= kT P ->
  forall x0, exists x u, optimal_tracking P x u x0 /\
  forall zoh, exists (D : Rf) N0, forall steps, (N0 <= steps)%N -> (0 < steps)%N ->
    let t i := i%:R * (kT P / steps%:R) in exists Ks ds Ss vs us xs,
    [/\ clqt_seqBackwardPass P steps None None None None = Some (Ks, ds, Ss, vs),
        clqt_seqForwardPass P x0 Ks ds None None zoh = Some (us, xs), size us = steps /\ size xs = steps.+1,
        forall i, (i <= steps)%N -> within (D / steps%:R) (nth 0 xs i) (x (t i)) &
        forall i, (i < steps)%N -> within (D / steps%:R) (nth 0 us i) (u (t i))].
Proof. exact: track_trajectory. Qed.
Print Assumptions C100_trajectory.
Example C100_trajectory_ex : let P := ex_drift Rf in
  [/\ constant P /\ weights_ok P, psd (kX P 0), psd (kXT P), 0 <= kT P & kc P 0 != 0 /\ kr P 0 != 0].
Proof. exact: ex_drift_real. Qed.

(** The same with the gains of the parallel backward pass; without hold, also for the parallel forward pass. *)
Theorem C100_parallel_trajectory (n m p pT : nat) (P : clqt Rf n m p pT) : constant P -> weights_ok P -> psd (kX P 0) -> psd (kXT P) -> 0 <= kT P ->
  forall x0, exists x u, optimal_tracking P x u x0 /\
  forall blocks zoh, (0 < blocks)%N -> exists (D : Rf) N0, forall steps, (N0 <= steps)%N -> (0 < steps)%N ->
    let t i := i%:R * (kT P / (blocks * steps)%:R) in exists Ks ds Ss vs us xs,
    [/\ clqt_parBackwardPass P blocks steps None None false = Some (Ks, ds, Ss, vs),
        clqt_seqForwardPass P x0 Ks ds None None zoh = Some (us, xs) /\
          (zoh = false -> clqt_parForwardPass P x0 Ks ds blocks steps None None true false = Some (us, xs)),
        size us = (blocks * steps)%N /\ size xs = (blocks * steps).+1,
        forall i, (i <= blocks * steps)%N -> within (D / (blocks * steps)%:R) (nth 0 xs i) (x (t i)) &
        forall i, (i < blocks * steps)%N -> within (D / (blocks * steps)%:R) (nth 0 us i) (u (t i))].
Proof. exact: track_par_trajectory. Qed.
Print Assumptions C100_parallel_trajectory.
Example C100_parallel_trajectory_ex : let P := ex_drift Rf in
  [/\ constant P /\ weights_ok P, psd (kX P 0), psd (kXT P), 0 <= kT P & kc P 0 != 0 /\ kr P 0 != 0].
Proof. exact: ex_drift_real. Qed.

(** With the gains and value functions of either backward pass, the sequential forward-backward pass and its combination
    reach the optimal trajectory with order four. *)
Theorem C100_forward_backward (n m p pT : nat) (P : clqt Rf n m p pT) : constant P -> weights_ok P -> psd (kX P 0) -> psd (kXT P) -> 0 <= kT P ->
  forall x0, exists x u, optimal_tracking P x u x0 /\
  forall blocks (par : bool), (0 < blocks)%N -> exists (D : Rf) N0, forall steps, (N0 <= steps)%N -> (0 < steps)%N ->
    let t i := i%:R * (kT P / (blocks * steps)%:R) in exists Ks ds Ss vs l us xs,
    [/\ (if par then clqt_parBackwardPass P blocks steps None None false else clqt_seqBackwardPass P (blocks * steps) None None None None) = Some (Ks, ds, Ss, vs),
        clqt_seqFwdBwdPass P x0 (blocks * steps) None None None None None = Some l /\ combineForwardBackward Ks ds Ss vs l = Some (us, xs),
        size us = (blocks * steps)%N /\ size xs = (blocks * steps).+1,
        forall i, (i <= blocks * steps)%N -> within (D / (blocks * steps)%:R ^+ 4) (nth 0 xs i) (x (t i)) &
        forall i, (i < blocks * steps)%N -> within (D / (blocks * steps)%:R ^+ 4) (nth 0 us i) (u (t i))].
Proof. exact: track_fb_trajectory. Qed.
Print Assumptions C100_forward_backward.
Example C100_forward_backward_ex : let P := ex_drift Rf in
  [/\ constant P /\ weights_ok P, psd (kX P 0), psd (kXT P), 0 <= kT P & kc P 0 != 0 /\ kr P 0 != 0].
Proof. exact: ex_drift_real. Qed.

(** The same for the parallel forward-backward pass, for every number of blocks. *)
Theorem C100_parallel_forward_backward (n m p pT : nat) (P : clqt Rf n m p pT) : constant P -> weights_ok P -> psd (kX P 0) -> psd (kXT P) -> 0 <= kT P ->
  forall x0, exists x u, optimal_tracking P x u x0 /\
  forall blocks (par : bool), (0 < blocks)%N -> exists (D : Rf) N0, forall steps, (N0 <= steps)%N -> (0 < steps)%N ->
    let t i := i%:R * (kT P / (blocks * steps)%:R) in exists Ks ds Ss vs us xs,
    [/\ (if par then clqt_parBackwardPass P blocks steps None None false else clqt_seqBackwardPass P (blocks * steps) None None None None) = Some (Ks, ds, Ss, vs),
        clqt_parFwdBwdPass P x0 Ks ds Ss vs blocks steps None None true = Some (us, xs),
        size us = (blocks * steps)%N /\ size xs = (blocks * steps).+1,
        forall i, (i <= blocks * steps)%N -> within (D / steps%:R ^+ 4) (nth 0 xs i) (x (t i)) &
        forall i, (i < blocks * steps)%N -> within (D / steps%:R ^+ 4) (nth 0 us i) (u (t i))].
Proof. exact: track_parfb_trajectory. Qed.
Print Assumptions C100_parallel_forward_backward.
Example C100_parallel_forward_backward_ex : let P := ex_drift Rf in
  [/\ constant P /\ weights_ok P, psd (kX P 0), psd (kXT P), 0 <= kT P & kc P 0 != 0 /\ kr P 0 != 0].
Proof. exact: ex_drift_real. Qed.
