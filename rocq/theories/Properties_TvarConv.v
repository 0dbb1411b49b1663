(** C102: the tracker's passes converge for data that vary in time. *)
From Coq Require Import Reals.
From mathcomp Require Import all_ssreflect all_algebra.
From Verif Require Import RealF MxBase LqtModel ClqtModel ClqtSpec RealExpSpec TrackOptSpec TvarSpec TvarBwd TvarFb TvarEx TvarConvEx.
Import Order.TTheory GRing.Theory Num.Theory.
Set Implicit Arguments. Unset Strict Implicit. Unset Printing Implicit Defensive.
Local Open Scope ring_scope.

(** ** C102 *)
(** The data are Lipschitz in time and S and v solve the backward equations on [0, T].  The backward pass does not raise
    once there are enough steps, and its value functions and gains are within D / steps of S and v, and of the gains that S
    and v give, at the grid times. *)
Theorem C102_value (n m p pT : nat) (P : clqt Rf n m p pT) : 0 <= kT P -> tracking_weights P 0 -> lipschitz_data P ->
  forall S v, backward_solution P S v [::] 0 ->
  exists (D : Rf) N0, forall steps, (N0 <= steps)%N -> (0 < steps)%N ->
  let t i := i%:R * (kT P / steps%:R) in exists Ks ds Ss vs,
  [/\ clqt_seqBackwardPass P steps None None None None = Some (Ks, ds, Ss, vs),
      [/\ size Ks = steps, size ds = steps, size Ss = steps.+1 & size vs = steps.+1],
      forall i, (i <= steps)%N -> within (D / steps%:R) (nth 0 Ss i) (S (t i)) /\ within (D / steps%:R) (nth 0 vs i) (v (t i)) &
      forall i, (i < steps)%N -> exists K d, [/\ bwd_gain P 0 (t i) 0 (S (t i), v (t i)) = Some (K, d),
        within (D / steps%:R) (nth 0 Ks i) K & within (D / steps%:R) (nth 0 ds i) d]].
Proof. exact: back_converges. Qed.
Print Assumptions C102_value.
Example C102_value_ex : [/\ 0 <= kT ex_ramp, tracking_weights ex_ramp 0, lipschitz_data ex_ramp &
  backward_solution ex_ramp (fun _ => 1%:M) (fun t => t%:M) [::] 0].
Proof. exact: ramp_all. Qed.

(** A trajectory that uses the feedback of S and v is optimal.  The sequential forward pass with the gains of the backward
    pass, with or without hold, and without hold also the parallel forward pass, reach its states and controls up to
    D / steps. *)
Theorem C102_trajectory (n m p pT : nat) (P : clqt Rf n m p pT) : 0 < kT P -> tracking_weights P 0 -> lipschitz_data P ->
  forall S v, backward_solution P S v [::] 0 ->
  forall x u c, steered P x u c [::] 0 -> feedback P S v x u [::] 0 ->
  optimal_tracking P x u (x 0) /\
  forall zoh, exists (D : Rf) N0, forall steps, (N0 <= steps)%N -> (0 < steps)%N ->
  let t i := i%:R * (kT P / steps%:R) in exists Ks ds Ss vs us xs,
  [/\ clqt_seqBackwardPass P steps None None None None = Some (Ks, ds, Ss, vs),
      clqt_seqForwardPass P (x 0) Ks ds None None zoh = Some (us, xs) /\
        (zoh = false -> forall blocks steps', (blocks * steps')%N = steps -> clqt_parForwardPass P (x 0) Ks ds blocks steps' None None true false = Some (us, xs)),
      size us = steps /\ size xs = steps.+1,
      forall i, (i <= steps)%N -> within (D / steps%:R) (nth 0 xs i) (x (t i)) &
      forall i, (0 < i < steps)%N -> within (D / steps%:R) (nth 0 us i) (u (t i))].
Proof. exact: fwd_optimal. Qed.
Print Assumptions C102_trajectory.
Example C102_trajectory_ex : [/\ 0 < kT ex_ramp, tracking_weights ex_ramp 0, lipschitz_data ex_ramp,
  backward_solution ex_ramp (fun _ => 1%:M) (fun t => t%:M) [::] 0 &
  steered ex_ramp (fun t => (t - 1)%:M) (fun _ => 1%:M) (fun t => t / 2%:R) [::] 0 /\
  feedback ex_ramp (fun _ => 1%:M) (fun t => t%:M) (fun t => (t - 1)%:M) (fun _ => 1%:M) [::] 0].
Proof. exact: ramp_traj. Qed.

(** Let b and C solve the forward equations as well.  The sequential forward-backward pass and its combination with the
    backward pass reach the states (I + C S)^-1 (b + C v), which C101_combination shows to be optimal, and their controls. *)
Theorem C102_forward_backward (n m p pT : nat) (P : clqt Rf n m p pT) : 0 <= kT P -> tracking_weights P 0 -> lipschitz_data P ->
  forall S v b C x0, backward_solution P S v [::] 0 -> forward_solution P b C x0 [::] 0 ->
  (forall t : Rf, 0 <= t <= kT P -> 1%:M + C t *m S t \in unitmx) ->
  let x (t : R) := invmx (1%:M + C t *m S t) *m (b t + C t *m v t) in
  exists (D : Rf) N0, forall steps, (N0 <= steps)%N -> (0 < steps)%N ->
  let t i := i%:R * (kT P / steps%:R) in exists Ks ds Ss vs l us xs,
  [/\ clqt_seqBackwardPass P steps None None None None = Some (Ks, ds, Ss, vs),
      clqt_seqFwdBwdPass P x0 steps None None None None None = Some l /\ combineForwardBackward Ks ds Ss vs l = Some (us, xs),
      size us = steps /\ size xs = steps.+1,
      forall i, (i <= steps)%N -> within (D / steps%:R) (nth 0 xs i) (x (t i)) &
      forall i, (i < steps)%N -> exists K d, bwd_gain P 0 (t i) 0 (S (t i), v (t i)) = Some (K, d) /\
        within (D / steps%:R) (nth 0 us i) (- K *m x (t i) + d)].
Proof. exact: fb_converges. Qed.
Print Assumptions C102_forward_backward.
Example C102_forward_backward_ex : [/\ 0 <= kT ex_push, tracking_weights ex_push 0, lipschitz_data ex_push,
  backward_solution ex_push pushS pushv [::] 0 &
  forward_solution ex_push pushb pushC 1%:M [::] 0 /\ forall t : Rf, 0 <= t <= kT ex_push -> 1%:M + pushC t *m pushS t \in unitmx].
Proof. exact: push_all. Qed.
