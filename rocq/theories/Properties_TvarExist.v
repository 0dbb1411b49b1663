(** C103: with time-varying data an optimal control exists, and the tracker's passes converge to it. *)
From Coq Require Import Reals.
From mathcomp Require Import all_ssreflect all_algebra.
From Verif Require Import RealF MxBase LqtModel ClqtModel ClqtSpec RealExpSpec TrackOptSpec TvarSpec TvarEx TvarConvEx TvarExistSpec TvarExist TvarCost TvarExistEx.
Import Order.TTheory GRing.Theory Num.Theory.
Set Implicit Arguments. Unset Strict Implicit. Unset Printing Implicit Defensive.
Local Open Scope ring_scope.

(** ** C103 *)
(** The backward equations, and from every x0 the forward equations, have solutions on the whole of [0, T].  S and C are
    positive semidefinite, and the matrix that the combination inverts is invertible. *)
Theorem C103_solutions (n m p pT : nat) (P : clqt Rf n m p pT) : 0 <= kT P -> convex_weights P -> lipschitz_data P ->
  exists S v, [/\ backward_solution P S v [::] 0, forall t : Rf, 0 <= t <= kT P -> psd (S t) &
    forall x0, exists b C, forward_solution P b C x0 [::] 0 /\
      forall t : Rf, 0 <= t <= kT P -> psd (C t) /\ 1%:M + C t *m S t \in unitmx].
Proof. exact: solutions_exist. Qed.
Print Assumptions C103_solutions.
Example C103_solutions_ex : [/\ 0 <= kT ex_swing, 0 < kT ex_swing, convex_weights ex_swing & lipschitz_data ex_swing].
Proof. exact: swing_all. Qed.

(** The backward equations have at most one solution. *)
Theorem C103_unique (n m p pT : nat) (P : clqt Rf n m p pT) : 0 <= kT P -> tracking_weights P 0 -> lipschitz_data P ->
  forall S v S' v', backward_solution P S v [::] 0 -> backward_solution P S' v' [::] 0 ->
  forall t : Rf, 0 <= t <= kT P -> S t = S' t /\ v t = v' t.
Proof. exact: back_unique. Qed.
Print Assumptions C103_unique.
Example C103_unique_ex : [/\ 0 <= kT ex_push, tracking_weights ex_push 0, lipschitz_data ex_push, backward_solution ex_push pushS pushv [::] 0 &
  forward_solution ex_push pushb pushC 1%:M [::] 0 /\ forall t : Rf, 0 <= t <= kT ex_push -> 1%:M + pushC t *m pushS t \in unitmx].
Proof. exact: push_all. Qed.

(** Let S and v solve the backward equations.  With a suitable constant s(t), x' S x / 2 - v' x + s is the optimal cost from
    the state x at the time t.  No trajectory costs less, and a trajectory with the code's feedback costs exactly that. *)
Theorem C103_cost (n m p pT : nat) (P : clqt Rf n m p pT) : 0 <= kT P -> tracking_weights P 0 -> lipschitz_data P ->
  forall S v, backward_solution P S v [::] 0 ->
  exists s : R -> Rf, forall t0 : Rf, 0 <= t0 <= kT P -> let V := value (S t0) (v t0) (s t0) in
  (forall x u c ts, steered P x u c ts t0 -> V (x t0) <= tracking_cost P x c t0) /\
  (forall x0, exists x u c, [/\ steered P x u c [::] t0, x t0 = x0, feedback P S v x u [::] t0 & tracking_cost P x c t0 = V x0]).
Proof. exact: cost_ex. Qed.
Print Assumptions C103_cost.
Example C103_cost_ex : [/\ 0 <= kT ex_ramp, tracking_weights ex_ramp 0, lipschitz_data ex_ramp &
  backward_solution ex_ramp (fun _ => 1%:M) (fun t => t%:M) [::] 0].
Proof. exact: ramp_all. Qed.

(** From every x0 there is an optimal trajectory.  The backward pass followed by the sequential forward pass (with or
    without hold), by the parallel forward pass (without hold), or by the forward-backward pass and the combination, reaches
    its states and controls at the grid times up to D / steps. *)
Theorem C103_optimal (n m p pT : nat) (P : clqt Rf n m p pT) : 0 < kT P -> convex_weights P -> lipschitz_data P -> forall x0, exists x u,
  [/\ optimal_tracking P x u x0,
    forall zoh, exists (D : Rf) N0, forall steps, (N0 <= steps)%N -> (0 < steps)%N ->
      let t i := i%:R * (kT P / steps%:R) in exists Ks ds Ss vs us xs,
      [/\ clqt_seqBackwardPass P steps None None None None = Some (Ks, ds, Ss, vs),
          clqt_seqForwardPass P x0 Ks ds None None zoh = Some (us, xs) /\
            (zoh = false -> forall blocks steps', (blocks * steps')%N = steps -> clqt_parForwardPass P x0 Ks ds blocks steps' None None true false = Some (us, xs)),
          size us = steps /\ size xs = steps.+1,
          forall i, (i <= steps)%N -> within (D / steps%:R) (nth 0 xs i) (x (t i)) &
          forall i, (i < steps)%N -> within (D / steps%:R) (nth 0 us i) (u (t i))] &
    exists (D : Rf) N0, forall steps, (N0 <= steps)%N -> (0 < steps)%N ->
      let t i := i%:R * (kT P / steps%:R) in exists Ks ds Ss vs l us xs,
      [/\ clqt_seqBackwardPass P steps None None None None = Some (Ks, ds, Ss, vs),
          clqt_seqFwdBwdPass P x0 steps None None None None None = Some l /\ combineForwardBackward Ks ds Ss vs l = Some (us, xs),
          size us = steps /\ size xs = steps.+1,
          forall i, (i <= steps)%N -> within (D / steps%:R) (nth 0 xs i) (x (t i)) &
          forall i, (i < steps)%N -> within (D / steps%:R) (nth 0 us i) (u (t i))]].
Proof. exact: optimal_exists. Qed.
Print Assumptions C103_optimal.
Example C103_optimal_ex : [/\ 0 <= kT ex_swing, 0 < kT ex_swing, convex_weights ex_swing & lipschitz_data ex_swing].
Proof. exact: swing_all. Qed.
