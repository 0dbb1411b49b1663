(** C104: with time-varying data the parallel passes converge, for every number of blocks. *)
From Coq Require Import Reals.
From mathcomp Require Import all_ssreflect all_algebra.
From Verif Require Import RealF MxBase LqtModel ClqtModel ClqtSpec RealExpSpec TrackOptSpec TvarSpec TvarEx TvarConvEx TvarExistSpec TvarExistEx TvarParF TvarParEx.
Import Order.TTheory GRing.Theory Num.Theory.
Set Implicit Arguments. Unset Strict Implicit. Unset Printing Implicit Defensive.
Local Open Scope ring_scope.

(** ** C104 *)
(** Let S and v solve the backward equations.  For either direction in which
    the blocks are integrated and every number of blocks, the parallel backward pass with sufficiently many
    steps per block does not fail.  Its value functions are those of S and v at the grid times, and its gains are those that
    the code computes from S and v, up to D / steps. *)
Theorem C104_value (n m p pT : nat) (P : clqt Rf n m p pT) : 0 <= kT P -> convex_weights P -> lipschitz_data P ->
  forall S v, backward_solution P S v [::] 0 ->
  forall forward blocks, (0 < blocks)%N -> exists (D : Rf) N0, forall steps, (N0 <= steps)%N -> (0 < steps)%N ->
  let t i := i%:R * (kT P / (blocks * steps)%:R) in exists Ks ds Ss vs,
  [/\ clqt_parBackwardPass P blocks steps None None forward = Some (Ks, ds, Ss, vs),
      [/\ size Ks = (blocks * steps)%N, size ds = (blocks * steps)%N, size Ss = (blocks * steps).+1 & size vs = (blocks * steps).+1],
      forall i, (i <= blocks * steps)%N -> within (D / steps%:R) (nth 0 Ss i) (S (t i)) /\ within (D / steps%:R) (nth 0 vs i) (v (t i)) &
      forall i, (i < blocks * steps)%N -> exists K d, [/\ bwd_gain P 0 (t i) 0 (S (t i), v (t i)) = Some (K, d),
        within (D / steps%:R) (nth 0 Ks i) K & within (D / steps%:R) (nth 0 ds i) d]].
Proof. exact: par_value. Qed.
Print Assumptions C104_value.
Example C104_value_ex : [/\ 0 <= kT ex_ramp, convex_weights ex_ramp, lipschitz_data ex_ramp &
  backward_solution ex_ramp (fun _ => 1%:M) (fun t => t%:M) [::] 0].
Proof. exact: ramp_par. Qed.

(** From every x0 there is an optimal trajectory such that, for either direction in which the blocks are integrated
    and every number of blocks, the parallel backward pass followed by
    the sequential forward pass (with or without hold) or by the parallel forward pass (without hold) reaches its states and
    controls at the grid times up to D / steps. *)
Theorem C104_optimal (n m p pT : nat) (P : clqt Rf n m p pT) : 0 < kT P -> convex_weights P -> lipschitz_data P ->
  forall x0, exists x u, optimal_tracking P x u x0 /\
  forall forward blocks, (0 < blocks)%N -> forall zoh, exists (D : Rf) N0, forall steps, (N0 <= steps)%N -> (0 < steps)%N ->
  let t i := i%:R * (kT P / (blocks * steps)%:R) in exists Ks ds Ss vs us xs,
  [/\ clqt_parBackwardPass P blocks steps None None forward = Some (Ks, ds, Ss, vs),
      clqt_seqForwardPass P x0 Ks ds None None zoh = Some (us, xs) /\
        (zoh = false -> clqt_parForwardPass P x0 Ks ds blocks steps None None true false = Some (us, xs)),
      size us = (blocks * steps)%N /\ size xs = (blocks * steps).+1,
      forall i, (i <= blocks * steps)%N -> within (D / steps%:R) (nth 0 xs i) (x (t i)) &
      forall i, (i < blocks * steps)%N -> within (D / steps%:R) (nth 0 us i) (u (t i))].
Proof. exact: par_optimal. Qed.
Print Assumptions C104_optimal.
Example C104_optimal_ex : [/\ 0 <= kT ex_swing, 0 < kT ex_swing, convex_weights ex_swing & lipschitz_data ex_swing].
Proof. exact: swing_all. Qed.
