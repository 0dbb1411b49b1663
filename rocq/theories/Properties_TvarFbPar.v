(** C105: with time-varying data the parallel forward-backward pass converges, for every number of blocks,
    and agrees with the sequential passes. *)
From Coq Require Import Reals.
From mathcomp Require Import all_ssreflect all_algebra.
From Verif Require Import RealF MxBase LqtModel ClqtModel ClqtSpec RealExpSpec TrackOptSpec TvarSpec TvarEx TvarExistSpec TvarExistEx TvarParI TvarParJ.
Import Order.TTheory GRing.Theory Num.Theory.
Set Implicit Arguments. Unset Strict Implicit. Unset Printing Implicit Defensive.
Local Open Scope ring_scope.

(** ** C105 *)
(** From every x0 there is an optimal trajectory such that, for either direction in which the blocks of either pass are
    integrated and every number of blocks, the parallel backward pass followed by the parallel forward-backward pass with
    sufficiently many steps per block does not fail and gives its states and controls at the grid times up to D / steps. *)
Theorem C105_optimal (n m p pT : nat) (P : clqt Rf n m p pT) : 0 <= kT P -> convex_weights P -> lipschitz_data P ->
  forall x0, exists x u, optimal_tracking P x u x0 /\
  forall forward forward' blocks, (0 < blocks)%N -> exists (D : Rf) N0, forall steps, (N0 <= steps)%N -> (0 < steps)%N ->
  let t i := i%:R * (kT P / (blocks * steps)%:R) in exists Ks ds Ss vs us xs,
  [/\ clqt_parBackwardPass P blocks steps None None forward = Some (Ks, ds, Ss, vs),
      clqt_parFwdBwdPass P x0 Ks ds Ss vs blocks steps None None forward' = Some (us, xs),
      size us = (blocks * steps)%N /\ size xs = (blocks * steps).+1,
      forall i, (i <= blocks * steps)%N -> within (D / steps%:R) (nth 0 xs i) (x (t i)) &
      forall i, (i < blocks * steps)%N -> within (D / steps%:R) (nth 0 us i) (u (t i))].
Proof. exact: par_fb_optimal. Qed.
Print Assumptions C105_optimal.
Example C105_optimal_ex : [/\ 0 <= kT ex_swing, 0 < kT ex_swing, convex_weights ex_swing & lipschitz_data ex_swing].
Proof. exact: swing_all. Qed.

(** The parallel backward pass and the parallel forward-backward pass agree with the sequential passes on the same grid (with
    or without hold), in the gains, the value functions, the states and the controls, up to D / steps. *)
Theorem C105_agreement (n m p pT : nat) (P : clqt Rf n m p pT) : 0 < kT P -> convex_weights P -> lipschitz_data P ->
  forall x0 forward forward' blocks zoh, (0 < blocks)%N ->
  exists (D : Rf) N0, forall steps, (N0 <= steps)%N -> (0 < steps)%N -> exists Ks ds Ss vs us xs Ks' ds' Ss' vs' us' xs',
  [/\ clqt_parBackwardPass P blocks steps None None forward = Some (Ks, ds, Ss, vs) /\
        clqt_parFwdBwdPass P x0 Ks ds Ss vs blocks steps None None forward' = Some (us, xs),
      clqt_seqBackwardPass P (blocks * steps) None None None None = Some (Ks', ds', Ss', vs') /\
        clqt_seqForwardPass P x0 Ks' ds' None None zoh = Some (us', xs'),
      [/\ size Ks = size Ks', size ds = size ds', size Ss = size Ss', size vs = size vs' & size us = size us' /\ size xs = size xs'],
      forall i, (i <= blocks * steps)%N -> [/\ within (D / steps%:R) (nth 0 Ss i) (nth 0 Ss' i), within (D / steps%:R) (nth 0 vs i) (nth 0 vs' i) &
        within (D / steps%:R) (nth 0 xs i) (nth 0 xs' i)] &
      forall i, (i < blocks * steps)%N -> [/\ within (D / steps%:R) (nth 0 Ks i) (nth 0 Ks' i), within (D / steps%:R) (nth 0 ds i) (nth 0 ds' i) &
        within (D / steps%:R) (nth 0 us i) (nth 0 us' i)]].
Proof. exact: par_seq_agree. Qed.
Print Assumptions C105_agreement.
Example C105_agreement_ex : [/\ 0 <= kT ex_swing, 0 < kT ex_swing, convex_weights ex_swing & lipschitz_data ex_swing].
Proof. exact: swing_all. Qed.
