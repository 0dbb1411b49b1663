(** C97: convergence of the regulator's parallel backward pass and of the trajectories computed with it. *)
From Coq Require Import Reals.
From mathcomp Require Import all_ssreflect all_algebra.
From Verif Require Import RealF MxBase LqtModel ClqtSpec ClqrModel ClqrSpec ClqrEx RealExpSpec ClqrOptSpec ClqrOptEx ParConvC ParTraj.
Import Order.TTheory GRing.Theory Num.Theory.
Set Implicit Arguments. Unset Strict Implicit. Unset Printing Implicit Defensive.
Local Open Scope ring_scope.

(** ** C97 *)
(** For every number of blocks the parallel pass does not raise once the blocks have enough steps, and its value matrices and
    gains differ by at most D / steps^4 from those of the sequential pass with method 'exact', which C92 shows to be optimal. *)
Theorem C97_parallel_backward (n m : nat) (q : clqr Rf n m) : symm (qU q) -> pd (qU q) -> symm (qX q) -> psd (qX q) -> symm (qXT q) -> psd (qXT q) ->
  forall blocks, (0 < blocks)%N -> 0 <= qT q -> exists (D : Rf) N0, forall steps, (N0 <= steps)%N -> (0 < steps)%N ->
  exists Ks Ss Ks' Ss',
  [/\ clqr_parBackwardPass expmR q blocks steps Rk4 Rk4 = Some (Ks, Ss) /\ size Ks = (blocks * steps)%N /\ size Ss = (blocks * steps).+1,
    clqr_seqBackwardPass expmR q (blocks * steps) None None Exact = Some (Ks', Ss'),
    forall i, (i <= blocks * steps)%N -> within (D / steps%:R ^+ 4) (nth 0 Ss i) (nth 0 Ss' i) &
    forall i, (i < blocks * steps)%N -> within (D / steps%:R ^+ 4) (nth 0 Ks i) (nth 0 Ks' i)].
Proof. exact: par_rk4_order4. Qed.
Print Assumptions C97_parallel_backward.
Example C97_parallel_backward_ex : let q := ex_reg (1 : Rf) 0 in
  [/\ symm (qU q) /\ pd (qU q), symm (qX q) /\ psd (qX q), symm (qXT q) /\ psd (qXT q) & 0 <= qT q].
Proof. exact: ex_opt_hyp. Qed.

(** The trajectories computed from x0 with the gains of the parallel pass, by the sequential forward pass with either method
    and with or without hold, or by the parallel forward pass, converge to an optimal trajectory. *)
Theorem C97_trajectory (n m : nat) (q : clqr Rf n m) : symm (qU q) -> pd (qU q) -> symm (qX q) -> psd (qX q) -> symm (qXT q) -> psd (qXT q) ->
  0 <= qT q -> forall x0, exists x u c, [/\ driven q x u c [::] 0, x 0 = x0,
    forall x' u' c' ts, driven q x' u' c' ts 0 -> x' 0 = x0 -> cost_to_go q x c 0 <= cost_to_go q x' c' 0 &
    forall blocks fm zoh, (0 < blocks)%N -> fm <> Unknown -> exists (D : Rf) N0, forall steps, (N0 <= steps)%N -> (0 < steps)%N ->
      let t i := i%:R * (qT q / (blocks * steps)%:R) in exists Ks Ss us xs,
      [/\ clqr_parBackwardPass expmR q blocks steps Rk4 Rk4 = Some (Ks, Ss),
          clqr_seqForwardPass expmR q x0 Ks None fm zoh = Some (us, xs) /\
            (fm = Rk4 -> zoh = false -> clqr_parForwardPass expmR q x0 Ks blocks steps Rk4 Rk4 false = Some (us, xs)),
          size us = (blocks * steps)%N /\ size xs = (blocks * steps).+1,
          forall i, (i <= blocks * steps)%N -> within (D / (blocks * steps)%:R) (nth 0 xs i) (x (t i)) &
          forall i, (i < blocks * steps)%N -> within (D / (blocks * steps)%:R) (nth 0 us i) (u (t i))]].
Proof. exact: par_trajectory. Qed.
Print Assumptions C97_trajectory.
Example C97_trajectory_ex : let q := ex_reg (1 : Rf) 0 in
  [/\ symm (qU q) /\ pd (qU q), symm (qX q) /\ psd (qX q), symm (qXT q) /\ psd (qXT q) & 0 <= qT q].
Proof. exact: ex_opt_hyp. Qed.
