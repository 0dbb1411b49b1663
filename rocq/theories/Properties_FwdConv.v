(** C95: the computed trajectory of the regulator converges to the optimal trajectory of the continuous-time problem. *)
From Coq Require Import Reals.
From mathcomp Require Import all_ssreflect all_algebra.
From Verif Require Import RealF MxBase LqtModel ClqtSpec ClqrModel ClqrSpec ClqrEx RealExpSpec ClqrOptSpec ClqrOptEx FwdConv.
Import Order.TTheory GRing.Theory Num.Theory.
Set Implicit Arguments. Unset Strict Implicit. Unset Printing Implicit Defensive.
Local Open Scope ring_scope.

(** ** C95 *)
(** There is an optimal trajectory x with control u from x0.  For every choice of the two methods and of the hold flag, the
    computed states and controls are within D / steps of x and u at the grid times, D independent of steps. *)
Theorem C95_trajectory (n m : nat) (q : clqr Rf n m) : symm (qU q) -> pd (qU q) -> symm (qX q) -> psd (qX q) -> symm (qXT q) -> psd (qXT q) ->
  0 <= qT q -> forall x0, exists x u c, [/\ driven q x u c [::] 0, x 0 = x0,
    forall x' u' c' ts, driven q x' u' c' ts 0 -> x' 0 = x0 -> cost_to_go q x c 0 <= cost_to_go q x' c' 0 &
    forall bm fm zoh, bm <> Unknown -> fm <> Unknown -> exists (D : Rf) N0, forall steps, (N0 <= steps)%N -> (0 < steps)%N ->
      let t i := i%:R * (qT q / steps%:R) in exists Ks Ss us xs,
      [/\ clqr_seqBackwardPass expmR q steps None None bm = Some (Ks, Ss),
          clqr_seqForwardPass expmR q x0 Ks None fm zoh = Some (us, xs), size us = steps /\ size xs = steps.+1,
          forall i, (i <= steps)%N -> within (D / steps%:R) (nth 0 xs i) (x (t i)) &
          forall i, (i < steps)%N -> within (D / steps%:R) (nth 0 us i) (u (t i))]].
Proof. exact: trajectory_converges. Qed.
Print Assumptions C95_trajectory.
Example C95_trajectory_ex : let q := ex_reg (1 : Rf) 0 in
  [/\ symm (qU q) /\ pd (qU q), symm (qX q) /\ psd (qX q), symm (qXT q) /\ psd (qXT q) & 0 <= qT q].
Proof. exact: ex_opt_hyp. Qed.
