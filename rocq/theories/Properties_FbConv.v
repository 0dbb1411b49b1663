(** C98: the forward-backward pass of the regulator converges with order four to the optimal trajectory. *)
From Coq Require Import Reals.
From mathcomp Require Import all_ssreflect all_algebra.
From Verif Require Import RealF MxBase LqtModel ClqtSpec ClqrModel ClqrSpec ClqrEx RealExpSpec ClqrOptSpec ClqrOptEx FbTraj.
Import Order.TTheory GRing.Theory Num.Theory.
Set Implicit Arguments. Unset Strict Implicit. Unset Printing Implicit Defensive.
Local Open Scope ring_scope.

(** ** C98 *)
(** There is an optimal trajectory x with control u from x0.  With gains and value matrices from the sequential backward pass
    (either method) or from the parallel one, the sequential forward-backward pass and its combination do not raise once there
    are enough steps, and give states and controls within D / (number of steps)^4 of x and u at the grid times. *)
Theorem C98_sequential (n m : nat) (q : clqr Rf n m) : symm (qU q) -> pd (qU q) -> symm (qX q) -> psd (qX q) -> symm (qXT q) -> psd (qXT q) ->
  0 <= qT q -> forall x0, exists x u c, [/\ driven q x u c [::] 0, x 0 = x0,
    forall x' u' c' ts, driven q x' u' c' ts 0 -> x' 0 = x0 -> cost_to_go q x c 0 <= cost_to_go q x' c' 0 &
    forall blocks bk, (0 < blocks)%N -> bk <> Some Unknown -> exists (D : Rf) N0, forall steps, (N0 <= steps)%N -> (0 < steps)%N ->
      let t i := i%:R * (qT q / (blocks * steps)%:R) in exists Ks Ss l us xs,
      [/\ (if bk is Some bm then clqr_seqBackwardPass expmR q (blocks * steps) None None bm else clqr_parBackwardPass expmR q blocks steps Rk4 Rk4) = Some (Ks, Ss),
          clqr_seqFwdBwdPass q x0 (blocks * steps) None None None None Rk4 = Some l /\ qcombineForwardBackward Ks Ss l = Some (us, xs),
          size us = (blocks * steps)%N /\ size xs = (blocks * steps).+1,
          forall i, (i <= blocks * steps)%N -> within (D / (blocks * steps)%:R ^+ 4) (nth 0 xs i) (x (t i)) &
          forall i, (i < blocks * steps)%N -> within (D / (blocks * steps)%:R ^+ 4) (nth 0 us i) (u (t i))]].
Proof. exact: seq_fb_trajectory. Qed.
Print Assumptions C98_sequential.
Example C98_sequential_ex : let q := ex_reg (1 : Rf) 0 in
  [/\ symm (qU q) /\ pd (qU q), symm (qX q) /\ psd (qX q), symm (qXT q) /\ psd (qXT q) & 0 <= qT q].
Proof. exact: ex_opt_hyp. Qed.

(** The same for the parallel forward-backward pass, for every number of blocks. *)
Theorem C98_parallel (n m : nat) (q : clqr Rf n m) : symm (qU q) -> pd (qU q) -> symm (qX q) -> psd (qX q) -> symm (qXT q) -> psd (qXT q) ->
  0 <= qT q -> forall x0, exists x u c, [/\ driven q x u c [::] 0, x 0 = x0,
    forall x' u' c' ts, driven q x' u' c' ts 0 -> x' 0 = x0 -> cost_to_go q x c 0 <= cost_to_go q x' c' 0 &
    forall blocks bk, (0 < blocks)%N -> bk <> Some Unknown -> exists (D : Rf) N0, forall steps, (N0 <= steps)%N -> (0 < steps)%N ->
      let t i := i%:R * (qT q / (blocks * steps)%:R) in exists Ks Ss us xs,
      [/\ (if bk is Some bm then clqr_seqBackwardPass expmR q (blocks * steps) None None bm else clqr_parBackwardPass expmR q blocks steps Rk4 Rk4) = Some (Ks, Ss),
          clqr_parFwdBwdPass q x0 Ks Ss blocks steps Rk4 Rk4 = Some (us, xs),
          size us = (blocks * steps)%N /\ size xs = (blocks * steps).+1,
          forall i, (i <= blocks * steps)%N -> within (D / steps%:R ^+ 4) (nth 0 xs i) (x (t i)) &
          forall i, (i < blocks * steps)%N -> within (D / steps%:R ^+ 4) (nth 0 us i) (u (t i))]].
Proof. exact: par_fb_trajectory. Qed.
Print Assumptions C98_parallel.
Example C98_parallel_ex : let q := ex_reg (1 : Rf) 0 in
  [/\ symm (qU q) /\ pd (qU q), symm (qX q) /\ psd (qX q), symm (qXT q) /\ psd (qXT q) & 0 <= qT q].
Proof. exact: ex_opt_hyp. Qed.
