(** C55, C59, C75, C76: example models over the real numbers. *)
From Coq Require Import Reals List Arith.
From Verif Require Import ModelsRModel ModelsRSpec ModelsRProofs ModelsRMore ModelsREx.
Import ListNotations.
Local Open Scope R_scope.

(** C55: whatever the random draws, the target starts in the middle, moves by unit steps and stays strictly inside the box *)
Theorem C55_inside :
  forall draw N, (0 < N)%nat -> exists l, genData draw N = Some l /\ length l = N /\ nth_error l 0 = Some (5, 5) /\
  Forall inside l /\ forall i, (S i < N)%nat -> dist2 (nth i l (0, 0)) (nth (S i) l (0, 0)) = 1.
Proof. exact genData_l. Qed.
Print Assumptions C55_inside.
(** a walk that turns round at the right-hand wall *)
Example C55_ex : genData (fun _ => / 2) 6 = Some [(5, 5); (6, 5); (7, 5); (8, 5); (9, 5); (8, 5)].
Proof. exact gen_ex. Qed.

(** C59: the Jacobians are the partial derivatives *)
Theorem C59_jacobian_x :
  forall dt x u i j, (i < 4)%nat -> (j < 4)%nat ->
  partial_derivative (fun v => nth i (nl_f dt v u) 0) x j (nth j (nth i (nl_Fx dt x u) []) 0).
Proof. exact jac_x_l. Qed.
Print Assumptions C59_jacobian_x.
Theorem C59_jacobian_u :
  forall dt x u i j, (i < 4)%nat -> (j < 2)%nat ->
  partial_derivative (fun v => nth i (nl_f dt x v) 0) u j (nth j (nth i (nl_Fu dt x u) []) 0).
Proof. exact jac_u_l. Qed.
Print Assumptions C59_jacobian_u.
(** the TensorFlow functions on a batch are the NumPy functions on every member of the batch *)
Theorem C59_tf_f : forall dt xs us, length xs = length us -> tf_nl_f dt xs us = map (fun z => nl_f dt (fst z) (snd z)) (combine xs us).
Proof. exact tf_f_l. Qed.
Print Assumptions C59_tf_f.
Theorem C59_tf_Fx : forall dt xs us, length xs = length us -> tf_nl_Fx dt xs us = map (fun z => nl_Fx dt (fst z) (snd z)) (combine xs us).
Proof. exact tf_Fx_l. Qed.
Print Assumptions C59_tf_Fx.
Theorem C59_tf_Fu : forall dt xs us, length xs = length us -> tf_nl_Fu dt xs us = map (fun z => nl_Fu dt (fst z) (snd z)) (combine xs us).
Proof. exact tf_Fu_l. Qed.
Print Assumptions C59_tf_Fu.
Example C59_ex : nl_Fx (1 / 10) ex_x ex_u = [[1; 0; 0; 1 / 10]; [0; 1; 3 / 10; 0]; [0; 0; 1; 0]; [0; 0; 0; 1]].
Proof. exact jac_ex. Qed.
Example C59_ex_tf : tf_nl_f (1 / 10) [ex_x] [ex_u] = [[13 / 10; 2; 1 / 10; 31 / 10]].
Proof. exact f_ex. Qed.

(** C75: the reference curve of the continuous-time example *)
Theorem C75_agree : forall t, tf_cl_r t = np_cl_r t.
Proof. exact cl_agree_l. Qed.
Print Assumptions C75_agree.
Theorem C75_periodic : forall t, np_cl_r (t + cl_T) = np_cl_r t.
Proof. exact cl_per_l. Qed.
Print Assumptions C75_periodic.
Theorem C75_end : cl_rT = np_cl_r cl_T ++ [0; 0].
Proof. exact cl_end_l. Qed.
Print Assumptions C75_end.

(** C76: initial guesses *)
Theorem C76_zero :
  forall dims x0 us xs, guess_zero dims x0 = (us, xs) ->
  length us = length dims /\ length xs = S (length dims) /\ nth_error xs 0 = Some x0 /\
  forall k n m, nth_error dims k = Some (n, m) -> nth_error us k = Some (repeat 0 m) /\ nth_error xs (S k) = Some (repeat 0 n).
Proof. exact guess_zero_l. Qed.
Print Assumptions C76_zero.
Theorem C76_references :
  forall dt dims rs x0, 0 < dt -> (0 < length dims)%nat ->
  (forall k n m, nth_error dims k = Some (n, m) -> (4 <= n)%nat) ->
  (forall k, (k < length dims)%nat -> exists r, nth_error rs k = Some r /\ (3 <= length r)%nat) ->
  exists us xs, guess_ref dt dims rs x0 = Some (us, xs) /\ length us = length dims /\ length xs = S (length dims) /\ nth_error xs 0 = Some x0 /\
  forall k n m r, nth_error dims k = Some (n, m) -> nth_error rs k = Some r ->
    nth_error us k = Some (repeat 0 m) /\ exists s, 0 <= s /\ nth_error xs (S k) = Some (firstn 3 r ++ s :: repeat 0 (n - 4)).
Proof. exact guess_ref_l. Qed.
Print Assumptions C76_references.
Example C76_ex : guess_ref (1 / 2) [(4, 2); (4, 2)]%nat [[0; 0; 0]; [3; 4; 1]] [7; 7; 7; 7] =
  Some ([[0; 0]; [0; 0]], [[7; 7; 7; 7]; [0; 0; 0; 0]; [3; 4; 1; 5]]).
Proof. exact guess_ex. Qed.
