(** Property theorems about nlqt_np.py and nlqt_tf.py (C35, C36). *)
From mathcomp Require Import all_ssreflect all_algebra.
From Verif Require Import MxBase LqtModel LqtSpec LqtEx LqtTfModel LqtTfSpec LqtTfMore NlqtModel NlqtSpec NlqtProofs NlqtMain NlqtEx.
Import Order.TTheory GRing.Theory Num.Theory.
Set Implicit Arguments. Unset Strict Implicit. Unset Printing Implicit Defensive.
Local Open Scope ring_scope.
Local Notation Qf := [realFieldType of rat].

(** C35: for an affine model one iteration reaches the optimum, whatever the nominal trajectory, the method and
    the matrices F, c, L stored in the tracker before. *)
Theorem C35_affine_one_step :
  forall (R : realFieldType) n m (M : nlmodel R n m) (P : lqt R n m) x0,
  problem_ok P -> stages P <> [::] -> affine_model M ->
  exists us' xs', [/\ forall us xs meth, size us = size (stages P) -> (size us <= (size xs).+1)%N ->
      exists P', iterate M P us (x0 :: xs) meth = Some (P', (us', xs')),
    size us' = size (stages P), follows M x0 us' xs' & only_minimiser (nlqt_cost M P x0) us'].
Proof. exact affine_one_step. Qed.
Print Assumptions C35_affine_one_step.
Example C35_example : affine_model (ex_affine Qf).
Proof. exact (ex_affine_ok Qf). Qed.
Example C35_example_problem : problem_ok (ex_P (2%:R%:M : 'M[rat]_2)).
Proof. exact (ex_problem_ok (unit2 _)). Qed.

(** for every model the methods return the same *)
Theorem C35_methods_agree :
  forall (R : realFieldType) n m (M : nlmodel R n m) (P : lqt R n m) us x0 xs,
  problem_ok P -> stages P <> [::] -> size us = size (stages P) -> size xs = size us ->
  exists P' us' xs', [/\ forall meth, iterate M P us (x0 :: xs) meth = Some (P', (us', xs')),
    size us' = size us & size xs' = (size xs).+1].
Proof. exact methods_agree. Qed.
Print Assumptions C35_methods_agree.

(** and so do the three iterations of nlqt_tf.py, below their length limit *)
Theorem C35_tensor_iterations_agree :
  forall (R : realFieldType) n m (M : nlmodel R n m) p (cs : seq (cstage R n m p)) f us x0 xs mp,
  problem_ok (np_lqt cs f) -> cs <> [::] -> size us = size cs -> size xs = size us -> (size cs < (2 * mp).-1)%N ->
  exists P' us' xs', [/\ forall meth, iterate M (np_lqt cs f) us (x0 :: xs) meth = Some (P', (us', xs')),
    nlqt_iterate_seq M us (x0 :: xs) cs f = Some (us', xs'),
    nlqt_iterate_par_1 M us (x0 :: xs) cs f mp = Some (us', xs') &
    nlqt_iterate_par_2 M us (x0 :: xs) cs f mp = Some (us', xs')].
Proof. exact tf_iterate_eq. Qed.
Print Assumptions C35_tensor_iterations_agree.
Theorem C35_tensor_cost_agrees :
  forall (R : realFieldType) n m (M : nlmodel R n m) p (cs : seq (cstage R n m p)) f us x,
  size us = size cs -> tf_nlqt_cost M x us cs f = nlqt_cost M (np_lqt cs f) x us.
Proof. exact tf_nlqt_cost_eq. Qed.
Print Assumptions C35_tensor_cost_agrees.
Example C35_tensor_example : problem_ok (np_lqt [seq (ex_cstage k%:R : cstage Qf 2 2 2) | k <- iota 0 5] (ex_cfinal Qf)).
Proof. exact (ex_canon_ok Qf 5). Qed.

(** C36: the fixed points of the iteration are exactly the trajectories of the nonlinear model at which the
    derivative of the nonlinear cost is zero. *)
Theorem C36_fixed_points_are_stationary :
  forall (R : realFieldType) n m (M : nlmodel R n m) (P : lqt R n m) us x0 xs meth,
  problem_ok P -> stages P <> [::] -> size us = size (stages P) -> size xs = size us -> differentiable M ->
  (exists P', iterate M P us (x0 :: xs) meth = Some (P', (us, x0 :: xs))) <->
  follows M x0 us (x0 :: xs) /\ stationary (nlqt_cost M P x0) us.
Proof. exact fixed_point_iff. Qed.
Print Assumptions C36_fixed_points_are_stationary.
(** a genuinely nonlinear model with a fixed point *)
Example C36_example_problem : problem_ok (ex_rest Qf).
Proof. exact (ex_rest_ok Qf). Qed.
Example C36_example_model : differentiable (ex_square Qf).
Proof. exact (@ex_square_diff Qf). Qed.
Example C36_example_follows : follows (ex_square Qf) 0 [:: 0; 0] [:: 0; 0; 0].
Proof. exact (ex_rest_follows Qf). Qed.
Example C36_example_stationary : stationary (nlqt_cost (ex_square Qf) (ex_rest Qf) 0) [:: 0; 0].
Proof. exact (ex_rest_stationary Qf). Qed.
