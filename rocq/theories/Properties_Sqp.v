(** Property theorems about sqp_np.py and sqp_tf.py (C37-C40, C65, C66). *)
From mathcomp Require Import all_ssreflect all_algebra.
From Verif Require Import MxBase LqtModel NlqtSpec SqpModel SqpSpec SqpProofs SqpBfgs SqpEx.
Import Order.TTheory GRing.Theory Num.Theory.
Set Implicit Arguments. Unset Strict Implicit. Unset Printing Implicit Defensive.
Local Open Scope ring_scope.
Local Notation Qf := [realFieldType of rat].

(** C37: what lqe_solve returns solves the KKT system, ... *)
Theorem C37_kkt_system : forall (R : realFieldType) n k (G : 'M[R]_n) c (A : 'M[R]_(k, n)) b x lam,
  lqe_solve G c A b = Some (x, lam) -> G *m x + c = A^T *m lam /\ A *m x = b.
Proof. exact lqe_kkt. Qed.
Print Assumptions C37_kkt_system.
(** ... and under the stated conditions it returns, and the result is the only minimiser *)
Theorem C37_minimiser : forall (R : realFieldType) n k (G : 'M[R]_n) c (A : 'M[R]_(k, n)) b, qp_ok G A ->
  exists x lam, lqe_solve G c A b = Some (x, lam) /\ qp_solution G c A b x.
Proof. exact lqe_minimiser. Qed.
Print Assumptions C37_minimiser.
Example C37_example : qp_ok 1%:M (exA Qf).
Proof. exact (ex_qp_ok Qf). Qed.

(** C38: iteration limit, and the meaning of stopping before it *)
Theorem C38_iteration_limit : forall (R : realFieldType) n k norm (Q : nlp R n k) x0 max_iter tol x iter crit,
  local_eq norm Q x0 max_iter tol = Some (x, iter, crit) ->
  (iter <= max_iter)%N /\ ((iter < max_iter)%N -> crit <= tol).
Proof. exact local_eq_bound. Qed.
Print Assumptions C38_iteration_limit.
(** quadratic problems are solved after one step from everywhere; the second step of local_eq only confirms *)
Theorem C38_quadratic_local_eq : forall (R : realFieldType) n k (Q : nlp R n k), exact_derivatives Q ->
  forall G c0 c A b, symm G -> quadratic_problem Q G c0 c A b ->
  forall norm, is_norm norm -> qp_ok G A ->
  forall x0 max_iter tol, (0 < max_iter)%N -> 0 <= tol -> tol < 1 ->
  exists x iter crit, [/\ local_eq norm Q x0 max_iter tol = Some (x, iter, crit), (iter <= 2)%N & qp_solution G c A b x].
Proof. exact qp_local_eq. Qed.
Print Assumptions C38_quadratic_local_eq.
Theorem C38_quadratic_local_eq_fast : forall (R : realFieldType) n k (Q : nlp R n k), exact_derivatives Q ->
  forall G c0 c A b, symm G -> quadratic_problem Q G c0 c A b ->
  forall norm, qp_ok G A ->
  forall x0 num_iter, (0 < num_iter)%N ->
  exists x crit, local_eq_fast norm Q x0 num_iter = Some (x, num_iter, crit) /\ qp_solution G c A b x.
Proof. exact qp_local_eq_fast. Qed.
Print Assumptions C38_quadratic_local_eq_fast.
Example C38_example : exists Q : nlp Qf 2 1, exact_derivatives Q /\ quadratic_problem Q 1%:M 0 0 (exA Qf) 1%:M.
Proof. exact (ex_qp Qf). Qed.
Example C38_example_norm : is_norm (@vnorm Qf 2).
Proof. exact (@vnorm_is_norm Qf 2). Qed.
(** a zero step is a KKT point, and KKT points are fixed *)
Theorem C38_zero_step_is_kkt : forall (R : realFieldType) n k (Q : nlp R n k), exact_derivatives Q ->
  forall norm x lam lam' crit, sqp_step norm Q x lam = Some (x, lam', crit) -> kkt_point Q x lam'.
Proof. exact zero_step_kkt. Qed.
Print Assumptions C38_zero_step_is_kkt.
Theorem C38_kkt_is_fixed : forall (R : realFieldType) n k (Q : nlp R n k), exact_derivatives Q ->
  forall norm, is_norm norm -> forall x lam x' lam' crit, kkt_point Q x lam ->
  sqp_step norm Q x lam = Some (x', lam', crit) -> [/\ x' = x, lam' = lam & crit = 0].
Proof. exact kkt_zero_step. Qed.
Print Assumptions C38_kkt_is_fixed.
(** a nonlinear problem with exact derivatives *)
Example C38_example_nonlinear : exact_derivatives (sq_nlp Qf).
Proof. exact (sq_exact Qf). Qed.
(** the tensor version returns the history of the same iteration *)
Theorem C38_tensor_agrees : forall (R : realFieldType) n k norm (Q : nlp R n k) x0 num_iter, (0 < num_iter)%N ->
  local_eq_fast norm Q x0 num_iter =
  (let? '(xs, lams, crits) := tf_local_eq_fast norm Q x0 num_iter in Some (last x0 xs, num_iter, last 1 crits)) /\
  (forall xs lams crits, tf_local_eq_fast norm Q x0 num_iter = Some (xs, lams, crits) ->
     [/\ size xs = num_iter, size lams = num_iter & size crits = num_iter]).
Proof. exact tf_fast_agrees. Qed.
Print Assumptions C38_tensor_agrees.

(** C39 *)
Theorem C39_basic_update : forall (R : realFieldType) n (B : 'M[R]_n) s y, symm B -> pd B ->
  exists B', [/\ bfgs_basic_update B s y = Some B', symm B', pd B',
                 0 < dot s y -> B' *m s = y & dot s y <= 0 -> B' = B].
Proof. exact basic_spec. Qed.
Print Assumptions C39_basic_update.
Theorem C39_basic_symmetry_and_secant : forall (R : realFieldType) n (B : 'M[R]_n) s y B', symm B ->
  bfgs_basic_update B s y = Some B' -> symm B' /\ (0 < dot s y -> B' *m s = y).
Proof. exact basic_symm. Qed.
Print Assumptions C39_basic_symmetry_and_secant.
(** the damped update keeps a fifth of the old curvature, and the secant equation if no damping is needed *)
Theorem C39_damped_update : forall (R : realFieldType) n (B : 'M[R]_n) s y, symm B -> pd B -> s != 0 ->
  exists B', [/\ bfgs_damped_update B s y = Some B', symm B', pd B',
                 5%:R^-1 * qf B s <= dot s y -> B' *m s = y & 5%:R^-1 * qf B s <= dot s (B' *m s)].
Proof. exact damped_spec. Qed.
Print Assumptions C39_damped_update.
(** the condition on s is needed: for s = 0 the result is undefined (0/0) *)
Theorem C39_damped_zero_undefined : forall (R : realFieldType) n (B : 'M[R]_n) y, bfgs_damped_update B 0 y = None.
Proof. exact damped_zero. Qed.
Print Assumptions C39_damped_zero_undefined.
Example C39_example : symm (1%:M : 'M[rat]_2) /\ pd (1%:M : 'M[rat]_2).
Proof. exact (ex_pd Qf). Qed.

(** C40: in every reachable state the approximation is symmetric positive definite, or the point is a KKT point and
    the iteration ends there.  The criterion reported is the norm of the gradient of the Lagrangian. *)
Theorem C40_hessian_stays_definite : forall (R : realFieldType) n k norm (Q : nlp R n k),
  exact_derivatives Q -> is_norm norm -> forall tol mb damped x0 i st, 0 <= tol ->
  reachable norm Q tol mb damped x0 i st ->
  ((exists B, [/\ bB st = Some B, symm B & pd B]) \/ (bcrit st = 0 /\ kkt_point Q (bx st) (blam st))) /\
  ((0 < i)%N -> bcrit st = norm (pdl Q (bx st) (blam st))).
Proof. exact bfgs_invariant. Qed.
Print Assumptions C40_hessian_stays_definite.
(** Every further step exists, goes along the minimiser of the quadratic model, and decreases the merit function or is
    the last resort. *)
Theorem C40_steps_decrease_merit : forall (R : realFieldType) n k norm (Q : nlp R n k),
  exact_derivatives Q -> is_norm norm -> forall tol mb damped x0 i st, regular Q -> 0 <= tol ->
  reachable norm Q tol mb damped x0 i st -> tol < bcrit st ->
  exists B st' p, [/\ bB st = Some B, bfgs_step norm Q mb damped st = Some st',
    qp_solution B (pdf Q (bx st)) (pdc Q (bx st)) (- pc Q (bx st)) p & step_ok Q mb st st' p].
Proof. exact bfgs_accepts. Qed.
Print Assumptions C40_steps_decrease_merit.
(** The equations of each such step.  The direction p and the multiplier mu solve the KKT system of the quadratic model.
    Position and multiplier move by the same step length.  The new approximation satisfies the secant equation for the
    gradients of the Lagrangian at the new multiplier, when the curvature is large enough. *)
Theorem C40_step_equations : forall (R : realFieldType) n k norm (Q : nlp R n k),
  exact_derivatives Q -> is_norm norm -> forall tol mb damped x0 i st st', 0 <= tol ->
  reachable norm Q tol mb damped x0 i st -> tol < bcrit st -> bfgs_step norm Q mb damped st = Some st' ->
  exists B p mu alf, [/\ bB st = Some B,
    B *m p + pdf Q (bx st) = (pdc Q (bx st))^T *m mu /\ pdc Q (bx st) *m p = - pc Q (bx st),
    bx st' = bx st + alf *: p, blam st' = blam st + alf *: (mu - blam st) &
    let s := bx st' - bx st in let y := pdl Q (bx st') (blam st') - pdl Q (bx st) (blam st') in
    s != 0 -> exists2 B', bB st' = Some B' &
      ((if damped then 5%:R^-1 * qf B s <= dot s y else 0 < dot s y) -> B' *m s = y) /\
      (if ~~ damped then dot s y <= 0 -> B' = B else 5%:R^-1 * qf B s <= dot s (B' *m s))].
Proof. exact bfgs_step_equations. Qed.
Print Assumptions C40_step_equations.
(** The call returns, and what it returns is such a reachable state. *)
Theorem C40_returns : forall (R : realFieldType) n k norm (Q : nlp R n k),
  exact_derivatives Q -> is_norm norm -> forall tol mb damped x0 max_iter, regular Q -> 0 <= tol ->
  exists st iter, [/\ bfgs_eq_bt norm Q x0 max_iter tol mb damped = Some (bx st, iter, bcrit st),
    reachable norm Q tol mb damped x0 iter st, (iter <= max_iter)%N & (iter < max_iter)%N -> bcrit st <= tol].
Proof. exact bfgs_total. Qed.
Print Assumptions C40_returns.
Example C40_example : exists Q : nlp Qf 2 1, exact_derivatives Q /\ regular Q.
Proof. exact (ex_bfgs Qf). Qed.

(** C65 is false: local_eq can stop after its first step, with criterion 0, at a point that is far from satisfying the
    constraint (the criterion looks at the gradient of the Lagrangian at the previous point only). *)
Theorem C65_stopping_certifies_solution_refuted : forall R : realFieldType,
  exists (Q : nlp R 1 1) (x0 : 'cV[R]_1), exact_derivatives Q /\
  forall norm max_iter tol, is_norm norm -> (1 < max_iter)%N -> 0 <= tol -> tol < 1 ->
  exists x crit, [/\ local_eq norm Q x0 max_iter tol = Some (x, 1%N, crit), crit <= tol & 3%:R < pc Q x 0 0].
Proof. exact early_stop_infeasible. Qed.
Print Assumptions C65_stopping_certifies_solution_refuted.

(** C66 is false: with max_backtrack = 1, the halved step decreases the merit function, is tried, and is then
    replaced by the full step, which increases it. *)
Theorem C66_last_resort_only_without_decrease_refuted : forall R : realFieldType,
  exists (Q : nlp R 1 1) (x0 p : 'cV[R]_1), [/\ exact_derivatives Q,
  (forall norm damped, exists st', bfgs_step norm Q 1 damped (bfgs_init 1 x0) = Some st' /\ bx st' = x0 + p),
  merit_fun Q (x0 + 2%:R^-1 *: p) < merit_fun Q x0 & merit_fun Q x0 < merit_fun Q (x0 + p)].
Proof. exact leap_discards_decrease. Qed.
Print Assumptions C66_last_resort_only_without_decrease_refuted.
