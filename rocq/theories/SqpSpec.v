(** Specification for sequential quadratic programming. *)
From mathcomp Require Import all_ssreflect all_algebra.
From Verif Require Import MxBase NlqtSpec SqpModel.
Import Order.TTheory GRing.Theory Num.Theory.
Set Implicit Arguments. Unset Strict Implicit. Unset Printing Implicit Defensive.
Local Open Scope ring_scope.

Section S.
Variable R : realFieldType.
Variables n k : nat.

(** ** quadratic programs: min 1/2 x'Gx + c'x subject to A x = b *)
Definition qp_cost (G : 'M[R]_n) (c x : 'cV[R]_n) : R := qf G x / 2%:R + dot c x.
Definition qp_solution (G : 'M[R]_n) (c : 'cV[R]_n) (A : 'M[R]_(k, n)) (b : 'cV[R]_k) (x : 'cV[R]_n) : Prop :=
  A *m x = b /\ forall z, A *m z = b -> z <> x -> qp_cost G c x < qp_cost G c z.
(** the Hessian is positive definite on the null space of A, and A has full row rank *)
Definition qp_ok (G : 'M[R]_n) (A : 'M[R]_(k, n)) : Prop :=
  [/\ symm G, forall z, A *m z = 0 -> z <> 0 -> 0 < qf G z & forall l : 'cV[R]_k, A^T *m l = 0 -> l = 0].

(** ** derivatives (Frechet) *)
Definition is_gradient (f : 'cV[R]_n -> R) (x g : 'cV[R]_n) : Prop :=
  forall eps, 0 < eps -> exists2 delta, 0 < delta & forall h, vnorm h < delta -> `|f (x + h) - f x - dot g h| <= eps * vnorm h.
Definition is_jacobian j (f : 'cV[R]_n -> 'cV[R]_j) (x : 'cV[R]_n) (J : 'M[R]_(j, n)) : Prop :=
  forall eps, 0 < eps -> exists2 delta, 0 < delta & forall h, vnorm h < delta -> vnorm (f (x + h) - f x - J *m h) <= eps * vnorm h.

(** automatic differentiation returns the derivatives of fun, con and the Lagrangian fun - lam . con *)
Definition exact_derivatives (Q : nlp R n k) : Prop :=
  [/\ forall x, is_gradient (pf Q) x (pdf Q x), forall x, is_jacobian (pc Q) x (pdc Q x),
      forall lam x, is_gradient (fun x => pf Q x - dot lam (pc Q x)) x (pdl Q x lam) &
      forall lam x, is_jacobian (fun x => pdl Q x lam) x (phl Q x lam)].

(** first-order (Karush-Kuhn-Tucker) conditions of min fun subject to con = 0 *)
Definition kkt_point (Q : nlp R n k) (x : 'cV[R]_n) (lam : 'cV[R]_k) : Prop :=
  is_gradient (fun x => pf Q x - dot lam (pc Q x)) x 0 /\ pc Q x = 0.

(** the problem is quadratic with linear constraints *)
Definition quadratic_problem (Q : nlp R n k) G c0 c A b : Prop :=
  (forall x, pf Q x = qp_cost G c x + c0) /\ (forall x, pc Q x = A *m x - b).

Definition is_norm (norm : 'cV[R]_n -> R) : Prop := forall v, 0 <= norm v /\ (norm v = 0 <-> v = 0).

(** ** reachable states of the quasi-Newton iteration: the loop body runs only while the criterion exceeds tol *)
Inductive reachable (norm : 'cV[R]_n -> R) (Q : nlp R n k) (tol : R) (mb : nat) (damped : bool) (x0 : 'cV[R]_n) : nat -> bfgs_state R n k -> Prop :=
| reach0 : reachable norm Q tol mb damped x0 0 (bfgs_init k x0)
| reachS i st st' : reachable norm Q tol mb damped x0 i st -> tol < bcrit st ->
    bfgs_step norm Q mb damped st = Some st' -> reachable norm Q tol mb damped x0 i.+1 st'.
(** constraint Jacobians have full row rank at every point *)
Definition regular (Q : nlp R n k) : Prop := forall x (l : 'cV[R]_k), (pdc Q x)^T *m l = 0 -> l = 0.
(** A back-tracking step along p: one of the first mb trial points x + p, x + p/2, x + p/4, ... is the first at which the
    merit function fun + sum |con| does not increase, and is taken; or none of these mb is, and the full step is taken
    as the documented last resort. *)
Definition merit_fun (Q : nlp R n k) (x : 'cV[R]_n) : R := pf Q x + vnorm (pc Q x).
Definition step_ok (Q : nlp R n k) mb (st st' : bfgs_state R n k) (p : 'cV[R]_n) : Prop :=
  (exists j, [/\ (j < mb)%N, bx st' = bx st + 2%:R^-1 ^+ j *: p, merit_fun Q (bx st') <= merit_fun Q (bx st) &
                forall i, (i < j)%N -> merit_fun Q (bx st) < merit_fun Q (bx st + 2%:R^-1 ^+ i *: p)]) \/
  (bx st' = bx st + p /\ forall i, (i < mb)%N -> merit_fun Q (bx st) < merit_fun Q (bx st + 2%:R^-1 ^+ i *: p)).
End S.
