(** Specification of the classical fourth-order Runge-Kutta step. *)
From mathcomp Require Import all_ssreflect all_algebra.
Import Order.TTheory GRing.Theory Num.Theory.
Set Implicit Arguments. Unset Strict Implicit. Unset Printing Implicit Defensive.
Local Open Scope ring_scope.

Section Spec.
Variable R : realFieldType.
Variable V : lmodType R.

(** y is the classical step of size h from x at time t for dx/dt = f(x, t), all four slopes being defined *)
Definition classical_step (f : V -> R -> option V) (h : R) (x : V) (t : R) (y : V) : Prop :=
  exists k1 k2 k3 k4 : V,
  [/\ f x t = Some k1,
      f (x + (h / 2%:R) *: k1) (t + h / 2%:R) = Some k2,
      f (x + (h / 2%:R) *: k2) (t + h / 2%:R) = Some k3,
      f (x + h *: k3) (t + h) = Some k4
    & y = x + (h / 6%:R) *: (k1 + 2%:R *: k2 + 2%:R *: k3 + k4)].

(** the polynomial with coefficients c, and the increment of its antiderivative *)
Definition vpoly (c : seq V) (t : R) : V := \sum_(i < size c) t ^+ i *: nth 0 c i.
Definition vpoly_int (c : seq V) (t h : R) : V :=
  \sum_(i < size c) (((t + h) ^+ i.+1 - t ^+ i.+1) / i.+1%:R) *: nth 0 c i.

(** sum of h^i A^i x / i! for i up to N *)
Definition exp_upto (N : nat) (A : V -> V) (h : R) (x : V) : V :=
  \sum_(i < N.+1) (h ^+ i / (i`!)%:R) *: iter i A x.

Definition linear_map (W : lmodType R) (T : V -> W) := forall (a : R) (x y : V), T (a *: x + y) = a *: T x + T y.
End Spec.
