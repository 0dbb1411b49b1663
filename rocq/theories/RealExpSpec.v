(** The matrix exponential over the real numbers, and derivatives of matrix-valued functions. *)
From Coq Require Import Reals.
From Coquelicot Require Series.
From mathcomp Require Import all_ssreflect all_algebra.
From Verif Require Import RealF LinModSpec.
Import Order.TTheory GRing.Theory Num.Theory.
Set Implicit Arguments. Unset Strict Implicit. Unset Printing Implicit Defensive.
Local Open Scope ring_scope.

(** the sum of A^k / k! over all k; mxpow A k is the k-th power *)
Definition expmR n (A : 'M[Rf]_n) : 'M[Rf]_n := \matrix_(i, j) Series.Series (fun k => mxpow A k i j / k`!%:R).
(** D is the derivative of f at t: derivable_pt_lim is the derivative of the standard library *)
Definition mderiv k l (f : R -> 'M[Rf]_(k, l)) (t : R) (D : 'M[Rf]_(k, l)) : Prop :=
  forall i j, derivable_pt_lim (fun t => f t i j) t (D i j).
Definition mcont k l (f : R -> 'M[Rf]_(k, l)) (t : R) : Prop := forall i j, continuity_pt (fun t => f t i j) t.
(** z is a solution of dz/dt = f(z) between the times a and b *)
Definition solves k l (f : 'M[Rf]_(k, l) -> 'M[Rf]_(k, l)) (z : R -> 'M[Rf]_(k, l)) (a b : Rf) : Prop :=
  (forall t : Rf, a <= t <= b -> mcont z t) /\ (forall t : Rf, a < t < b -> mderiv z t (f (z t))).
