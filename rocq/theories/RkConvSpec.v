(** Quadratic vector fields (C94). *)
From mathcomp Require Import all_ssreflect all_algebra.
From Verif Require Import Rk4Spec.
Import Order.TTheory GRing.Theory Num.Theory.
Set Implicit Arguments. Unset Strict Implicit. Unset Printing Implicit Defensive.
Local Open Scope ring_scope.

Section Spec.
Variable R : realFieldType.
Variables k l : nat.
Local Notation V := (matrix_lmodType R k l).
Definition bilinear_map (b : V -> V -> V) := (forall x, linear_map (b x)) /\ (forall y, linear_map (b^~ y)).
(** f(x) = c + B x + b(x, x) *)
Definition quadratic (f : V -> V) := exists c B b, [/\ linear_map B, bilinear_map b & forall x, f x = c + B x + b x x].
End Spec.
