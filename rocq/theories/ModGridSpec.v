(** Specification vocabulary for the one-dimensional example models (C90, C91). *)
From mathcomp Require Import all_ssreflect all_algebra.
Import Order.TTheory GRing.Theory Num.Theory.
Set Implicit Arguments. Unset Strict Implicit. Unset Printing Implicit Defensive.
Local Open Scope ring_scope.
Section Spec.
Variable R : realFieldType.
(** the state after Euler steps of length dt with the controls us *)
Fixpoint euler_end (f : R -> R -> R) (dt x : R) (us : seq R) : R := if us is u :: r then euler_end f dt (x + dt * f x u) r else x.
(** v is the smallest of the terminal costs which m Euler steps from x with controls between 0 and 1 lead to *)
Definition best_euler (f : R -> R -> R) (LT : R -> R) (dt : R) (m : nat) (x v : R) : Prop :=
  (exists us, [/\ size us = m, forall u, u \in us -> 0 <= u <= 1 & LT (euler_end f dt x us) = v]) /\
  (forall us, size us = m -> (forall u, u \in us -> 0 <= u <= 1) -> v <= LT (euler_end f dt x us)).
(** n equidistant numbers from a to b *)
Definition uniform_grid (a b : R) (n : nat) (s : seq R) : Prop :=
  [/\ size s = n, nth 0 s 0 = a, nth 0 s n.-1 = b & forall i, (i.+1 < n)%N -> (nth 0 s i.+1 - nth 0 s i) * n.-1%:R = b - a].
(** the bound on the time step under which the upwind scheme is monotone *)
Definition step_bound (f : R -> R -> R) (dt : R) (xs us : seq R) : Prop :=
  forall x u, x \in xs -> u \in us -> dt * `|f x u| <= nth 0 xs 1 - nth 0 xs 0.
End Spec.
