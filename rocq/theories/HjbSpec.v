(** Specification vocabulary for the grid solvers of hjb_grid_1d_np.py and hjb_grid_1d_tf.py (C50-C54, C72, C73). *)
From mathcomp Require Import all_ssreflect all_algebra.
Import Order.TTheory GRing.Theory Num.Theory.
Set Implicit Arguments. Unset Strict Implicit. Unset Printing Implicit Defensive.
Local Open Scope ring_scope.

Section Spec.
Variable R : realFieldType.
Implicit Types A B C : seq (seq R).
(** an array with n rows and n columns *)
Definition square {X} (n : nat) (A : seq (seq X)) : Prop := size A = n /\ all (fun r : seq X => size r == n) A.
(** its entry *)
Definition at2 A (i j : nat) : R := nth 0 (nth [::] A i) j.
(** an array of numbers as an array of numbers or nan, and the entry of such an array *)
Definition nums A : seq (seq (option R)) := [seq [seq Some x | x <- row] | row <- A].
Definition nat2 (A : seq (seq (option R))) (i j : nat) : option R := nth None (nth [::] A i) j.
(** the cost from state i to state k through state j *)
Definition via A B (i k j : nat) : R := at2 A i j + at2 B j k.
(** v is the smallest of g 0, ..., g (n-1) *)
Definition least (n : nat) (g : nat -> R) (v : R) : Prop :=
  (exists2 j, (j < n)%N & v = g j) /\ forall j, (j < n)%N -> v <= g j.
(** j is the first index at which the smallest value is attained *)
Definition first_min (n : nat) (g : nat -> R) (j : nat) : Prop :=
  (j < n)%N /\ forall i, (i < n)%N -> g j <= g i /\ ((i < j)%N -> g j < g i).
(** neighbours, mirrored at the ends of the grid *)
Definition left_of (j : nat) : nat := if j is i.+1 then i else 1%N.
Definition right_of (n j : nat) : nat := if (j.+1 < n)%N then j.+1 else (n - 2)%N.
Definition second_difference (n : nat) (g : nat -> R) (j : nat) : R := g (left_of j) + g (right_of n j) - g j - g j.
(** v is the minimum of the parabola which takes the values fm, f0, fp at -1, 0, 1 *)
Definition quad (a b c t : R) : R := a * t * t + b * t + c.
Definition parabola_min (fm f0 fp v : R) : Prop := forall a b c,
  quad a b c (- 1) = fm -> quad a b c 0 = f0 -> quad a b c 1 = fp ->
  (exists t, quad a b c t = v) /\ forall t, v <= quad a b c t.
(** q is the smallest number of the list *)
Definition least_of (s : seq R) (q : R) : Prop := q \in s /\ forall y, y \in s -> q <= y.
(** one step of the upwind scheme, backwards over the time dt, at the i-th of the grid points xs with the control u:
    the difference quotient is taken towards the next grid point when the state increases and towards the previous one when
    it does not; at the ends of the grid there is one quotient only *)
Definition upwind_quotient (dx : R) (V : seq R) (i : nat) (c : R) : R :=
  if i == 0%N then (nth 0 V 1 - nth 0 V 0) / dx
  else if (i.+1 == size V) || ~~ (0 < c) then (nth 0 V i - nth 0 V i.-1) / dx
  else (nth 0 V i.+1 - nth 0 V i) / dx.
Definition upwind_cost (f L : R -> R -> R) (dx dt : R) (xs V : seq R) (i : nat) (u : R) : R :=
  let x := nth 0 xs i in nth 0 V i + (L x u + f x u * upwind_quotient dx V i (f x u)) * dt.
(** one step of the symmetric scheme *)
Definition symmetric_quotient (dx : R) (V : seq R) (i : nat) : R :=
  if i == 0%N then (nth 0 V 1 - nth 0 V 0) / dx
  else if i.+1 == size V then (nth 0 V i - nth 0 V i.-1) / dx
  else (nth 0 V i.+1 - nth 0 V i.-1) / (2%:R * dx).
Definition symmetric_cost (f L : R -> R -> R) (dx dt : R) (xs V : seq R) (i : nat) (u : R) : R :=
  let x := nth 0 xs i in nth 0 V i + (L x u + f x u * symmetric_quotient dx V i) * dt.
End Spec.
