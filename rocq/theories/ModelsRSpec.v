(** Specification vocabulary for C55 and C59. *)
From Coq Require Import Reals.
Local Open Scope R_scope.
(** strictly inside the square [1/2, 19/2] x [1/2, 19/2] *)
Definition inside (p : R * R) : Prop := 1 / 2 < fst p < 10 - 1 / 2 /\ 1 / 2 < snd p < 10 - 1 / 2.
(** squared distance *)
Definition dist2 (p q : R * R) : R := (fst q - fst p) ^ 2 + (snd q - snd p) ^ 2.
(** the vector x with t as entry j *)
Definition put (x : nat -> R) (j : nat) (t : R) : nat -> R := fun k => if Nat.eqb k j then t else x k.
(** d is the partial derivative of g with respect to entry j, at x *)
Definition partial_derivative (g : (nat -> R) -> R) (x : nat -> R) (j : nat) (d : R) : Prop :=
  derivable_pt_lim (fun t => g (put x j t)) (x j) d.
