(** What the discretisation and the example problems are meant to be. *)
From mathcomp Require Import all_ssreflect all_algebra.
From Verif Require Import MxBase LqtModel LqtSpec.
Import Order.TTheory GRing.Theory Num.Theory.
Set Implicit Arguments. Unset Strict Implicit. Unset Printing Implicit Defensive.
Local Open Scope ring_scope.

Section LinModSpec.
Variable R : realFieldType.
Fixpoint mxpow n (A : 'M[R]_n) (k : nat) : 'M[R]_n := if k is k'.+1 then A *m mxpow A k' else 1%:M.
(** what is assumed of the matrix exponential: on a nilpotent matrix it is the (then finite) exponential series *)
Definition expm_series (expm : forall n, 'M[R]_n -> 'M[R]_n) : Prop :=
  forall n (A : 'M[R]_n) K, mxpow A K = 0 -> expm n A = \sum_(k < K) (k`!)%:R^-1 *: mxpow A k.
(** a model of the assumption: the truncated series *)
Definition trunc_exp n (A : 'M[R]_n) : 'M[R]_n := \sum_(k < n) (k`!)%:R^-1 *: mxpow A k.

Definition norm2 n (v : 'cV[R]_n) : R := dot v v.
(** position and velocity of a point mass *)
Definition pos (x : 'cV[R]_4) : 'cV[R]_2 := @usubmx R 2 2 1 x.
Definition vel (x : 'cV[R]_4) : 'cV[R]_2 := @dsubmx R 2 2 1 x.
Definition state (p v : 'cV[R]_2) : 'cV[R]_4 := col_mx p v : 'cV[R]_(2 + 2).

(** coordinate i of a vector, 0 if there is none *)
Definition coord n (v : 'cV[R]_n) (i : nat) : R := if insub i is Some j then v j 0 else 0.
(** position and heading of a vehicle with state (x, y, heading, speed) *)
Definition pose3 (x : 'cV[R]_4) : 'cV[R]_3 := @usubmx R 3 1 1 x.
Definition at_rest3 (z : 'cV[R]_3) : 'cV[R]_4 := col_mx z (0 : 'cV[R]_1) : 'cV[R]_(3 + 1).

(** chain of N masses between two walls: state = (y_0, v_0, y_1, v_1, ...); outside the chain everything is at rest *)
Definition disp N (x : 'cV[R]_(2 * N)) i := coord x (2 * i).
Definition velo N (x : 'cV[R]_(2 * N)) i := coord x (2 * i + 1).
(** the left neighbour; mass 0 has none (the wall) *)
Definition left_of (f : nat -> R) i := if i is i'.+1 then f i' else 0.
(** c/m (z_(i-1) - 2 z_i + z_(i+1)) with c/m = k *)
Definition pull (k : R) (f : nat -> R) i := k * (left_of f i - 2%:R * f i + f i.+1).
End LinModSpec.
