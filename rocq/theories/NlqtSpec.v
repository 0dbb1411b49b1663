(** Specification for the iterated nonlinear tracker: affine models, true Jacobians, trajectories of the
    nonlinear model, stationary points. *)
From mathcomp Require Import all_ssreflect all_algebra.
From Verif Require Import MxBase LqtModel NlqtModel.
Import Order.TTheory GRing.Theory Num.Theory.
Set Implicit Arguments. Unset Strict Implicit. Unset Printing Implicit Defensive.
Local Open Scope ring_scope.

Section S.
Variable R : realFieldType.
Variables n m : nat.

Definition affine_model (M : nlmodel R n m) : Prop :=
  exists A B c, forall x u, [/\ nf M x u = A *m x + B *m u + c, nFx M x u = A & nFu M x u = B].

(** sum of absolute values *)
Definition vnorm k (v : 'cV[R]_k) : R := \sum_i `|v i 0|.
(** A and B are the partial derivatives of f at (x, u) (Frechet) *)
Definition jacobian_at (f : 'cV[R]_n -> 'cV[R]_m -> 'cV[R]_n) x u (A : 'M[R]_n) (B : 'M[R]_(n, m)) : Prop :=
  forall eps, 0 < eps -> exists2 delta, 0 < delta & forall h k, vnorm h + vnorm k < delta ->
    vnorm (f (x + h) (u + k) - f x u - (A *m h + B *m k)) <= eps * (vnorm h + vnorm k).
Definition differentiable (M : nlmodel R n m) : Prop := forall x u, jacobian_at (nf M) x u (nFx M x u) (nFu M x u).

(** xs is the state sequence of the nonlinear model from x0 under us *)
Fixpoint follows (M : nlmodel R n m) (x0 : 'cV[R]_n) (us : seq 'cV[R]_m) (xs : seq 'cV[R]_n) : Prop :=
  match us, xs with
  | [::], [:: x] => x = x0
  | u :: us', x :: xs' => x = x0 /\ follows M (nf M x u) us' xs'
  | _, _ => False
  end.

(** distance between two control sequences *)
Definition udist (us us' : seq 'cV[R]_m) : R := \sum_(z <- zip us us') vnorm (z.1 - z.2).
(** the derivative of J at us is zero *)
Definition stationary (J : seq 'cV[R]_m -> option R) (us : seq 'cV[R]_m) : Prop :=
  exists2 c, J us = Some c & forall eps, 0 < eps -> exists2 delta, 0 < delta &
    forall us', size us' = size us -> udist us us' < delta ->
    exists2 c', J us' = Some c' & `|c' - c| <= eps * udist us us'.
(** us is the only minimiser of J among the sequences of its length *)
Definition only_minimiser (J : seq 'cV[R]_m -> option R) (us : seq 'cV[R]_m) : Prop :=
  exists2 c, J us = Some c & forall us', size us' = size us -> us' <> us -> exists2 c', J us' = Some c' & c < c'.
End S.
