(** The linear quadratic control problem in continuous time, over the real numbers (C92). *)
From Coq Require Import Reals.
From mathcomp Require Import all_ssreflect all_algebra.
From Verif Require Import RealF MxBase ClqrModel RealExpSpec.
Import Order.TTheory GRing.Theory Num.Theory.
Set Implicit Arguments. Unset Strict Implicit. Unset Printing Implicit Defensive.
Local Open Scope ring_scope.

Section Spec.
Variables n m : nat.
Variable q : clqr Rf n m.
(** The state x is driven by the control u from time t0 to T, and c accumulates the running cost.  Both are continuous, and
    the differential equations dx/dt = F x + L u and dc/dt = (x' X x + u' U u) / 2 hold except at the finitely many times ts
    (where u may jump). *)
Definition driven (x : R -> 'cV[Rf]_n) (u : R -> 'cV[Rf]_m) (c : R -> Rf) (ts : seq Rf) (t0 : Rf) : Prop :=
  (forall t : Rf, t0 <= t <= qT q -> mcont x t /\ continuity_pt c t) /\
  (forall t : Rf, t0 < t < qT q -> t \notin ts ->
     mderiv x t (qF q *m x t + qL q *m u t) /\ derivable_pt_lim c t ((qf (qX q) (x t) + qf (qU q) (u t)) / 2%:R)).
(** the cost from time t0 on *)
Definition cost_to_go (x : R -> 'cV[Rf]_n) (c : R -> Rf) (t0 : Rf) : Rf := c (qT q) - c t0 + qf (qXT q) (x (qT q)) / 2%:R.
End Spec.
