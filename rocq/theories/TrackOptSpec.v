(** The tracking problem in continuous time, over the real numbers (C100). *)
From Coq Require Import Reals.
From mathcomp Require Import all_ssreflect all_algebra.
From Verif Require Import RealF MxBase LqtModel ClqtModel RealExpSpec.
Import Order.TTheory GRing.Theory Num.Theory.
Set Implicit Arguments. Unset Strict Implicit. Unset Printing Implicit Defensive.
Local Open Scope ring_scope.

Section Spec.
Variables n m p pT : nat.
Variable P : clqt Rf n m p pT.
(** The state x is steered by the control u from time t0 to T, and c accumulates the running cost.  Both are continuous, and
    the differential equations dx/dt = F x + c + L u and dc/dt = ((H x - r)' X (H x - r) + u' U u) / 2 hold except at the
    finitely many times ts (where u may jump). *)
Definition steered (x : R -> 'cV[Rf]_n) (u : R -> 'cV[Rf]_m) (c : R -> Rf) (ts : seq Rf) (t0 : Rf) : Prop :=
  (forall t : Rf, t0 <= t <= kT P -> mcont x t /\ continuity_pt c t) /\
  (forall t : Rf, t0 < t < kT P -> t \notin ts ->
     mderiv x t (kF P t *m x t + kc P t + kL P t *m u t) /\
     derivable_pt_lim c t ((qf (kX P t) (kH P t *m x t - kr P t) + qf (kU P t) (u t)) / 2%:R)).
(** the cost from time t0 on *)
Definition tracking_cost (x : R -> 'cV[Rf]_n) (c : R -> Rf) (t0 : Rf) : Rf :=
  c (kT P) - c t0 + qf (kXT P) (kHT P *m x (kT P) - krT P) / 2%:R.
(** x and u are optimal from x0 at time 0 *)
Definition optimal_tracking (x : R -> 'cV[Rf]_n) (u : R -> 'cV[Rf]_m) (x0 : 'cV[Rf]_n) : Prop :=
  exists c, [/\ steered x u c [::] 0, x 0 = x0 &
    forall x' u' c' ts, steered x' u' c' ts 0 -> x' 0 = x0 -> tracking_cost x c 0 <= tracking_cost x' c' 0].
(** x' S x / 2 - v' x + s *)
Definition value (S : 'M[Rf]_n) (v : 'cV[Rf]_n) (s : Rf) (x : 'cV[Rf]_n) : Rf := qf S x / 2%:R - dot v x + s.
(** Over the times t i the value functions (S, v, s) are the optimal costs, and the feedback u = - K x + d is optimal. *)
Definition optimal_policy (t : nat -> Rf) (steps : nat) (K : seq 'M[Rf]_(m, n)) (d : seq 'cV[Rf]_m) (S : seq 'M[Rf]_n) (v : seq 'cV[Rf]_n) (s : seq Rf) : Prop :=
  forall i, (i <= steps)%N -> let V := value (nth 0 S i) (nth 0 v i) (nth 0 s i) in
  (forall x u c ts, steered x u c ts (t i) -> V (x (t i)) <= tracking_cost x c (t i)) /\
  (forall x0, exists x u c, [/\ steered x u c [::] (t i), x (t i) = x0, tracking_cost x c (t i) = V x0 &
     forall j, (i <= j < steps)%N -> u (t j) = - nth 0 K j *m x (t j) + nth 0 d j]).
End Spec.
