(** Conditions for the existence of an optimal control with time-varying data (C103). *)
From Coq Require Import Reals.
From mathcomp Require Import all_ssreflect all_algebra.
From Verif Require Import RealF MxBase ClqtModel TvarSpec.
Import Order.TTheory GRing.Theory Num.Theory.
Set Implicit Arguments. Unset Strict Implicit. Unset Printing Implicit Defensive.
Local Open Scope ring_scope.

(** All weights are symmetric, X and X_T are positive semidefinite, and U is positive definite, at all times from 0 to T. *)
Definition convex_weights (n m p pT : nat) (P : clqt Rf n m p pT) : Prop :=
  [/\ tracking_weights P 0, psd (kXT P) & forall t : Rf, 0 <= t <= kT P -> psd (kX P t)].
