(** Solutions of the differential equations the tracker integrates, over the real numbers (C101, C102). *)
From Coq Require Import Reals.
From mathcomp Require Import all_ssreflect all_algebra.
From Verif Require Import RealF MxBase LqtModel ClqtModel ClqtSpec RealExpSpec TrackOptSpec.
Import Order.TTheory GRing.Theory Num.Theory.
Set Implicit Arguments. Unset Strict Implicit. Unset Printing Implicit Defensive.
Local Open Scope ring_scope.

(** Lipschitz continuity of a matrix that depends on time, between the times 0 and T *)
Definition lipschitz_on (T : Rf) (a b : nat) (g : R -> 'M[Rf]_(a, b)) : Prop :=
  exists L : Rf, forall s t : Rf, 0 <= s <= T -> 0 <= t <= T -> within (L * `|s - t|) (g s) (g t).

Section Spec.
Variables n m p pT : nat.
Variable P : clqt Rf n m p pT.
(** X and U are symmetric and U is positive definite at all times from t0 to T, and X_T is symmetric. *)
Definition tracking_weights (t0 : Rf) : Prop :=
  symm (kXT P) /\ forall t : Rf, t0 <= t <= kT P -> [/\ symm (kX P t), symm (kU P t) & pd (kU P t)].
(** S and v are continuous from t0 to T, S is symmetric, their derivatives are what the code's function riccati_ode_f
    returns (except at the times ts, where the data may jump), and at T they are the terminal cost. *)
Definition backward_solution (S : R -> 'M[Rf]_n) (v : R -> 'cV[Rf]_n) (ts : seq Rf) (t0 : Rf) : Prop :=
  [/\ S (kT P) = (kHT P)^T *m kXT P *m kHT P, v (kT P) = (kHT P)^T *m kXT P *m krT P,
      forall t : Rf, t0 <= t <= kT P -> [/\ mcont S t, mcont v t & symm (S t)] &
      forall t : Rf, t0 < t < kT P -> t \notin ts -> exists dS dv,
        [/\ riccati_ode_f P (pack_Sv (S t, v t)) t = Some (pack_Sv (dS, dv)), mderiv S t dS & mderiv v t dv]].
(** b and C are continuous from t0 to T, C is symmetric, their derivatives are what the code's function fwdbwdpass_ode_f
    returns, and at t0 they are x0 and 0 (the defaults of the code). *)
Definition forward_solution (b : R -> 'cV[Rf]_n) (C : R -> 'M[Rf]_n) (x0 : 'cV[Rf]_n) (ts : seq Rf) (t0 : Rf) : Prop :=
  [/\ b t0 = x0, C t0 = 0,
      forall t : Rf, t0 <= t <= kT P -> [/\ mcont b t, mcont C t & symm (C t)] &
      forall t : Rf, t0 < t < kT P -> t \notin ts -> exists A dA db dC,
        [/\ fwdbwdpass_ode_f P (pack_abc (A, b t, C t)) t = Some (pack_abc (dA, db, dC)), mderiv b t db & mderiv C t dC]].
(** The control is u = - K x + d with the gains K and d that the code's backward pass computes from S and v at time t. *)
Definition feedback (S : R -> 'M[Rf]_n) (v : R -> 'cV[Rf]_n) (x : R -> 'cV[Rf]_n) (u : R -> 'cV[Rf]_m) (ts : seq Rf) (t0 : Rf) : Prop :=
  forall t : Rf, t0 < t < kT P -> t \notin ts -> exists K d,
    bwd_gain P 0 t 0 (S t, v t) = Some (K, d) /\ u t = - K *m x t + d.
(** c accumulates the running cost of x and u. *)
Definition accumulates (x : R -> 'cV[Rf]_n) (u : R -> 'cV[Rf]_m) (c : R -> Rf) (ts : seq Rf) (t0 : Rf) : Prop :=
  (forall t : Rf, t0 <= t <= kT P -> continuity_pt c t) /\
  (forall t : Rf, t0 < t < kT P -> t \notin ts ->
     derivable_pt_lim c t ((qf (kX P t) (kH P t *m x t - kr P t) + qf (kU P t) (u t)) / 2%:R)).
(** All data of the problem are Lipschitz in time. *)
Definition lipschitz_data : Prop :=
  [/\ lipschitz_on (kT P) (kF P), lipschitz_on (kT P) (kL P), lipschitz_on (kT P) (kU P) & lipschitz_on (kT P) (kX P)] /\
  [/\ lipschitz_on (kT P) (kc P), lipschitz_on (kT P) (kH P) & lipschitz_on (kT P) (kr P)].
End Spec.
