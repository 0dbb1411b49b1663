(** C101: the differential equations that the tracker integrates describe the optimal control, for data that vary in time. *)
From Coq Require Import Reals.
From mathcomp Require Import all_ssreflect all_algebra.
From Verif Require Import RealF MxBase LqtModel ClqtModel RealExpSpec TrackOptSpec TvarSpec Tvar TvarEx.
Import Order.TTheory GRing.Theory Num.Theory.
Set Implicit Arguments. Unset Strict Implicit. Unset Printing Implicit Defensive.
Local Open Scope ring_scope.

(** ** C101 *)
(** Let S and v solve the backward equations.  A trajectory that uses the feedback gains of the code costs no more than any
    other trajectory from the same state, and a trajectory that costs the same uses the same feedback. *)
Theorem C101_feedback (n m p pT : nat) (P : clqt Rf n m p pT) (t0 : Rf) : t0 <= kT P -> tracking_weights P t0 ->
  forall S v ts, backward_solution P S v ts t0 ->
  forall x u c us x' u' c' us', steered P x u c us t0 -> feedback P S v x u us t0 -> steered P x' u' c' us' t0 -> x' t0 = x t0 ->
  tracking_cost P x c t0 <= tracking_cost P x' c' t0 /\
  (tracking_cost P x' c' t0 = tracking_cost P x c t0 -> feedback P S v x' u' (ts ++ us ++ us') t0).
Proof. exact: fb_optimal. Qed.
Print Assumptions C101_feedback.
Example C101_feedback_ex : [/\ tracking_weights ex_ramp 0, backward_solution ex_ramp (fun _ => 1%:M) (fun t => t%:M) [::] 0 &
  [/\ steered ex_ramp (fun t => (t - 1)%:M) (fun _ => 1%:M) (fun t => t / 2%:R) [::] 0,
    feedback ex_ramp (fun _ => 1%:M) (fun t => t%:M) (fun t => (t - 1)%:M) (fun _ => 1%:M) [::] 0,
    steered ex_ramp (fun _ => (- 1)%:M) (fun _ => 0) (fun t => t * t * t / (2%:R * 3%:R)) [::] 0,
    tracking_cost ex_ramp (fun t => (t - 1)%:M) (fun t => t / 2%:R) 0 = 1 &
    tracking_cost ex_ramp (fun _ => (- 1)%:M) (fun t => t * t * t / (2%:R * 3%:R)) 0 = 1 + 1 + (2%:R * 3%:R)^-1]].
Proof. exact: And3 ramp_w ramp_sol ramp_steered. Qed.

(** The optimal costs from two states differ by the difference of x' S x / 2 - v' x. *)
Theorem C101_value (n m p pT : nat) (P : clqt Rf n m p pT) (t0 : Rf) : t0 <= kT P -> tracking_weights P t0 ->
  forall S v ts, backward_solution P S v ts t0 ->
  forall x u c us x' u' c' us', steered P x u c us t0 -> feedback P S v x u us t0 -> steered P x' u' c' us' t0 -> feedback P S v x' u' us' t0 ->
  tracking_cost P x' c' t0 - tracking_cost P x c t0 = value (S t0) (v t0) 0 (x' t0) - value (S t0) (v t0) 0 (x t0).
Proof. exact: fb_value. Qed.
Print Assumptions C101_value.
Example C101_value_ex : [/\ tracking_weights ex_ramp 0, backward_solution ex_ramp (fun _ => 1%:M) (fun t => t%:M) [::] 0 &
  [/\ steered ex_ramp (fun t => (t - 1)%:M) (fun _ => 1%:M) (fun t => t / 2%:R) [::] 0,
    feedback ex_ramp (fun _ => 1%:M) (fun t => t%:M) (fun t => (t - 1)%:M) (fun _ => 1%:M) [::] 0,
    steered ex_ramp (fun _ => (- 1)%:M) (fun _ => 0) (fun t => t * t * t / (2%:R * 3%:R)) [::] 0,
    tracking_cost ex_ramp (fun t => (t - 1)%:M) (fun t => t / 2%:R) 0 = 1 &
    tracking_cost ex_ramp (fun _ => (- 1)%:M) (fun t => t * t * t / (2%:R * 3%:R)) 0 = 1 + 1 + (2%:R * 3%:R)^-1]].
Proof. exact: And3 ramp_w ramp_sol ramp_steered. Qed.

(** Let b and C solve the forward equations as well.  The states (I + C S)^-1 (b + C v) are an optimal trajectory from x0
    with the code's feedback. *)
Theorem C101_combination (n m p pT : nat) (P : clqt Rf n m p pT) (t0 : Rf) : t0 <= kT P -> tracking_weights P t0 ->
  forall S v ts, backward_solution P S v ts t0 -> forall b C x0 ts', forward_solution P b C x0 ts' t0 ->
  (forall t : Rf, t0 <= t <= kT P -> 1%:M + C t *m S t \in unitmx) ->
  let x (t : R) := invmx (1%:M + C t *m S t) *m (b t + C t *m v t) in
  forall u c us, feedback P S v x u us t0 -> accumulates P x u c us t0 ->
  [/\ steered P x u c (ts ++ ts' ++ us) t0, x t0 = x0 &
      forall x' u' c' us', steered P x' u' c' us' t0 -> x' t0 = x0 -> tracking_cost P x c t0 <= tracking_cost P x' c' t0].
Proof. exact: comb_steered. Qed.
Print Assumptions C101_combination.
Example C101_combination_ex : [/\ tracking_weights ex_push 0, backward_solution ex_push pushS pushv [::] 0,
  forward_solution ex_push pushb pushC 1%:M [::] 0 &
  let x (t : R) := invmx (1%:M + pushC t *m pushS t) *m (pushb t + pushC t *m pushv t) in
  [/\ (forall t : Rf, 0 <= t <= kT ex_push -> 1%:M + pushC t *m pushS t \in unitmx),
      feedback ex_push pushS pushv x (fun _ => (2%:R^-1)%:M) [::] 0 &
      accumulates ex_push x (fun _ => (2%:R^-1)%:M) (fun t => t / (2%:R * 2%:R * 2%:R)) [::] 0]].
Proof. exact: And4 push_w push_sol push_fsol push_comb. Qed.

(** combineForwardBackward computes these states and controls from the values at any times. *)
Theorem C101_samples (n m p pT : nat) (P : clqt Rf n m p pT) (t0 : Rf) (S : R -> 'M[Rf]_n) (v b : R -> 'cV[Rf]_n) (C : R -> 'M[Rf]_n) :
  (forall t : Rf, t0 <= t <= kT P -> 1%:M + C t *m S t \in unitmx) ->
  let x (t : R) := invmx (1%:M + C t *m S t) *m (b t + C t *m v t) in
  forall (A : Rf -> 'M[Rf]_n) (K : Rf -> 'M[Rf]_(m, n)) (d : Rf -> 'cV[Rf]_m) (tl : seq Rf), (forall t : Rf, t \in tl -> t0 <= t <= kT P) ->
  combineForwardBackward [seq K t | t <- tl] [seq d t | t <- tl] [seq S t | t <- tl] [seq v t | t <- tl] [seq (A t, b t, C t) | t <- tl] =
  Some ([seq - K t *m x t + d t | t <- tl], [seq x t | t <- tl]).
Proof. exact: comb_samples. Qed.
Print Assumptions C101_samples.
Example C101_samples_ex : let x (t : R) := invmx (1%:M + pushC t *m pushS t) *m (pushb t + pushC t *m pushv t) in
  [/\ (forall t : Rf, 0 <= t <= kT ex_push -> 1%:M + pushC t *m pushS t \in unitmx),
      feedback ex_push pushS pushv x (fun _ => (2%:R^-1)%:M) [::] 0 &
      accumulates ex_push x (fun _ => (2%:R^-1)%:M) (fun t => t / (2%:R * 2%:R * 2%:R)) [::] 0].
Proof. exact: push_comb. Qed.
