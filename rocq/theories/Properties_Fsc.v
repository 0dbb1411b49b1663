(** Property theorems about fsc_np.py (C05-C14). *)
From Coq Require Import List Arith Lia Bool ZArith.
From Verif Require Import ScanModel Ord FscModel FscSpec FscProofs4.
Import ListNotations.

(** C05 *)
Theorem C05_backward_pass_optimal :
  forall (K : ordcost) (n m : nat) (P : fsc K), valid n m P ->
  exists us Vs, seqBackwardPass P = Some (us, Vs) /\ length us = length (ff P) /\ length Vs = S (length (ff P)) /\
    forall k x, k <= length (ff P) -> x < n -> exists v, get2 Vs k x = Some v /\ least_cost m P k x v.
Proof. exact C05_lemma. Qed.
Print Assumptions C05_backward_pass_optimal.

(** the control law picks, at every time and state, the first control of least cost *)
Theorem C05_control_law_first_minimiser :
  forall (K : ordcost) (n m : nat) (P : fsc K) us Vs, valid n m P -> seqBackwardPass P = Some (us, Vs) ->
  forall k x, k < length (ff P) -> x < n ->
  exists u L f l x' v v', get2 us k x = Some u /\ u < m /\ nth_error (fL P) k = Some L /\ nth_error (ff P) k = Some f /\
    get2 L x u = Some l /\ get2 f x u = Some x' /\ get2 Vs k x = Some v /\ get2 Vs (S k) x' = Some v' /\ v = cadd l v' /\
    forall w l2 x2 v2, get2 L x w = Some l2 -> get2 f x w = Some x2 -> get2 Vs (S k) x2 = Some v2 ->
      cleb v (cadd l2 v2) = true /\ (w < u -> cltb v (cadd l2 v2) = true).
Proof. exact C05_action. Qed.
Print Assumptions C05_control_law_first_minimiser.

(** C06 *)
Theorem C06_forward_pass_optimal :
  forall (K : ordcost) (n m : nat) (P : fsc K) (x0 : nat), valid n m P -> x0 < n ->
  exists us Vs mu mx v, seqBackwardPass P = Some (us, Vs) /\ seqForwardPass P x0 us = Some (mu, mx) /\
    optimal m P x0 mu /\ run_states (ff P) x0 mu = Some mx /\ seqSimulation P x0 mu = Some mx /\
    fsc_cost P mx mu = Some v /\ get2 Vs 0 x0 = Some v.
Proof. exact C06_lemma. Qed.
Print Assumptions C06_forward_pass_optimal.

(** seqSimulation and cost are the simulation and its cost, for every control list *)
Theorem C06_simulation_and_cost :
  forall (K : ordcost) (n m : nat) (P : fsc K) (x0 : nat) us xs, valid n m P -> x0 < n ->
  controls m (length (ff P)) us -> run_states (ff P) x0 us = Some xs ->
  seqSimulation P x0 us = Some xs /\
  exists c, fsc_cost P xs us = Some c /\ run_cost (ff P) (fL P) (fLT P) x0 us = Some c.
Proof. exact C06_cost. Qed.
Print Assumptions C06_simulation_and_cost.

(** C07 *)
Theorem C07_par_backward_eq_seq :
  forall (K : ordcost) (n m : nat) (infty : K) (P : fsc K), valid n m P -> ff P <> [] ->
  sentinel_dominates n m infty P ->
  exists us Vs, parBackwardPass infty P = Some (us, Vs) /\ seqBackwardPass P = Some (us, Vs).
Proof. exact C07_lemma. Qed.
Print Assumptions C07_par_backward_eq_seq.

(** explicit bound on the table entries *)
Theorem C07_par_backward_eq_seq_bounded :
  forall (K : ordcost) (n m : nat) (lo hi infty : K) (P : fsc K), valid n m P -> ff P <> [] ->
  costs_between lo hi P -> cleb lo czero = true -> cleb czero hi = true ->
  cleb (nmul (S (length (ff P))) hi) (cadd infty (nmul (length (ff P)) lo)) = true ->
  exists us Vs, parBackwardPass infty P = Some (us, Vs) /\ seqBackwardPass P = Some (us, Vs).
Proof. exact C07_bounded. Qed.
Print Assumptions C07_par_backward_eq_seq_bounded.

(** C08 is false: with costs beyond 1e20 the parallel value is below the least cost. *)
Definition bigP : fsc Zcost :=
  @FSC Zcost [[[0]; [1]]] [[[0%Z]; [0%Z]]] [200000000000000000000%Z; 0%Z].
Theorem C08_safe_for_all_costs_refuted :
  exists (P : fsc Zcost) us Vs v w, valid 2 1 P /\
    parBackwardPass (K := Zcost) (10 ^ 20)%Z P = Some (us, Vs) /\ get2 Vs 0 0 = Some v /\
    least_cost 1 P 0 0 w /\ (v < w)%Z.
Proof.
  exists bigP. do 2 eexists. exists (10 ^ 20)%Z, (2 * 10 ^ 20)%Z.
  assert (V : valid 2 1 bigP). { constructor; simpl; try lia; repeat constructor. }
  split; [exact V|]. split; [vm_compute; reflexivity|]. split; [reflexivity|]. split; [|reflexivity].
  destruct (C05_lemma Zcost 2 1 bigP V) as (us & Vs & E & _ & _ & H).
  destruct (H 0 0) as (v & Hv & Hl); [simpl; lia|lia|]. vm_compute in E. injection E as <- <-.
  vm_compute in Hv. injection Hv as <-. exact Hl.
Qed.
Print Assumptions C08_safe_for_all_costs_refuted.

(** C09 *)
Theorem C09_par_forward_eq_seq :
  forall (K : ordcost) (n m : nat) (P : fsc K) (x0 : nat) ul, valid n m P -> ff P <> [] -> x0 < n ->
  feedback_law n m (length (ff P)) ul ->
  exists us xs, parForwardPass P x0 ul = Some (us, xs) /\ seqForwardPass P x0 ul = Some (us, xs) /\
    controls m (length (ff P)) us /\ run_states (ff P) x0 us = Some xs.
Proof. exact C09_lemma. Qed.
Print Assumptions C09_par_forward_eq_seq.

(** C10 *)
Theorem C10_fwdbwd_states_optimal :
  forall (K : ordcost) (n m : nat) (infty : K) (P : fsc K) (x0 : nat), valid n m P -> ff P <> [] -> x0 < n ->
  strict_add K -> sentinel_strictly_dominates n m infty P -> init_dominates n m infty P x0 ->
  exists us Vs mu mx, parBackwardPass infty P = Some (us, Vs) /\ seqBackwardPass P = Some (us, Vs) /\
    parFwdBwdPass infty P x0 us Vs = Some (mu, mx) /\
    length mu = length (ff P) /\ length mx = S (length (ff P)) /\
    (forall k, k <= length (ff P) -> exists x, nth_error mx k = Some x /\ on_optimal_trajectory m P x0 k x /\
        (k < length (ff P) -> nth_error mu k = get2 us k x /\ get2 us k x <> None)) /\
    (unique_optimal_states m P x0 -> seqForwardPass P x0 us = Some (mu, mx)).
Proof. exact C10_lemma1. Qed.
Print Assumptions C10_fwdbwd_states_optimal.

Theorem C10_fwdbwd2_states_optimal :
  forall (K : ordcost) (n m : nat) (infty : K) (P : fsc K) (x0 : nat), valid n m P -> ff P <> [] -> x0 < n ->
  strict_add K -> sentinel_strictly_dominates n m infty P ->
  exists us Vs mu mx, parBackwardPass infty P = Some (us, Vs) /\ seqBackwardPass P = Some (us, Vs) /\
    parFwdBwdPass2 infty P x0 us Vs = Some (mu, mx) /\
    length mu = length (ff P) /\ length mx = S (length (ff P)) /\
    (forall k, k <= length (ff P) -> exists x, nth_error mx k = Some x /\ on_optimal_trajectory m P x0 k x /\
        (k < length (ff P) -> nth_error mu k = get2 us k x /\ get2 us k x <> None)) /\
    (unique_optimal_states m P x0 -> seqForwardPass P x0 us = Some (mu, mx)).
Proof. exact C10_lemma2. Qed.
Print Assumptions C10_fwdbwd2_states_optimal.

(** bounded tables meet both domination hypotheses *)
Theorem C10_bounds_suffice :
  forall (K : ordcost) (n m : nat) (lo hi infty : K) (P : fsc K) (x0 : nat), valid n m P -> costs_between lo hi P -> x0 < n ->
  cleb lo czero = true -> cleb czero hi = true ->
  cltb (nmul (S (length (ff P))) hi) (cadd infty (nmul (S (length (ff P))) lo)) = true ->
  sentinel_strictly_dominates n m infty P /\ init_dominates n m infty P x0.
Proof. exact bounds_strict. Qed.
Print Assumptions C10_bounds_suffice.

(** C11 is false: two optimal trajectories 0->1->2 and 0->2->1, all costs zero. *)
Definition tieP : fsc Zcost :=
  @FSC Zcost [[[1; 2]; [1; 1]; [2; 2]]; [[0; 0]; [2; 2]; [1; 1]]]
      (repeat (repeat [0%Z; 0%Z] 3) 2) [0%Z; 0%Z; 0%Z].
Theorem C11_always_a_trajectory_refuted :
  exists (P : fsc Zcost) us Vs mu mx, valid 3 2 P /\ seqBackwardPass P = Some (us, Vs) /\
    parFwdBwdPass (K := Zcost) (10 ^ 20)%Z P 0 us Vs = Some (mu, mx) /\
    parFwdBwdPass2 (K := Zcost) (10 ^ 20)%Z P 0 us Vs = Some (mu, mx) /\
    controls 2 2 mu /\ run_states (ff P) 0 mu <> Some mx /\
    forall us', run_states (ff P) 0 us' <> Some mx.
Proof.
  exists tieP. do 4 eexists.
  split; [constructor; simpl; try lia; repeat constructor|].
  split; [vm_compute; reflexivity|]. split; [vm_compute; reflexivity|]. split; [vm_compute; reflexivity|].
  split; [split; [reflexivity|repeat constructor]|]. split; [vm_compute; discriminate|].
  intros us' H. destruct us' as [|u1 [|u2 us']]; try discriminate; destruct u1 as [|[|[|u1]]]; try discriminate;
    destruct u2 as [|[|[|u2]]]; try discriminate; destruct us'; discriminate.
Qed.
Print Assumptions C11_always_a_trajectory_refuted.

(** C12 *)
Theorem C12_batch_is_optimal :
  forall (K : ordcost) (n m : nat) (P : fsc K) (x0 : nat) (start : K), valid n m P -> ff P <> [] -> x0 < n ->
  (exists us c, controls m (length (ff P)) us /\ run_cost (ff P) (fL P) (fLT P) x0 us = Some c /\ cltb c start = true) ->
  forall fuel, m ^ length (ff P) <= fuel ->
  exists us xs c, batch_solution start fuel P x0 = Done (us, xs, c) /\
    optimal m P x0 us /\ run_states (ff P) x0 us = Some xs /\ run_cost (ff P) (fL P) (fLT P) x0 us = Some c /\
    least_cost m P 0 x0 c.
Proof. exact C12_lemma. Qed.
Print Assumptions C12_batch_is_optimal.

(** the loop tries every control list exactly once *)
Theorem C12_batch_enumerates_all_once :
  forall (m T fuel : nat), 0 < m -> m ^ T <= fuel ->
  NoDup (tried m fuel (repeat 0 T)) /\ (forall us, In us (tried m fuel (repeat 0 T)) <-> controls m T us).
Proof. exact tried_all. Qed.
Print Assumptions C12_batch_enumerates_all_once.

(** C13 is false: when no cost is below the start value the result has an empty state list. *)
Theorem C13_batch_all_costs_refuted :
  exists (P : fsc Zcost) us c, valid 1 1 P /\ batch_solution (K := Zcost) (10 ^ 10)%Z 1 P 0 = Done (us, [], c) /\
    least_cost 1 P 0 0 (10 ^ 10)%Z /\ run_states (ff P) 0 us <> Some [].
Proof.
  exists (@FSC Zcost [[[0]]] [[[(10 ^ 10)%Z]]] [0%Z]). do 2 eexists.
  assert (V : valid 1 1 (@FSC Zcost [[[0]]] [[[(10 ^ 10)%Z]]] [0%Z])).
  { constructor; simpl; try lia; repeat constructor. }
  split; [exact V|]. split; [vm_compute; reflexivity|]. split; [|vm_compute; discriminate].
  destruct (C05_lemma Zcost 1 1 _ V) as (us & Vs & E & _ & _ & H).
  destruct (H 0 0) as (v & Hv & Hl); [simpl; lia|lia|]. vm_compute in E. injection E as <- <-.
  vm_compute in Hv. injection Hv as <-. exact Hl.
Qed.
Print Assumptions C13_batch_all_costs_refuted.

Theorem C13_batch_all_costs_large :
  forall (K : ordcost) (n m : nat) (P : fsc K) (x0 : nat) (start : K), valid n m P -> ff P <> [] -> x0 < n ->
  (forall us c, controls m (length (ff P)) us -> run_cost (ff P) (fL P) (fLT P) x0 us = Some c -> cleb start c = true) ->
  forall fuel, m ^ length (ff P) <= fuel ->
  batch_solution start fuel P x0 = Done (repeat 0 (length (ff P)), [], start).
Proof. exact C13_lemma. Qed.
Print Assumptions C13_batch_all_costs_large.

(** C14 *)
Theorem C14_constructor_accepts_exactly :
  forall (K : ordcost) (one : K) f L LT T (P : fsc K),
  checkAndExpand one f L LT T = Some P <-> constructs one f L LT T P.
Proof. exact C14_lemma. Qed.
Print Assumptions C14_constructor_accepts_exactly.

Theorem C14_accepted_is_valid :
  forall (K : ordcost) (one : K) f L LT T (P : fsc K) n m, checkAndExpand one f L LT T = Some P ->
  (forall a, (f = One a \/ exists l, f = Many l /\ In a l) -> arr_ok a /\ shape0 a = n /\ shape1 a = m /\
      Forall (Forall (fun x => x < n)) (adata a)) ->
  (forall a, (L = One a \/ exists l, L = Many l /\ In a l) -> arr_ok a) ->
  1 <= n -> 1 <= m -> valid n m P /\ ff P <> [].
Proof. exact C14_valid. Qed.
Print Assumptions C14_accepted_is_valid.

(** Non-vacuity: a problem with negative costs, three stages, unreachable states. *)
Definition exP : fsc Zcost :=
  @FSC Zcost [[[1; 2]; [0; 1]; [2; 0]]; [[2; 1]; [2; 2]; [0; 1]]; [[0; 1]; [1; 1]; [1; 0]]]
      [[[3; 1]; [0; 2]; [1; 5]]; [[1; 4]; [2; 2]; [7; -2]]; [[0; 1]; [3; 1]; [2; 2]]]%Z [5; 0; 1]%Z.
Example exP_valid : valid 3 2 exP.
Proof. constructor; simpl; try lia; repeat constructor. Qed.
Example exP_bounds : costs_between (K := Zcost) (-2)%Z 7%Z exP /\
  cltb (K := Zcost) (nmul (K := Zcost) 4 7%Z) (cadd (o := Zcost) (10 ^ 20)%Z (nmul (K := Zcost) 4 (-2)%Z)) = true.
Proof. split; [split; simpl; repeat constructor|reflexivity]. Qed.
Example exP_run : seqBackwardPass exP = Some ([[1;0;0];[0;0;1];[1;1;0]], [[0;3;0];[3;4;-1];[1;1;2];[5;0;1]]%Z) /\
  parBackwardPass (K := Zcost) (10 ^ 20)%Z exP = seqBackwardPass exP /\
  parFwdBwdPass (K := Zcost) (10 ^ 20)%Z exP 0 [[1;0;0];[0;0;1];[1;1;0]] [[0;3;0];[3;4;-1];[1;1;2];[5;0;1]]%Z
    = Some ([1;1;1], [0;2;1;1]) /\
  batch_solution (K := Zcost) (10 ^ 10)%Z 8 exP 0 = Done ([1;1;1], [0;2;1;1], 0%Z).
Proof. repeat split; vm_compute; reflexivity. Qed.
Example exP_law : feedback_law 3 2 3 [[1;0;0];[0;0;1];[1;1;0]].
Proof. split; [reflexivity|repeat constructor]. Qed.
Example C12_hypothesis : exists us c, controls 2 3 us /\ run_cost (ff exP) (fL exP) (fLT exP) 0 us = Some c /\
  cltb (K := Zcost) c (10 ^ 10)%Z = true.
Proof. exists [1;1;1], 0%Z. split; [split; [reflexivity|repeat constructor]|split; vm_compute; reflexivity]. Qed.
Example C14_example :
  checkAndExpand (K := Zcost) 1%Z (One (Arr 2 1 [[0];[1]])) (Many [Arr 2 1 [[4%Z : Zcost];[5%Z : Zcost]]; Arr 2 1 [[6%Z : Zcost];[7%Z : Zcost]]]) None None
    = Some (@FSC Zcost [[[0];[1]];[[0];[1]]] [[[4];[5]];[[6];[7]]]%Z [1;1]%Z) /\
  checkAndExpand (K := Zcost) 1%Z (One (Arr 2 1 [[0];[1]])) (One (Arr 2 1 [[4%Z : Zcost];[5%Z : Zcost]])) None None = None /\
  checkAndExpand (K := Zcost) 1%Z (One (Arr 2 1 [[0];[1]])) (One (Arr 1 1 [[4%Z : Zcost]])) None (Some 3) = None.
Proof. repeat split; vm_compute; reflexivity. Qed.
