(** Property theorems about the shipped one-dimensional models and their grids (C90, C91). *)
From mathcomp Require Import all_ssreflect all_algebra.
From Verif Require Import MxBase HjbModel ShootModel ModGridSpec ModGrid.
Import Order.TTheory GRing.Theory Num.Theory.
Set Implicit Arguments. Unset Strict Implicit. Unset Printing Implicit Defensive.
Local Open Scope ring_scope.
Local Notation Qf := [realFieldType of rat].

(** C90: on the shipped upwind model the upwind pass returns, at every grid point and block boundary, the least terminal
    cost of the Euler discretisation over all controls between zero and one (not only those of the grid) *)
Theorem C90_upwind_optimal (R : realFieldType) (nx nu blocks steps : nat) :
  (2 < nx)%N -> (1 < nu)%N -> (0 < blocks)%N -> (0 < steps)%N ->
  let M := upwind_model R nx nu in let dt := md_T M / blocks%:R / steps%:R in
  exists Vs, [/\ seqBackwardPass_upwind (md_f M) (md_L M) (md_LT M) (md_T M) blocks steps (md_xs M) (md_us M) = Some Vs,
    size Vs = blocks.+1, forall k, (k <= blocks)%N -> size (nth [::] Vs k) = nx &
    forall k i, (k <= blocks)%N -> (i < nx)%N ->
      best_euler (md_f M) (md_LT M) dt ((blocks - k) * steps) (nth 0 (md_xs M) i) (nth 0 (nth [::] Vs k) i)].
Proof. exact: up_best. Qed.
Print Assumptions C90_upwind_optimal.
Example C90_upwind_optimal_ex : let M := upwind_model Qf 3 2 in exists Vs,
  [/\ seqBackwardPass_upwind (md_f M) (md_L M) (md_LT M) 1 1 1 [:: - 1; 0; 1] [:: 0; 1] = Some Vs,
      md_xs M = [:: - 1; 0; 1], md_us M = [:: 0; 1] & nth [::] Vs 0 = [:: 1; 0; - 2%:R]].
Proof. exact: ex_up. Qed.

(** C91: the grids are equidistant and include both end points, ... *)
Theorem C91_grids (R : realFieldType) (nx nu : nat) : (1 < nx)%N -> (1 < nu)%N ->
  [/\ uniform_grid (- 2%:R) 2%:R nx (md_xs (linear_model R nx nu)) /\ uniform_grid (- 2%:R) 2%:R nu (md_us (linear_model R nx nu)),
      uniform_grid (- 3%:R) 3%:R nx (md_xs (velocity_model R nx nu)) /\ uniform_grid (- 2%:R) 2%:R nu (md_us (velocity_model R nx nu)) &
      uniform_grid (- 1) 1 nx (md_xs (upwind_model R nx nu)) /\ uniform_grid 0 1 nu (md_us (upwind_model R nx nu))].
Proof. exact: grids. Qed.
Print Assumptions C91_grids.
(** ... the bound on the time step holds for the linear model with at least nx - 1 steps and not with fewer, ... *)
Theorem C91_linear (R : realFieldType) (nx nu blocks steps : nat) :
  (1 < nx)%N -> (1 < nu)%N -> (0 < blocks)%N -> (0 < steps)%N -> let M := linear_model R nx nu in
  step_bound (md_f M) (md_T M / blocks%:R / steps%:R) (md_xs M) (md_us M) <-> (nx.-1 <= blocks * steps)%N.
Proof. exact: linear_bound. Qed.
Print Assumptions C91_linear.
(** ... for the upwind model with at least half as many and not with fewer, ... *)
Theorem C91_upwind (R : realFieldType) (nx nu blocks steps : nat) :
  (1 < nx)%N -> (1 < nu)%N -> (0 < blocks)%N -> (0 < steps)%N -> let M := upwind_model R nx nu in
  step_bound (md_f M) (md_T M / blocks%:R / steps%:R) (md_xs M) (md_us M) <-> (nx.-1 <= 2 * (blocks * steps))%N.
Proof. exact: upwind_bound. Qed.
Print Assumptions C91_upwind.
(** ... and for the velocity model it is enough to have half as many *)
Theorem C91_velocity (R : realFieldType) (nx nu blocks steps : nat) :
  (1 < nx)%N -> (1 < nu)%N -> (0 < blocks)%N -> (0 < steps)%N -> let M := velocity_model R nx nu in
  (nx.-1 <= 2 * (blocks * steps))%N -> step_bound (md_f M) (md_T M / blocks%:R / steps%:R) (md_xs M) (md_us M).
Proof. exact: velocity_bound. Qed.
Print Assumptions C91_velocity.
(** with four steps the bound holds on five grid points and not on six *)
Example C91_linear_ex : let B nx := let M := linear_model Qf nx 2 in step_bound (md_f M) (md_T M / 2%:R / 2%:R) (md_xs M) (md_us M) in
  B 5%N /\ ~ B 6%N.
Proof. exact: ex_bound. Qed.
