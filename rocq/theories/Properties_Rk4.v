(** C41: the Runge-Kutta step of diffeq_np.py and diffeq_tf.py. *)
From mathcomp Require Import all_ssreflect all_algebra.
From Verif Require Import MxBase LqtModel Rk4Model Rk4Spec Rk4Proofs Rk4Ex.
Import Order.TTheory GRing.Theory Num.Theory.
Set Implicit Arguments. Unset Strict Implicit. Unset Printing Implicit Defensive.
Local Open Scope ring_scope.
Local Notation Qf := [realFieldType of rat].
Local Notation V1 := [lmodType rat of rat^o].

(** every calling form computes the classical step, in both libraries, and raises exactly when a slope cannot be
    evaluated *)
Theorem C41_classical_step (R : realFieldType) (V : lmodType R) (P : Type)
    (f1 : V -> option V) (f2 : V -> P -> option V) (f3 : V -> R -> option V)
    (f4 : V -> R -> P -> option V) (h : R) (x : V) (t : R) (p : P) (y : V) :
  [/\ rk4_x f1 h x = Some y <-> classical_step (fun z _ => f1 z) h x t y,
      rk4_xp f2 h x p = Some y <-> classical_step (fun z _ => f2 z p) h x t y,
      rk4_xt f3 h x t = Some y <-> classical_step f3 h x t y,
      rk4_xtp f4 h x t p = Some y <-> classical_step (fun z s => f4 z s p) h x t y
    & tf_rk4 f4 h x t p = Some y <-> classical_step (fun z s => f4 z s p) h x t y].
Proof. exact: C41_forms_l. Qed.
Print Assumptions C41_classical_step.
Example C41_classical_step_ex : rk4_x (fun z : V1 => Some (- z)) 1 1 = Some (3%:R / (4%:R * 2%:R) : rat).
Proof. exact: (ex_decay Qf). Qed.

(** right-hand sides that are polynomials of degree at most three in time, with vector coefficients, are integrated
    exactly *)
Theorem C41_exact_for_cubics (R : realFieldType) (V : lmodType R) (c : seq V) (h : R) (x : V) (t : R) :
  (size c <= 4)%N ->
  rk4_xt (fun _ s => Some (vpoly c s)) h x t = Some (x + vpoly_int c t h).
Proof. exact: C41_cubic_l. Qed.
Print Assumptions C41_exact_for_cubics.
Example C41_exact_for_cubics_ex :
  rk4_xt (fun _ s => Some (vpoly [:: 0; 0; 0; 1 : V1] s)) 1 0 0 = Some (1 / 4%:R : rat).
Proof. exact: (ex_cubic Qf). Qed.

(** for linear systems the step is the exponential series up to the fourth power *)
Theorem C41_linear_systems (R : realFieldType) (V : lmodType R) (A : V -> V) (h : R) (x : V) (t : R) :
  linear_map A -> rk4_xt (fun z _ => Some (A z)) h x t = Some (exp_upto 4 A h x).
Proof. exact: C41_linear_l. Qed.
Print Assumptions C41_linear_systems.
Example C41_linear_systems_ex :
  linear_map (fun z : V1 => - z) /\ exp_upto 4 (fun z : V1 => - z) 1 1 = 3%:R / (4%:R * 2%:R) :> rat.
Proof. exact: (ex_linear Qf). Qed.

(** the step commutes with affine changes of variable, including the cases where it raises *)
Theorem C41_affine_covariance (R : realFieldType) (V W : lmodType R) (T : V -> W) (b : W)
    (f : V -> R -> option V) (g : W -> R -> option W) (h : R) (x : V) (t : R) :
  linear_map T -> (forall z s, g (T z + b) s = omap T (f z s)) ->
  rk4_xt g h (T x + b) t = omap (fun y => T y + b) (rk4_xt f h x t).
Proof. exact: C41_affine_l. Qed.
Print Assumptions C41_affine_covariance.
Example C41_affine_covariance_ex :
  rk4_xt (fun (w : V1) _ => Some (- (w - 1))) 1 ((2%:R : rat) + 1) 0 = Some (2%:R * (3%:R / (4%:R * 2%:R)) + 1 : rat).
Proof. exact: (ex_affine Qf). Qed.
