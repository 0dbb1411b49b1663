(** Specification vocabulary for direct shooting (C85-C89). *)
From mathcomp Require Import all_ssreflect all_algebra.
From Verif Require Import MxBase SqpModel SqpSpec ShootModel.
Import Order.TTheory GRing.Theory Num.Theory.
Set Implicit Arguments. Unset Strict Implicit. Unset Printing Implicit Defensive.
Local Open Scope ring_scope.

Section Spec.
Variable R : realFieldType.
Variables g L : R -> R -> R.

(** The classical Runge-Kutta step of length h for dx/dt = g(x, u(t)) from x at time t: the four points at which the
    slope is taken, the state reached, and the cost of the step, which is the same weighted mean of the running cost. *)
Section Step.
Variables (u : R -> R) (h x t : R).
Definition pt1 : R := x.
Definition pt2 : R := x + h / 2%:R * g pt1 (u t).
Definition pt3 : R := x + h / 2%:R * g pt2 (u (t + h / 2%:R)).
Definition pt4 : R := x + h * g pt3 (u (t + h / 2%:R)).
Definition weighted_mean (F : R -> R -> R) : R :=
  (F pt1 (u t) + 2%:R * F pt2 (u (t + h / 2%:R)) + 2%:R * F pt3 (u (t + h / 2%:R)) + F pt4 (u (t + h))) / 6%:R.
Definition state_after : R := x + h * weighted_mean g.
Definition step_cost : R := h * weighted_mean L.
End Step.

(** A control is a function of time on each of the steps i = 0, ..., n-1 of length h; states at the times i h and the
    cost of all steps *)
Definition control := nat -> R -> R.
Fixpoint simulate (u : control) (h x0 : R) (i : nat) : R :=
  if i is j.+1 then state_after (u j) h (simulate u h x0 j) (j%:R * h) else x0.
Definition simulated_cost (u : control) (h x0 : R) (n : nat) : R :=
  \sum_(i < n) step_cost (u i) h (simulate u h x0 i) (i%:R * h).

(** piecewise linear: value a_i at the beginning of step i, slope b_i *)
Definition piecewise (a b : seq R) (h : R) : control := fun i t => nth 0 a i + nth 0 b i * (t - i%:R * h).
(** continuous and piecewise linear: value u0 at time 0, slope b_i *)
Definition broken_line (u0 : R) (b : seq R) (h : R) : control :=
  fun i t => u0 + h * (\sum_(j < i) nth 0 b j) + nth 0 b i * (t - i%:R * h).
Definition continuous_control (u : control) (h : R) (n : nat) : Prop :=
  forall i, (i.+1 < n)%N -> u i (i.+1%:R * h) = u i.+1 (i.+1%:R * h).
End Spec.

Section Lq.
Variable R : realFieldType.
(** affine dynamics *)
Definition affine_dynamics (g : R -> R -> R) (p q r : R) : Prop := forall x u, g x u = p * x + q * u + r.
(** a quadratic running cost whose quadratic part is not negative, and positive unless the control is zero *)
Definition quadratic_cost (L : R -> R -> R) (lxx lxu luu lx lu l0 : R) : Prop :=
  forall x u, L x u = (lxx * x ^+ 2 + 2%:R * lxu * x * u + luu * u ^+ 2) / 2%:R + lx * x + lu * u + l0.
Definition convex_in_control (lxx lxu luu : R) : Prop := forall x u,
  0 <= lxx * x ^+ 2 + 2%:R * lxu * x * u + luu * u ^+ 2 /\ (u != 0 -> 0 < lxx * x ^+ 2 + 2%:R * lxu * x * u + luu * u ^+ 2).
End Lq.

(** v is the smallest value of F on the set D, attained at exactly one point *)
Definition unique_least (R : realFieldType) (X : Type) (D : X -> Prop) (F : X -> R) (v : R) : Prop :=
  exists x, [/\ D x, F x = v & forall y, D y -> y <> x -> v < F y].

(** ** the table of direct shooting *)
Section Table.
Variable R : realFieldType.
Variables (ad : forall m, ('cV[R]_m -> R) -> ('cV[R]_m -> 'cV[R]_1) -> nlp R m 1) (norm : forall m, 'cV[R]_m -> R).
Variables g L : R -> R -> R.
(** the controls which a vector of unknowns stands for: values and slopes by turns, or the first value and the slopes *)
Definition values_and_slopes m (theta : 'cV[R]_m) (h : R) : control R :=
  fun i t => nth 0 (vec theta) (2 * i) + nth 0 (vec theta) (2 * i + 1) * (t - i%:R * h).
Definition first_and_slopes m (theta : 'cV[R]_m) (h : R) : control R :=
  broken_line (nth 0 (vec theta) 0) (behead (vec theta)) h.
(** v is the cost at what the SQP solver returns, started from zero, when it is given the simulated cost as objective, the
    deviation from xf at the end as constraint, and the derivatives which automatic differentiation finds for these two;
    nan if the solver gives nan *)
Definition solver_cost m (U : 'cV[R]_m -> R -> control R) (h : R) (n : nat) (x0 xf : R) (k : nat) (v : option R) : Prop :=
  exists Q : nlp R m 1, [/\ pf Q =1 (fun th => simulated_cost g L (U th h) h x0 n),
    pc Q =1 (fun th => (simulate g (U th h) h x0 n - xf)%:M), Q = with_ad ad (pf Q) (pc Q) &
    v = omap (fun r => pf Q r.1.1) (local_eq_fast (@norm m) Q 0 k)].
(** entry (i, j) of a table *)
Definition entry (tab : seq (seq (option R))) i j : option R := nth None (nth [::] tab i) j.
(** a table with as many rows and columns as xs has numbers, whose entry (i, j) is P x_i x_j *)
Definition table_of (xs : seq R) (P : R -> R -> option R -> Prop) (tab : seq (seq (option R))) : Prop :=
  [/\ size tab = size xs, forall i, (i < size xs)%N -> size (nth [::] tab i) = size xs &
      forall i j, (i < size xs)%N -> (j < size xs)%N -> P (nth 0 xs i) (nth 0 xs j) (entry tab i j)].
(** derivatives do not depend on how a function is written *)
Definition extensional_ad : Prop := forall m f f' c c', f =1 f' -> c =1 c' ->
  [/\ pdf (@ad m f c) =1 pdf (ad f' c'), pdc (ad f c) =1 pdc (ad f' c'), pdl (ad f c) =2 pdl (ad f' c') & phl (ad f c) =2 phl (ad f' c')].
End Table.
