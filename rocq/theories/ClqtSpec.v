(** Specifications for the continuous-time tracker. *)
From mathcomp Require Import all_ssreflect all_algebra.
From Verif Require Import MxBase LqtModel ClqtModel.
Import Order.TTheory GRing.Theory Num.Theory.
Set Implicit Arguments. Unset Strict Implicit. Unset Printing Implicit Defensive.
Local Open Scope ring_scope.

Section Spec.
Variable R : realFieldType.
Variables n m p pT : nat.

(** entries differ by at most b *)
Definition within k l (b : R) (M N : 'M[R]_(k, l)) := forall i j, `|M i j - N i j| <= b.
Definition elem_within (b : R) (e f : elem R n) :=
  [/\ within b (eA e) (eA f), within b (eb e) (eb f), within b (eC e) (eC f), within b (eeta e) (eeta f) & within b (eJ e) (eJ f)].
(** e + h * d, parameter by parameter *)
Definition elem_move (h : R) (d e : elem R n) : elem R n :=
  Elem (eA e + h *: eA d) (eb e + h *: eb d) (eC e + h *: eC d) (eeta e + h *: eeta d) (eJ e + h *: eJ d).

(** the discrete problem obtained from the continuous one over [t, t + h] by Euler's method *)
Definition euler_stage (P : clqt R n m p pT) (t h : R) : stage R n m p :=
  Stage (1%:M + h *: kF P t) (h *: kL P t) (h *: kX P t) (h *: kU P t) (h *: kc P t) (kH P t) (kr P t) 1%:M 0 0.

(** Running cost plus the drift of the value function 1/2 x' S x - v' x: the expression minimised over u in the
    Hamilton-Jacobi-Bellman equation *)
Definition hamiltonian (P : clqt R n m p pT) (t : R) (Q : 'M[R]_n) (v : 'cV[R]_n) (x : 'cV[R]_n) (u : 'cV[R]_m) : R :=
  qf (kX P t) (kH P t *m x - kr P t) / 2%:R + qf (kU P t) u / 2%:R
  + dot (Q *m x - v) (kF P t *m x + kL P t *m u + kc P t).

(** Forward value function with parameters b, C: x has the value 1/2 w' C w when x = b + C w (infinity when there is no
    such w).  [fwd_bwd_cost] adds the backward value function 1/2 x' S x - v' x. *)
Definition fwd_bwd_cost (C : 'M[R]_n) (Q : 'M[R]_n) (v : 'cV[R]_n) (w x : 'cV[R]_n) : R :=
  qf C w / 2%:R + (qf Q x / 2%:R - dot v x).
(** x minimises the sum of the two value functions, and no other point does *)
Definition unique_minimiser (C : 'M[R]_n) (b : 'cV[R]_n) (Q : 'M[R]_n) (v x : 'cV[R]_n) :=
  exists w, x = b + C *m w /\
  forall w' x', x' = b + C *m w' ->
    fwd_bwd_cost C Q v w x <= fwd_bwd_cost C Q v w' x' /\
    (fwd_bwd_cost C Q v w' x' <= fwd_bwd_cost C Q v w x -> x' = x).
End Spec.
