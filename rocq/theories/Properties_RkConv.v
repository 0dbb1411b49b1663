(** C94: order four of the Runge-Kutta step, and of the regulator's backward pass with method 'rk4', over the real numbers. *)
From Coq Require Import Reals.
From mathcomp Require Import all_ssreflect all_algebra.
From Verif Require Import RealF MxBase LqtModel Rk4Model Rk4Spec ClqtSpec ClqrModel ClqrSpec ClqrEx RealExpSpec ClqrOptSpec ClqrOptEx RkConvSpec RkConv RkConvEx.
Import Order.TTheory GRing.Theory Num.Theory.
Set Implicit Arguments. Unset Strict Implicit. Unset Printing Implicit Defensive.
Local Open Scope ring_scope.

(** ** C94 *)
(** The N points computed with step T / N stay within D / N^4 of a solution of dz/dt = f(z), D independent of N. *)
Theorem C94_step_order (k l : nat) (f : 'M[Rf]_(k, l) -> 'M[Rf]_(k, l)) (z : R -> 'M[Rf]_(k, l)) (T : Rf) : quadratic f -> 0 <= T -> solves f z 0 T ->
  exists (D : Rf) N0, forall N, (N0 <= N)%N -> (0 < N)%N -> forall xs : nat -> 'M[Rf]_(k, l), xs 0%N = z 0 ->
  (forall i, (i < N)%N -> rk4_x (V := matrix_lmodType Rf k l) (fun x => Some (f x)) (T / N%:R) (xs i) = Some (xs i.+1)) ->
  forall i, (i <= N)%N -> within (D / N%:R ^+ 4) (xs i) (z (i%:R * (T / N%:R))%R).
Proof. exact: rk4_order4. Qed.
Print Assumptions C94_step_order.
Example C94_step_order_ex (T : Rf) : quadratic ex_quad /\ solves ex_quad ex_hyp 0 T.
Proof. exact (conj ex_quadratic (ex_quad_solves T)). Qed.

(** The backward pass with method 'rk4' does not raise and its value matrices and gains differ by at most D / steps^4 from
    those of method 'exact', which C92 shows to be optimal. *)
Theorem C94_regulator (n m : nat) (q : clqr Rf n m) : symm (qU q) -> pd (qU q) -> symm (qX q) -> psd (qX q) -> symm (qXT q) -> psd (qXT q) ->
  0 <= qT q -> exists (D : Rf) N0, forall steps, (N0 <= steps)%N -> (0 < steps)%N ->
  exists Ks Ss Ks' Ss', [/\ clqr_seqBackwardPass expmR q steps None None Rk4 = Some (Ks, Ss) /\ size Ks = steps /\ size Ss = steps.+1,
    clqr_seqBackwardPass expmR q steps None None Exact = Some (Ks', Ss'),
    forall i, (i <= steps)%N -> within (D / steps%:R ^+ 4) (nth 0 Ss i) (nth 0 Ss' i) &
    forall i, (i < steps)%N -> within (D / steps%:R ^+ 4) (nth 0 Ks i) (nth 0 Ks' i)].
Proof. exact: reg_rk4_order4. Qed.
Print Assumptions C94_regulator.
Example C94_regulator_ex : let q := ex_reg (1 : Rf) 0 in
  [/\ symm (qU q) /\ pd (qU q), symm (qX q) /\ psd (qX q), symm (qXT q) /\ psd (qXT q) & 0 <= qT q].
Proof. exact: ex_opt_hyp. Qed.
