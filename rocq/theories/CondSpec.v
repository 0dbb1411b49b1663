(** Specification for condensing: problems without control outputs and cross terms, stacked controls. *)
From mathcomp Require Import all_ssreflect all_algebra.
From Verif Require Import MxBase LqtModel LqtSpec CondModel.
Import Order.TTheory GRing.Theory Num.Theory.
Set Implicit Arguments. Unset Strict Implicit. Unset Printing Implicit Defensive.
Local Open Scope ring_scope.

Section CondSpec.
Variable R : realFieldType.
Variables n m p : nat.

(** the tracking problem with the given stages (all of output dimension p) and final cost *)
Definition problem q (sts : seq (stage R n m p)) (XT : 'M[R]_q) (HT : 'M[R]_(q, n)) (rT : 'cV[R]_q) : lqt R n m :=
  Lqt [seq VStage s | s <- sts] XT HT rT.

(** condense reads only F, c, L, H, r, X, U: the other parameters must have their default values *)
Definition default_ZsM (s : stage R n m p) : Prop := [/\ sZ s = 1%:M, ss s = 0 & sM s = 0].
Definition symmetric_weights (s : stage R n m p) : Prop := symm (sX s) /\ symm (sU s).

(** a list all of whose members satisfy Q *)
Fixpoint every {A} (Q : A -> Prop) (l : seq A) : Prop := match l with [::] => True | a :: l' => Q a /\ every Q l' end.

(** entry k of a vector *)
Definition entry d (u : 'cV[R]_d) (k : nat) : R := if insub k is Some i then u i ord0 else 0.
(** the N vectors of size d stacked in u, first to last *)
Definition unpack d N (u : 'cV[R]_(N * d)) : seq 'cV[R]_d := [seq \col_(i < d) entry u (j * d + i) | j <- iota 0 N].
(** the controls packed into a list of condensed controls *)
Definition unroll d N (cus : seq 'cV[R]_(N * d)) : seq 'cV[R]_d := flatten [seq unpack u | u <- cus].

(** half the sum of the squared norms *)
Definition half_squares d (us : seq 'cV[R]_d) : R := (\sum_(u <- us) dot u u) / 2%:R.

(** every state at which a condensed step starts is visible in the costs of that step: following the uncontrolled,
    unshifted dynamics from a non-zero state, some output of the step is penalised *)
Fixpoint visible (sts : seq (stage R n m p)) (x : 'cV[R]_n) : Prop :=
  match sts with
  | [::] => False
  | s :: sts' => 0 < qf (sX s) (sH s *m x) \/ visible sts' (sF s *m x)
  end.

(** What condensing must achieve.  [bs] is the result of condense on the stages [sts] with Nc = N, the condensed
    problem C has the condensed stages and the final cost of the original problem P, and [conv] is convertUX. *)
Definition exact_condensing q N (sts : seq (stage R n m p)) (bs : seq (cblock R n m N)) (XT : 'M[R]_q) (HT : 'M[R]_(q, n))
    (rT : 'cV[R]_q) (conv : seq 'cV[R]_(N * m) -> seq 'cV[R]_n -> option (seq 'cV[R]_m * seq 'cV[R]_n)) : Prop :=
  let P := problem sts XT HT rT in let C := condensed bs XT HT rT in let T := size sts in
  [/\ (* the number of condensed steps is T / Nc rounded up *)
      (T <= size (stages C) * N < T + N)%N,
      (* every control list can be packed into condensed controls, with zeros after the horizon *)
      forall us : seq 'cV[R]_m, size us = T ->
        exists2 cus : seq 'cV[R]_(N * m), size cus = size (stages C) & unroll cus = us ++ nseq (size (stages C) * N - T) 0 &
      (* for all condensed controls: conversion gives the packed controls and the states of the original problem, the
         condensed states are every Nc-th of these, and the costs differ by a constant (and by the norm of the controls
         packed after the horizon) *)
      exists k, forall (x0 : 'cV[R]_n) (cus : seq 'cV[R]_(N * m)), size cus = size (stages C) ->
        let us := take T (unroll cus) in
        [/\ size us = T,
            conv cus (traj (stages C) x0 cus) = Some (us, traj (stages P) x0 us),
            traj (stages C) x0 cus = [seq nth 0 (traj (stages P) x0 us) (minn (N * i) T) | i <- iota 0 (size cus).+1] &
            total_cost C x0 cus = total_cost P x0 us + half_squares (drop T (unroll cus)) + k]].
End CondSpec.
