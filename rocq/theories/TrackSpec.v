(** Tracking problems with constant data as regulation problems for the state extended by a one (C99, C100). *)
From mathcomp Require Import all_ssreflect all_algebra.
From Verif Require Import MxBase LqtModel ClqtModel ClqrModel.
Import Order.TTheory GRing.Theory Num.Theory.
Set Implicit Arguments. Unset Strict Implicit. Unset Printing Implicit Defensive.
Local Open Scope ring_scope.

Section Spec.
Variable R : realFieldType.
Variables n m p pT : nat.
Variable P : clqt R n m p pT.

(** the data of the tracking problem do not depend on time; the weights are symmetric and U is positive definite *)
Definition constant : Prop := forall t,
  [/\ kF P t = kF P 0 /\ kL P t = kL P 0, kX P t = kX P 0 /\ kU P t = kU P 0, kc P t = kc P 0, kH P t = kH P 0 & kr P t = kr P 0].
Definition weights_ok : Prop := [/\ symm (kX P 0), symm (kXT P), symm (kU P 0) & pd (kU P 0)].

(** The regulation problem for the state (x, 1): the last component is constant, and H x - r is the matrix (H, -r) times the
    extended state. *)
Definition extended : clqr R (n + 1) m :=
  let N := row_mx (kH P 0) (- kr P 0) in let NT := row_mx (kHT P) (- krT P) in
  Clqr (block_mx (kF P 0) (kc P 0) 0 0) (col_mx (kL P 0) 0) (N^T *m kX P 0 *m N) (kU P 0) (NT^T *m kXT P *m NT) (kT P).
Definition extend (x : 'cV[R]_n) : 'cV[R]_(n + 1) := col_mx x 1%:M.
End Spec.

Section Split.
Variable R : realFieldType.
Variables n m : nat.
(** a gain (K, -d) of the extended state is a gain and an offset; a value matrix ((S, -v), (-v', s)) is a matrix and a vector *)
Definition split_backward (r : seq 'M[R]_(m, n + 1) * seq 'M[R]_(n + 1)) : bwd_res R n m :=
  (map lsubmx r.1, map (fun K => - rsubmx K) r.1, map ulsubmx r.2, map (fun S => - ursubmx S) r.2).
(** the states without the one *)
Definition split_states (r : seq 'cV[R]_m * seq 'cV[R]_(n + 1)) : seq 'cV[R]_m * seq 'cV[R]_n := (r.1, map usubmx r.2).
End Split.
