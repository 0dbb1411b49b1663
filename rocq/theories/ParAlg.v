(** Matrix identities used for the convergence of the parallel pass. *)
From Coq Require Import Ring Field.
From mathcomp Require Import all_ssreflect all_algebra zify.
From Verif Require Import MxBase LqtModel LqtCore LinComb.
Import Order.TTheory GRing.Theory Num.Theory.
Set Implicit Arguments. Unset Strict Implicit. Unset Printing Implicit Defensive.
Local Open Scope ring_scope.

Section Alg.
Variable R : realFieldType.
Variable n : nat.
Implicit Types A C J F N X P : 'M[R]_n.
Lemma as_alg X F N J P12 P22 : symm X -> symm N ->
  (X *m P12 + F^T *m P22)^T - ((- F *m P12 + N *m P22)^T *m J + P12^T *m - (- F^T *m J - J *m F + J *m N *m J - X)) =
  (P22^T - P12^T *m J) *m F - (P22^T - P12^T *m J) *m N *m J.
Proof. move=> sX sN; mxexp; rewrite sX sN; mxexp; abel. Qed.
Lemma cs_alg A F N J P12 P22 : (A *m F - A *m N *m J) *m P12 + A *m (- F *m P12 + N *m P22) = A *m N *m (P22 - J *m P12).
Proof. mxabel. Qed.
Lemma ric_alg J F N X : X + (J *m F + F^T *m J) + - (J *m N *m J) = - (- F^T *m J - J *m F + J *m N *m J - X).
Proof. mxabel. Qed.
Lemma ric_alg2 J F N X : - - (- F^T *m J - J *m F + J *m N *m J - X) = - J *m F + J *m N *m J - F^T *m J - X.
Proof. mxabel. Qed.
End Alg.
