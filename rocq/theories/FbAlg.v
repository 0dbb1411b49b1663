(** Algebra behind the forward equations of the block elements. *)
From mathcomp Require Import all_ssreflect all_algebra.
From Verif Require Import MxBase LqtModel.
Import Order.TTheory GRing.Theory Num.Theory.
Set Implicit Arguments. Unset Strict Implicit. Unset Printing Implicit Defensive.
Local Open Scope ring_scope.

Lemma perm4 (V : zmodType) (a p r s : V) : a + (p + r) + s = p + s + r + a.
Proof. by rewrite addrC addrA [s + a]addrC -addrA addrC [s + _]addrA [s + p]addrC. Qed.
Lemma perm4b (V : zmodType) (a b c x : V) : a + b - c + x = x + a + (b - c).
Proof. by rewrite -[a + b - c]addrA addrC addrA. Qed.
Section Alg.
Variable R : realFieldType.
Variable n : nat.
Implicit Types A C J P Q F N X : 'M[R]_n.
Lemma fwA_alg A P Q0 F N J X Rr : A *m P = 1%:M -> P *m A = 1%:M -> - F *m P + N *m Q0 = P *m - F + Rr *m X -> Q0 = J *m P ->
  A *m F - A *m N *m J = F *m A - (A *m Rr) *m X *m A.
Proof.
move=> AP PA E EQ.
have : A *m (- F *m P + N *m Q0) *m A = A *m (P *m - F + Rr *m X) *m A by rewrite E.
rewrite EQ !mulmxDr !mulmxDl !mulmxA !mulmxN !mulNmx AP -![_ *m P *m A]mulmxA PA !mulmx1 mul1mx => /(congr1 (fun Z => - Z)).
by rewrite !opprD !opprK.
Qed.
Lemma fwC_alg A C P Rr F N X : A *m P = 1%:M -> C = A *m Rr ->
  (F *m A - C *m X *m A) *m Rr + A *m (P *m N + Rr *m F^T) = F *m C - C *m X *m C + C *m F^T + N.
Proof.
move=> AP EC; rewrite mulmxBl mulmxDr -![_ *m A *m Rr]mulmxA -EC mulmxA AP mul1mx [A *m (Rr *m _)]mulmxA -EC -!addrA; congr (_ + (_ + _)).
exact: addrC.
Qed.
Lemma fwJ_alg P R12 Q0 R22 F N X A J : P *m A = 1%:M -> Q0 = J *m P -> X *m P + F^T *m Q0 = Q0 *m - F + R22 *m X ->
  - F *m P + N *m Q0 = P *m - F + R12 *m X -> - (- F^T *m J - J *m F + J *m N *m J - X) = (R22 - J *m R12) *m X *m A.
Proof.
move=> PA EQ e1 e2; have QA : Q0 *m A = J by rewrite EQ -mulmxA PA mulmx1.
have e1' : X + F^T *m J = (Q0 *m - F + R22 *m X) *m A by rewrite -e1 mulmxDl -!mulmxA PA QA mulmx1.
have e2' : J *m (- F + N *m J) = J *m (P *m - F + R12 *m X) *m A by rewrite -e2 -mulmxA mulmxDl -!mulmxA PA QA mulmx1.
have -> : - (- F^T *m J - J *m F + J *m N *m J - X) = X + F^T *m J - J *m (- F + N *m J).
  rewrite mulmxDr mulmxN mulNmx mulmxA !opprD !opprK; exact: perm4b.
rewrite e1' e2' EQ mulmxDr mulmxA -mulmxBl; congr (_ *m A).
by rewrite opprD addrACA subrr add0r mulmxBl mulmxA.
Qed.
End Alg.
