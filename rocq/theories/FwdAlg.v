(** One Runge-Kutta step of an affine vector field. *)
From Coq Require Import Ring Field.
From mathcomp Require Import all_ssreflect all_algebra.
From Verif Require Import MxBase LqtModel LqtCore ClqtFwd2 LinComb Rk4Model Rk4Spec Rk4Proofs.
Import Order.TTheory GRing.Theory Num.Theory.
Set Implicit Arguments. Unset Strict Implicit. Unset Printing Implicit Defensive.
Local Open Scope ring_scope.

Section Aff.
Variable R : realFieldType.
Add Ring Rr : (mc_ring R).
Add Field Rf : (mc_field R).
Ltac sfield := rsn R; field; repeat split; num_neq0 R.
Variable n : nat.
Variables (A : 'M[R]_n) (c : 'cV[R]_n).
Local Notation half := (2%:R^-1 : R).
Definition ak1 (x : 'cV[R]_n) : 'cV[R]_n := A *m x + c.
Definition ak2 (h : R) x := ak1 x + half *: (h *: (A *m ak1 x)).
Definition ak3 (h : R) x := ak1 x + half *: (h *: (A *m ak2 h x)).
Lemma aff_rk4 h x : rk4_x (V := matrix_lmodType R n 1) (fun y => Some (A *m y + c)) h x =
  Some (x + h *: ak1 x + (h ^+ 2 / 6%:R) *: (A *m ak1 x + A *m ak2 h x + A *m ak3 h x)).
Proof.
rewrite /rk4_x !obindS; congr Some.
have e (y : 'cV[R]_n) : A *m (x + y) + c = ak1 x + A *m y by rewrite /ak1 mulmxDr addrAC.
rewrite !e -!scalemxAr -/(ak1 x) -/(ak2 h x) -/(ak3 h x) /rk4_sum.
set a1 := A *m ak1 x; set a2 := A *m ak2 h x; set a3 := A *m ak3 h x.
rewrite /ak2 /ak3 -/a1 -/a2; apply/matrixP => i j; rewrite !mxE.
by sfield.
Qed.
Lemma scal3 (a b g e : R) : a * (3%:R * b) * e * g = e * ((a * (b * g)) *+ 3).
Proof. by rewrite -mulr_natl; sfield. Qed.
Lemma scalT (T M D : R) : M != 0 -> T != 0 -> D / T * (T / M) ^+ 2 = T / M * (D / M).
Proof. by move=> M0 T0; rsn R; field; split; apply/eqP. Qed.
Lemma scal_sum (a b d e h w : R) : a * (h ^+ 2) + ((1 + w) * e + (b * h ^+ 2 + d * h ^+ 2)) = (1 + w) * e + (a + (b + d)) * h ^+ 2.
Proof. by rsn R; ring. Qed.
Lemma scal_gap (l d x h : R) : l * d * x * h ^+ 2 = l * (d * h ^+ 2) * x.
Proof. by rsn R; ring. Qed.
Lemma split_err (a x b s p r t : 'cV[R]_n) : a - x = (a - (b + p)) + ((b - s) + (p - r) + ((r - t) - (x - (s + t)))).
Proof. by apply/matrixP => i j; rewrite !mxE; abel. Qed.
End Aff.
