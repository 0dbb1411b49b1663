(** Specifications for the continuous-time regulator. *)
From mathcomp Require Import all_ssreflect all_algebra.
From Verif Require Import MxBase LqtModel ClqtModel ClqtSpec ClqrModel.
Import Order.TTheory GRing.Theory Num.Theory.
Set Implicit Arguments. Unset Strict Implicit. Unset Printing Implicit Defensive.
Local Open Scope ring_scope.

Section Spec.
Variable R : realFieldType.
Variables n m : nat.

(** the tracking problem with the same constant matrices, no offset, the state itself as output and zero references *)
Definition tracker (q : clqr R n m) : clqt R n m n n :=
  Clqt (fun _ => qF q) (fun _ => qL q) (fun _ => qX q) (fun _ => qU q) (qXT q) (fun _ => 0) (fun _ => 1%:M) (fun _ => 0) 1%:M 0 (qT q).

(** results of the tracker's backward passes whose affine parts are all zero *)
Definition no_affine (r : seq 'M[R]_(m, n) * seq 'M[R]_n) : bwd_res R n m :=
  (r.1, nseq (size r.1) 0, r.2, nseq (size r.2) 0).

(** D is the derivative of V at s, with a remainder of second order *)
Definition derivative k l (V : R -> 'M[R]_(k, l)) (s : R) (D : 'M[R]_(k, l)) :=
  exists d B, 0 < d /\ forall g, `|g| <= d -> within (B * g ^+ 2) (V (s + g)) (V s + g *: D).

(** What is assumed of the matrix exponential.  [exponential_of expm M]: s -> expm (s M) is the one-parameter group with
    generator M. *)
Variable expm : forall n, 'M[R]_n -> 'M[R]_n.
Definition exponential_of k (M : 'M[R]_k) :=
  (forall a b, expm ((a + b) *: M) = expm (a *: M) *m expm (b *: M)) /\ expm 0 = 1%:M :> 'M[R]_k /\
  derivative (fun h => expm (h *: M)) 0 M.
(** a power series commutes with transposition, and A P = P B gives expm(A) P = P expm(B) *)
Definition natural_exp :=
  (forall k (A : 'M[R]_k), expm A^T = (expm A)^T) /\
  (forall k l (A : 'M[R]_k) (B : 'M[R]_l) (P : 'M[R]_(k, l)), A *m P = P *m B -> expm A *m P = P *m expm B).
End Spec.
