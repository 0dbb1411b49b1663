(** A concrete case for the existence theorems, without a solution in closed form. *)
From Coq Require Import Reals.
From mathcomp Require Import all_ssreflect all_algebra.
From Verif Require Import RealF MxBase LqtModel ClqtModel ClqtSpec RealExpSpec TrackOptSpec TvarSpec TvarEx TvarConvEx TvarExistSpec.
Import Order.TTheory GRing.Theory Num.Theory.
Set Implicit Arguments. Unset Strict Implicit. Unset Printing Implicit Defensive.
Local Open Scope ring_scope.
Delimit Scope R_scope with Re.

(** dx/dt = t x + t + u, running cost 1/2 (t (x - (t - 1))^2 + (1 + t) u^2), terminal cost 1/2 (x - 1)^2, on [0, 1] *)
Definition ex_swing : clqt Rf 1 1 1 1 :=
  Clqt (fun t => t%:M) (fun _ => 1%:M) (fun t => t%:M) (fun t => (1 + t)%:M) 1%:M (fun t => t%:M) (fun _ => 1%:M) (fun t => (t - 1)%:M) 1%:M 1%:M 1.
Lemma qf_sc (a : Rf) (x : 'cV[Rf]_1) : qf a%:M x = a * x 0 0 ^+ 2.
Proof.
rewrite /qf /sc mxE big_ord1 mul_mx_scalar !mxE -mulrA; congr (_ * _); by rewrite expr2.
Qed.
Lemma nz_sc (x : 'cV[Rf]_1) : x != 0 -> x 0 0 != 0.
Proof. by apply: contraNneq => e; apply/eqP/matrixP => i j; rewrite !ord1 e mxE. Qed.
Lemma swing_convex : convex_weights ex_swing.
Proof.
split.
- split=> [|t /andP [h _]] /=; first by rewrite /symm trmx1.
  split; rewrite /symm ?tr_scalar_mx //.
  by move=> x /nz_sc nz; rewrite qf_sc mulr_gt0 ?exprn_even_gt0 //= ltr_paddr ?ltr01.
- by move=> x; rewrite qf_sc mul1r sqr_ge0.
- by move=> t /andP [h _] x; rewrite /= qf_sc mulr_ge0 // sqr_ge0.
Qed.
Lemma swing_lip : lipschitz_data ex_swing.
Proof.
have h (a : Rf) : lipschitz_on 1 (fun t => (t + a)%:M : 'M[Rf]_1).
  by exists 1 => s t _ _ i j; rewrite !ord1 !mxE eqxx !mulr1n mul1r opprD addrACA subrr addr0.
have h0 : lipschitz_on 1 (fun t => t%:M : 'M[Rf]_1).
  by exists 1 => s t _ _ i j; rewrite !ord1 !mxE eqxx !mulr1n mul1r.
split; split; try exact: lip_const; try exact: h0; try exact: h.
by exists 1 => s t _ _ i j; rewrite !ord1 !mxE eqxx !mulr1n mul1r opprD addrACA subrr add0r.
Qed.
Lemma swing_all : [/\ 0 <= kT ex_swing, 0 < kT ex_swing, convex_weights ex_swing & lipschitz_data ex_swing].
Proof. split; [exact: ler01 | exact: ltr01 | exact: swing_convex | exact: swing_lip]. Qed.
