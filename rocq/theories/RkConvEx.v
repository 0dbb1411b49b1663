(** Concrete cases for the convergence theorems. *)
From Coq Require Import Reals Lra.
From Coquelicot Require Import Coquelicot.
From mathcomp Require Import all_ssreflect all_algebra.
From Verif Require Import RealF MxBase Rk4Spec RealExpSpec RealExp ClqrOpt RkConvSpec.
Import Order.TTheory GRing.Theory Num.Theory.
Set Implicit Arguments. Unset Strict Implicit. Unset Printing Implicit Defensive.
Local Open Scope ring_scope.
Delimit Scope R_scope with Re.

(** dx/dt = - x^2 has the solution 1 / (1 + t) *)
Definition ex_quad (x : 'M[Rf]_1) : 'M[Rf]_1 := - (x *m x).
Definition ex_hyp (t : R) : 'M[Rf]_1 := ((/ (1 + t))%Re : Rf)%:M.
Lemma ex_quadratic : quadratic ex_quad.
Proof.
exists 0, (fun _ => 0), (fun x y => - (x *m y)); split; first by move=> a x y; rewrite scaler0 addr0.
  split=> z a x y; first by rewrite mulmxDr -scalemxAr opprD scalerN.
  by rewrite mulmxDl -scalemxAl opprD scalerN.
by move=> x; rewrite !add0r.
Qed.
Lemma ex_quad_solves (T : Rf) : solves ex_quad ex_hyp 0 T.
Proof.
have d (t : Rf) : 0 <= t -> mderiv ex_hyp t (ex_quad (ex_hyp t)).
  move=> /RleP t0 i j; rewrite !ord1 /ex_quad /ex_hyp -scalar_mxM !mxE !mulr1n.
  apply: (dlim_ext (f := fun t => (/ (1 + t))%Re)) => [s|]; first by rewrite mxE mulr1n.
  apply/is_derive_Reals; have t0' : (0 <= t)%Re by [].
  auto_derive; first lra.
  rewrite -[(_ * _)%R]/(Rmult _ _) -[(- _)%R]/(Ropp _); field; lra.
by split=> t /andP [h1 h2]; [exact: mderiv_cont (d t h1) | exact: d (ltW h1)].
Qed.
