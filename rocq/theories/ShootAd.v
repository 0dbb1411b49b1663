(** Central differences are exact derivatives of quadratic functions: an instance of automatic differentiation for the
    examples about direct shooting. *)
From Coq Require Import Ring Field.
From mathcomp Require Import all_ssreflect all_algebra.
From Verif Require Import MxBase LinComb LqtModel NlqtSpec SqpModel SqpSpec SqpProofs ShootModel ShootSpec Rk4Proofs ShootQuad.
Import Order.TTheory GRing.Theory Num.Theory.
Set Implicit Arguments. Unset Strict Implicit. Unset Printing Implicit Defensive.
Local Open Scope ring_scope.

Section Ad.
Variable R : realFieldType.
Add Ring Rr : (mc_ring R).
Add Field Rf : (mc_field R).
Ltac sfield := rsn R; field; repeat split; num_neq0 R.
Section M.
Variable m : nat.
Local Notation e i := (delta_mx i 0 : 'cV[R]_m).
Definition fd_grad (f : 'cV[R]_m -> R) (x : 'cV[R]_m) : 'cV[R]_m := \col_i ((f (x + e i) - f (x - e i)) / 2%:R).
Definition fd_hess (f : 'cV[R]_m -> R) (x : 'cV[R]_m) : 'M[R]_m := \matrix_(i, j) (f (x + e i + e j) - f (x + e i) - f (x + e j) + f x).
Definition fd_ad (f : 'cV[R]_m -> R) (c : 'cV[R]_m -> 'cV[R]_1) : nlp R m 1 :=
  Nlp f c (fd_grad f) (fun x => (fd_grad (fun z => c z 0 0) x)^T)
    (fun x lam => fd_grad (fun z => f z - dot lam (c z)) x) (fun x lam => fd_hess (fun z => f z - dot lam (c z)) x).

Lemma dot_e (w : 'cV[R]_m) i : dot w (e i) = w i 0.
Proof.
rewrite /dot /sc mxE (bigD1 i) //= !mxE !eqxx mulr1 big1 ?addr0 // => j ne.
by rewrite !mxE (negPf ne) mulr0.
Qed.
Lemma qp_add G c (x y : 'cV[R]_m) : symm G -> qp_cost G c (x + y) = qp_cost G c x + dot (G *m x + c) y + qf G y / 2%:R.
Proof. by move=> sG; rewrite /qp_cost (qfD _ _ sG) dotDr dotDl; sfield. Qed.
Lemma qf_neg (G : 'M[R]_m) (y : 'cV[R]_m) : qf G (- y) = qf G y.
Proof. by rewrite !qf_dot mulmxN dotNl dotNr opprK. Qed.
Section Q.
Variables (f : 'cV[R]_m -> R) (G : 'M[R]_m) (c : 'cV[R]_m) (c0 : R).
Hypothesis sG : symm G.
Hypothesis eF : forall z, f z = qp_cost G c z + c0.
Lemma fd_gradE x : fd_grad f x = G *m x + c.
Proof.
apply/matrixP => i j; rewrite ord1 mxE !eF !qp_add // dotNr qf_neg dot_e; sfield.
Qed.
Lemma fd_hessE x : fd_hess f x = G.
Proof.
apply/matrixP => i j; rewrite mxE !eF (qp_add _ _ _ sG) !(qp_add _ x _ sG) mulmxDr !dotDl.
have -> : dot (G *m e i) (e j) = G i j.
  by rewrite dot_e mxE (bigD1 i) //= mxE !eqxx mulr1 big1 ?addr0 => [|l ne]; rewrite ?mxE ?(negPf ne) ?mulr0 // -[in LHS]sG mxE.
by sfield.
Qed.
Lemma fd_grad_exact x : is_gradient f x (fd_grad f x).
Proof. by rewrite fd_gradE; apply: (grad_ext (fun z => esym (eF z))); exact: qp_gradient. Qed.
Lemma fd_hess_exact x : is_jacobian (fd_grad f) x (fd_hess f x).
Proof. by rewrite fd_hessE; apply: (jac_ext (fun z => esym (fd_gradE z))); exact: affine_jacobian. Qed.
End Q.
Lemma grad_jac (f : 'cV[R]_m -> R) x g : is_gradient f x g -> is_jacobian (fun z => (f z)%:M) x g^T.
Proof.
move=> H eps e0; have [d d0 B] := H eps e0; exists d => // h /B.
have -> : vnorm ((f (x + h))%:M - (f x)%:M - g^T *m h) = `|f (x + h) - f x - dot g h|.
  by rewrite /vnorm big_ord1 !mxE eqxx !mulr1n /dot /sc mxE.
by [].
Qed.
Lemma fd_exact (f : 'cV[R]_m -> R) (c : 'cV[R]_m -> 'cV[R]_1) : quad_f f -> quad_f (fun z => c z 0 0) ->
  exact_derivatives (fd_ad f c).
Proof.
move=> qf qc.
have ql lam : quad_f (fun z => f z - dot lam (c z)).
  apply: (@quad_ext _ _ (fun z => f z + (- lam 0 0) * c z 0 0)).
    by move=> z; rewrite /dot /sc mxE big_ord1 mxE mulNr.
  by apply: quad_add => //; apply: quad_scale.
split=> /=.
- by move=> x; case: qf => G [w [b [s E]]]; exact: (fd_grad_exact s E).
- move=> x; apply: (@jac_ext _ _ _ (fun z => (c z 0 0)%:M)); first by move=> z; rewrite -mx11_scalar.
  by apply: grad_jac; case: qc => G [w [b [s E]]]; exact: (fd_grad_exact s E).
- by move=> lam x; case: (ql lam) => G [w [b [s E]]]; exact: (fd_grad_exact s E).
- by move=> lam x; case: (ql lam) => G [w [b [s E]]]; exact: (fd_hess_exact s E).
Qed.
End M.
End Ad.
