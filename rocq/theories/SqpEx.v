(** Concrete problems that meet the hypotheses of the theorems about sequential quadratic programming, and the
    counterexamples: quadratic problems, and fun = 0 with the constraint x^2 = 1 in one variable. *)
From Coq Require Import Ring Field.
From mathcomp Require Import all_ssreflect all_algebra.
From Verif Require Import MxBase LqtModel LqtCore NlqtSpec NlqtProofs NlqtEx SqpModel SqpSpec SqpProofs SqpBfgs.
Import Order.TTheory GRing.Theory Num.Theory.
Set Implicit Arguments. Unset Strict Implicit. Unset Printing Implicit Defensive.
Local Open Scope ring_scope.

Section Quad.
Variable R : realFieldType.
Variables n k : nat.
Definition quad_nlp (G : 'M[R]_n) (c0 : R) c (A : 'M[R]_(k, n)) b : nlp R n k :=
  Nlp (fun x => qp_cost G c x + c0) (fun x => A *m x - b) (fun x => G *m x + c) (fun _ => A)
      (fun x lam => G *m x + c - A^T *m lam) (fun _ _ => G).
Lemma vnorm_is_norm : is_norm (@vnorm R n).
Proof.
move=> v; split; first exact: vnorm_ge0.
by split=> [/vnorm_eq0|->]; [|exact: vnorm0].
Qed.
Lemma quad_exact G c0 c A b : symm G -> exact_derivatives (quad_nlp G c0 c A b).
Proof.
move=> sG; split=> /= [x|x|lam x|lam x]; [exact: qp_gradient|exact: affine_jacobian| |].
  have H := @qp_gradient R n G (c - A^T *m lam) (c0 + dot lam b) x sG.
  rewrite -addrA; apply: (grad_ext _ H) => z.
  rewrite /qp_cost dotBl dotBr [dot (_^T *m lam) z]dotMl trmxK.
  by move: (qf G z / 2%:R) (dot c z) (dot lam (A *m z)) (dot lam b) => q1 q2 q3 q4; abel.
apply: (jac_ext _ (@affine_jacobian R n n G (c - A^T *m lam) x)) => z; by rewrite addrA.
Qed.
Lemma quad_quadratic G c0 c A b : quadratic_problem (quad_nlp G c0 c A b) G c0 c A b.
Proof. by []. Qed.
End Quad.

Section Ex.
Variable R : realFieldType.
Add Ring Rr : (mc_ring R).
(** minimise |x|^2 / 2 subject to x_0 + x_1 = 1 *)
Definition exA : 'M[R]_(1, 2) := const_mx 1.
Lemma ex_qp_ok : qp_ok 1%:M exA.
Proof.
split; first exact: trmx1.
  by move=> z _ /eqP z0; rewrite qf_dot mul1mx dot_gt0.
move=> l /matrixP /(_ 0 0); rewrite !mxE big_ord_recl big_ord0 !mxE mul1r addr0 => e.
by apply/colP => i; rewrite (ord1 i) e mxE.
Qed.
Lemma ex_qp : exists Q : nlp R 2 1, exact_derivatives Q /\ quadratic_problem Q 1%:M 0 0 exA 1%:M.
Proof. by exists (quad_nlp 1%:M 0 0 exA 1%:M); split; [apply: quad_exact; exact: trmx1|exact: quad_quadratic]. Qed.
Lemma ex_regular : regular (quad_nlp 1%:M 0 0 exA 1%:M).
Proof. by move=> x; case: ex_qp_ok. Qed.

Lemma ex_bfgs : exists Q : nlp R 2 1, exact_derivatives Q /\ regular Q.
Proof. by exists (quad_nlp 1%:M 0 0 exA 1%:M); split; [apply: quad_exact; exact: trmx1|exact: ex_regular]. Qed.
Lemma ex_pd : symm (1%:M : 'M[R]_2) /\ pd (1%:M : 'M[R]_2).
Proof. by split; [exact: trmx1|move=> z z0; rewrite qf_dot mul1mx dot_gt0]. Qed.

(** fun = 0, con x = x^2 - 1 *)
Definition sq_nlp : nlp R 1 1 :=
  Nlp (fun _ => 0) (fun x => (x 0 0 ^+ 2 - 1)%:M) (fun _ => 0) (fun x => (2%:R * x 0 0)%:M)
      (fun x lam => (- (2%:R * lam 0 0 * x 0 0))%:M) (fun _ lam => (- (2%:R * lam 0 0))%:M).
Lemma dot1 (x y : 'cV[R]_1) : dot x y = x 0 0 * y 0 0.
Proof. by rewrite /dot /sc mxE big_ord_recl big_ord0 addr0 mxE. Qed.
Lemma scal1 (a : R) : (a%:M : 'cV[R]_1) 0 0 = a.
Proof. by rewrite mxE eqxx mulr1n. Qed.
Lemma sq_exact : exact_derivatives sq_nlp.
Proof.
split=> [x|x|lam x|lam x] eps e0 /=.
- exists 1 => [|h _]; first exact: ltr01.
  by rewrite !subrr dot0l subrr normr0 mulr_ge0 ?vnorm_ge0 // ltW.
- exists eps => // h lt.
  have -> : ((x + h) 0 0 ^+ 2 - 1)%:M - (x 0 0 ^+ 2 - 1)%:M - (2%:R * x 0 0)%:M *m h = (h 0 0 ^+ 2)%:M :> 'cV[R]_1.
    apply/colP => i; rewrite (ord1 i) mul_scalar_mx !mxE eqxx !mulr1n !expr2.
    by move: (x 0 0) (h 0 0) => a b; rsn R; ring.
  rewrite vnorm1 scal1 expr2 normrM -vnorm1 ler_wpmul2r ?vnorm_ge0 // ltW //.
- have l1 : 0 < `|lam 0 0| + 1 by rewrite ltr_spaddr ?ltr01 ?normr_ge0.
  exists (eps / (`|lam 0 0| + 1)) => [|h lt]; first by rewrite divr_gt0.
  have -> : 0 - dot lam ((x + h) 0 0 ^+ 2 - 1)%:M - (0 - dot lam (x 0 0 ^+ 2 - 1)%:M) - dot (- (2%:R * lam 0 0 * x 0 0))%:M h = - (lam 0 0 * h 0 0 * h 0 0).
    rewrite !dot1 !scal1 mxE !expr2; move: (x 0 0) (h 0 0) (lam 0 0) => a b c; by rsn R; ring.
  rewrite normrN !normrM -(vnorm1 h) ler_wpmul2r ?vnorm_ge0 //.
  have /ltW := lt; rewrite ler_pdivl_mulr // => le; apply: le_trans le.
  by rewrite mulrDr mulr1 mulrC ler_addl vnorm_ge0.
- exists 1 => [|h _]; first exact: ltr01.
  have -> : (- (2%:R * lam 0 0 * (x + h) 0 0))%:M - (- (2%:R * lam 0 0 * x 0 0))%:M - (- (2%:R * lam 0 0))%:M *m h = 0 :> 'cV[R]_1.
    apply/colP => i; rewrite (ord1 i) mul_scalar_mx !mxE eqxx !mulr1n.
    by move: (x 0 0) (h 0 0) (lam 0 0) => a b c; rsn R; ring.
  by rewrite vnorm0 mulr_ge0 ?vnorm_ge0 // ltW.
Qed.
Definition sq_x0 : 'cV[R]_1 := (4%:R^-1)%:M.
Definition sq_p : 'cV[R]_1 := (15%:R / 8%:R)%:M.
Lemma sq_reg (a : R) : a != 0 -> forall l : 'cV[R]_1, (a%:M : 'M[R]_1)^T *m l = 0 -> l = 0.
Proof.
move=> a0 l; rewrite tr_scalar_mx mul_scalar_mx => /eqP; rewrite scaler_eq0 (negbTE a0) /= => /eqP //.
Qed.
Lemma sq_jac : 2%:R * sq_x0 0 0 = 2%:R^-1.
Proof.
rewrite scal1 -[4%N]/((2 * 2)%N) natrM invfM mulrA mulfV ?mul1r // pnatr_eq0 //.
Qed.
Lemma sq_con : sq_x0 0 0 ^+ 2 - 1 = - (15%:R / 16%:R).
Proof.
rewrite scal1; have -> : (4%:R^-1 : R) ^+ 2 = 16%:R^-1 by rewrite exprVn -natrX.
apply: (mulIf (_ : 16%:R != 0)); first by rewrite pnatr_eq0.
rewrite mulrBl mulVf ?pnatr_eq0 // mulNr divfK ?pnatr_eq0 // mul1r.
by apply: oppr_inj; rewrite opprK opprB -(natrB _ (isT : (1 <= 16)%N)).
Qed.
(** every solution of the linearised constraint is this step *)
Lemma sq_step (G : 'M[R]_1) c : qp_ok G (2%:R * sq_x0 0 0)%:M ->
  exists lam, lqe_solve G c (2%:R * sq_x0 0 0)%:M (- (sq_x0 0 0 ^+ 2 - 1)%:M) = Some (sq_p, lam).
Proof.
move=> ok; have [p [lam E]] := lqe_some c (- (sq_x0 0 0 ^+ 2 - 1)%:M) ok; exists lam; rewrite E.
have [_] := lqe_kkt E; rewrite sq_jac sq_con mul_scalar_mx -scaleN1r => e; congr (Some (_, _)).
have n2 : 2%:R != 0 :> R by rewrite pnatr_eq0.
apply: (scalerI (invr_neq0 n2)); rewrite e; apply/colP => i; rewrite (ord1 i) !mxE eqxx !mulr1n.
rewrite mulN1r opprK -[16%N]/((2 * 8)%N) natrM invfM mulrCA //.
Qed.
Lemma sq_ok (G : 'M[R]_1) : symm G -> qp_ok G (2%:R * sq_x0 0 0)%:M.
Proof.
move=> sG; rewrite sq_jac; have n2 : 2%:R^-1 != 0 :> R by rewrite invr_neq0 // pnatr_eq0.
split=> // [z|]; last exact: sq_reg.
by rewrite mul_scalar_mx => /eqP; rewrite scaler_eq0 (negbTE n2) => /eqP.
Qed.
Lemma sq_con1 : (sq_x0 + sq_p) 0 0 ^+ 2 - 1 = 225%:R / 64%:R.
Proof.
rewrite mxE !scal1.
have n8 : 8%:R != 0 :> R by rewrite pnatr_eq0.
have -> : 4%:R^-1 + 15%:R / 8%:R = 17%:R / 8%:R :> R.
  apply: (mulIf n8); rewrite mulrDl !divfK // -[8%N]/((4 * 2)%N) natrM mulrA mulVf ?pnatr_eq0 // mul1r.
  by rewrite -natrD.
have n64 : 64%:R != 0 :> R by rewrite pnatr_eq0.
apply: (mulIf n64); rewrite divfK // mulrBl mul1r expr_div_n -!natrX divfK //.
by apply/eqP; rewrite subr_eq -natrD.
Qed.
Lemma sq_con2 : (sq_x0 + 2%:R^-1 *: sq_p) 0 0 ^+ 2 - 1 = 105%:R / 256%:R.
Proof.
rewrite !mxE eqxx !mulr1n.
have n8 : 16%:R != 0 :> R by rewrite pnatr_eq0.
have -> : 4%:R^-1 + 2%:R^-1 * (15%:R / 8%:R) = 19%:R / 16%:R :> R.
  rewrite mulrCA -invfM -natrM.
  apply: (mulIf n8); rewrite mulrDl !divfK // -[16%N]/((4 * 4)%N) natrM mulrA mulVf ?pnatr_eq0 // mul1r.
  by rewrite -natrD.
have n64 : 256%:R != 0 :> R by rewrite pnatr_eq0.
apply: (mulIf n64); rewrite divfK // mulrBl mul1r expr_div_n -!natrX divfK //.
by apply/eqP; rewrite subr_eq -natrD.
Qed.

(** C65 *)
Lemma early_stop_infeasible : exists (Q : nlp R 1 1) (x0 : 'cV[R]_1), exact_derivatives Q /\
  forall norm max_iter tol, is_norm norm -> (1 < max_iter)%N -> 0 <= tol -> tol < 1 ->
  exists x crit, [/\ local_eq norm Q x0 max_iter tol = Some (x, 1%N, crit), crit <= tol & 3%:R < pc Q x 0 0].
Proof.
exists sq_nlp, sq_x0; split=> [|norm mi tol nm]; first exact: sq_exact.
case: mi => [|[|mi]] // _ t0 t1; rewrite /local_eq [local_eq_loop]lock /= -lock.
have z : pdl sq_nlp sq_x0 0 = 0 by rewrite /= mxE mulr0 mul0r oppr0 raddf0.
have n0 : norm 0 = 0 by case: (nm 0) => _ [_ ->].
have sG : symm (phl sq_nlp sq_x0 0) by rewrite /symm /= tr_scalar_mx.
have [lam E] := sq_step 0 (sq_ok sG).
have S : sqp_step norm sq_nlp sq_x0 0 = Some (sq_x0 + sq_p, lam, norm (pdl sq_nlp sq_x0 0)).
  by rewrite /sqp_step [pdf _ _]/(0) [pdc _ _]/((2%:R * sq_x0 0 0)%:M) [pc _ _]/((sq_x0 0 0 ^+ 2 - 1)%:M) E.
exists (sq_x0 + sq_p), 0; split=> //; last first.
  by rewrite scal1 sq_con1 ltr_pdivl_mulr ?ltr0n // -natrM ltr_nat.
by rewrite /= t1 S z n0 /= ltNge t0.
Qed.

(** C66 *)
Lemma leap_discards_decrease : exists (Q : nlp R 1 1) (x0 p : 'cV[R]_1), [/\ exact_derivatives Q,
  (forall norm damped, exists st', bfgs_step norm Q 1 damped (bfgs_init 1 x0) = Some st' /\ bx st' = x0 + p),
  merit_fun Q (x0 + 2%:R^-1 *: p) < merit_fun Q x0 & merit_fun Q x0 < merit_fun Q (x0 + p)].
Proof.
have m0 : merit_fun sq_nlp sq_x0 = 15%:R / 16%:R.
  by rewrite /merit_fun /= add0r vnorm1 scal1 sq_con normrN ger0_norm // divr_ge0 ?ler0n.
have m1 : merit_fun sq_nlp (sq_x0 + sq_p) = 225%:R / 64%:R.
  by rewrite /merit_fun /= add0r vnorm1 scal1 sq_con1 ger0_norm // divr_ge0 ?ler0n.
have m2 : merit_fun sq_nlp (sq_x0 + 2%:R^-1 *: sq_p) = 105%:R / 256%:R.
  by rewrite /merit_fun /= add0r vnorm1 scal1 sq_con2 ger0_norm // divr_ge0 ?ler0n.
have l1 : merit_fun sq_nlp sq_x0 < merit_fun sq_nlp (sq_x0 + sq_p).
  by rewrite m0 m1 ltr_pdivr_mulr ?ltr0n // mulrAC ltr_pdivl_mulr ?ltr0n // -!natrM ltr_nat.
exists sq_nlp, sq_x0, sq_p; split=> //; first exact: sq_exact.
  move=> norm damped; rewrite /bfgs_step /bfgs_init /=.
  have [lam E] := sq_step 0 (sq_ok (trmx1 R 1)).
  rewrite /= [X in lqe_solve _ _ X _]/((2%:R * sq_x0 0 0)%:M) E /= !meritE scale1r l1 /= scale1r.
  by eexists.
by rewrite m0 m2 ltr_pdivr_mulr ?ltr0n // mulrAC ltr_pdivl_mulr ?ltr0n // -!natrM ltr_nat.
Qed.
End Ex.
