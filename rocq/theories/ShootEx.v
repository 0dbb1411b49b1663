(** Direct shooting: examples. *)
From Coq Require Import Ring Field.
From mathcomp Require Import all_ssreflect all_algebra.
From Verif Require Import MxBase LinComb LqtModel ClqtModel NlqtSpec NlqtProofs SqpModel SqpSpec SqpProofs ShootModel ShootSpec ShootProofs Rk4Proofs ShootQuad ShootMain ShootAd ShootTable ShootBad ShootNan.
Import Order.TTheory GRing.Theory Num.Theory.
Set Implicit Arguments. Unset Strict Implicit. Unset Printing Implicit Defensive.
Local Open Scope ring_scope.
Section E.
Variable R : realFieldType.
Add Ring Rr : (mc_ring R).
Add Field Rf : (mc_field R).
Ltac sfield := rsn R; field; repeat split; num_neq0 R.
Local Notation AD := (@fd_ad R).
Lemma fd_ext : extensional_ad AD.
Proof.
move=> m f f' c c' ef ec; split=> [x|x|x l|x l] /=; apply/matrixP => i j; rewrite !mxE ?ef ?ec //.
Qed.
Lemma lin_affine nx nu : affine_dynamics (md_f (linear_model R nx nu)) 1 1 0.
Proof. by move=> x u /=; rewrite !mul1r addr0. Qed.
Lemma lin_quadratic nx nu : quadratic_cost (md_L (linear_model R nx nu)) 1 0 1 0 0 0.
Proof. by move=> x u /=; sfield. Qed.
Lemma lin_convex : convex_in_control (1 : R) 0 1.
Proof.
move=> x u; rewrite mulr0 !mul0r addr0 !mul1r addr_ge0 ?sqr_ge0 //; split=> // u0.
by rewrite ltr_paddl ?sqr_ge0 // lt_neqAle sqr_ge0 eq_sym sqrf_eq0 u0.
Qed.
Section D.
Variables (g L : R -> R -> R) (p q r lxx lxu luu lx lu l0 : R).
Hypothesis ga : affine_dynamics g p q r.
Hypothesis Lq : quadratic_cost L lxx lxu luu lx lu l0.
Variables (T : R) (n : nat).
Hypotheses (T0 : T != 0) (n0 : (0 < n)%N).
Lemma fd_lq1 x y : exact_derivatives (shoot_nlp AD (fc_1 g L T (steps := n)) x y).
Proof.
apply: fd_exact.
  apply: (@quad_ext _ _ (fun z => simulated_cost g L (piecewise (evens (vec z)) (odds (vec z)) (T / n%:R)) (T / n%:R) x n)).
    by move=> z; rewrite /fc_fun fc_1E.
  by apply: (quad_sim ga Lq); exact: lin_U1.
apply: quad_aff; apply: (@aff_ext _ _ (fun z => simulate g (piecewise (evens (vec z)) (odds (vec z)) (T / n%:R)) (T / n%:R) x n + (- y))).
  by move=> z; rewrite /fc_con fc_1E //= mxE eqxx mulr1n.
by apply: aff_add; [apply: (aff_sim ga); exact: lin_U1 | exact: aff_const].
Qed.
Lemma fd_lq2 x y : exact_derivatives (shoot_nlp AD (fc_2 g L T (steps := n)) x y).
Proof.
apply: fd_exact.
  apply: (@quad_ext _ _ (fun z => simulated_cost g L (broken_line (nth 0 (vec z) 0) (behead (vec z)) (T / n%:R)) (T / n%:R) x n)).
    by move=> z; rewrite /fc_fun fc_2E.
  by apply: (quad_sim ga Lq); exact: lin_U2.
apply: quad_aff; apply: (@aff_ext _ _ (fun z => simulate g (broken_line (nth 0 (vec z) 0) (behead (vec z)) (T / n%:R)) (T / n%:R) x n + (- y))).
  by move=> z; rewrite /fc_con fc_2E //= mxE eqxx mulr1n.
by apply: aff_add; [apply: (aff_sim ga); exact: lin_U2 | exact: aff_const].
Qed.
End D.
(** the bouncing example *)
Lemma quad_qf2 (a b c d e f : R) (F : 'cV[R]_2 -> R) : (forall z, F z = a * z 0 0 ^+ 2 + b * z 0 0 * z 1 0 + c * z 1 0 ^+ 2 + d * z 0 0 + e * z 1 0 + f) -> quad_f F.
Proof.
move=> E; have l0 : affine_f (fun z : 'cV[R]_2 => z 0 0).
  apply: lin_aff; apply: (@lin_ext _ _ (fun z => nth 0 (vec z) 0)); last exact: lin_coord.
  by move=> z; rewrite vec2.
have l1 : affine_f (fun z : 'cV[R]_2 => z 1 0).
  apply: lin_aff; apply: (@lin_ext _ _ (fun z => nth 0 (vec z) 1)); last exact: lin_coord.
  by move=> z; rewrite vec2.
apply: (@quad_ext _ _ (fun z => a * (z 0 0 * z 0 0) + b * (z 0 0 * z 1 0) + c * (z 1 0 * z 1 0) + d * z 0 0 + e * z 1 0 + f)).
  by move=> z; rewrite E; sfield.
repeat apply: quad_add; try (apply: quad_scale; first [exact: quad_mul | exact: quad_aff]).
exact/quad_aff/aff_const.
Qed.
Lemma fd_bad (fc : R -> R -> 'cV[R]_2 -> option (R * 'cV[R]_1)) (x y : R) :
  (forall x0 xf z, fc x0 xf z = fun_and_con_1 (@bad_g R) (@bad_L R) 1 x0 xf [:: z 0 0] [:: z 1 0]) ->
  exact_derivatives (shoot_nlp AD fc x y).
Proof.
move=> E; apply: fd_exact.
  apply: (@quad_qf2 (1 / 2%:R) (1 / 2%:R) (1 / (3%:R * 2%:R)) 0 0 0) => z; rewrite /fc_fun E bad_fc /=; sfield.
apply: (@quad_qf2 1 1 (1 / 3%:R) 2%:R 1 (1 + x - y)) => z; rewrite /fc_con E bad_fc /= mxE eqxx mulr1n; sfield.
Qed.
Lemma fd_bad1 x y : exact_derivatives (shoot_nlp AD (fc_1 (@bad_g R) (@bad_L R) 1 (steps := 1)) x y).
Proof. by apply: fd_bad => x0 xf z; rewrite /fc_1; have -> : @vec R (2 * 1) z = [:: z 0 0; z 1 0] by exact: vec2. Qed.
Lemma fd_bad2 x y : exact_derivatives (shoot_nlp AD (fc_2 (@bad_g R) (@bad_L R) 1 (steps := 1)) x y).
Proof. by apply: fd_bad => x0 xf z; rewrite /fc_2 vec2 bad_fc2. Qed.
Lemma fd_free m (f : 'cV[R]_m -> R) c : (forall z, f z = 0) -> let Q := with_ad AD f c in
   (forall x, is_gradient (fun x => pf Q x - dot 0 (pc Q x)) x (pdl Q x 0)) /\ (forall x, is_jacobian (pdl Q ^~ 0) x (phl Q x 0)).
Proof.
move=> f0 Q; have E z : f z - dot 0 (c z) = qp_cost 0 0 z + 0 by rewrite f0 /qp_cost qf_zero !dot0l mul0r !addr0 subr0.
have s0 : symm (0 : 'M[R]_m) by rewrite /symm trmx0.
by split=> x; [exact: (fd_grad_exact s0 E) | exact: (fd_hess_exact s0 E)].
Qed.
End E.
