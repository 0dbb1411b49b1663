(** Direct shooting returns values for end points that no control reaches: the iteration jumps between two points. *)
From Coq Require Import Ring Field.
From mathcomp Require Import all_ssreflect all_algebra.
From Verif Require Import MxBase LinComb LqtModel NlqtSpec SqpModel SqpSpec SqpProofs ShootModel ShootSpec ShootProofs Rk4Proofs ShootQuad ShootMain ShootAd.
Import Order.TTheory GRing.Theory Num.Theory.
Set Implicit Arguments. Unset Strict Implicit. Unset Printing Implicit Defensive.
Local Open Scope ring_scope.

Section Bounce.
Variable R : realFieldType.
Add Ring Rr : (mc_ring R).
Add Field Rf : (mc_field R).
Ltac sfield := rsn R; field; repeat split; num_neq0 R.
Variable m : nat.
Variables (G : 'M[R]_m) (e : 'cV[R]_m) (Q : nlp R m 1) (norm : 'cV[R]_m -> R).
Hypothesis sG : symm G.
Hypothesis pG : forall z, z <> 0 -> 0 < qf G z.
Hypothesis Ge : qf G e = 1.
Hypothesis Qf : forall z, pf Q z = qf G z / 2%:R.
Hypothesis Qc : forall z, pc Q z = (qf G (z + e) + 3%:R)%:M.
Hypothesis ex : exact_derivatives Q.
Lemma b_pdf z : pdf Q z = G *m z.
Proof.
case: ex => gf _ _ _; apply: (gradient_unique (gf z)).
apply: (@grad_ext _ _ (fun z => qp_cost G 0 z + 0)); first by move=> y; rewrite Qf /qp_cost dot0l !addr0.
by rewrite -[G *m z]addr0; exact: qp_gradient.
Qed.
Lemma b_pdc z : pdc Q z = (2%:R *: (G *m (z + e)))^T.
Proof.
case: ex => _ jc _ _; apply: (jacobian_unique (jc z)).
apply: (@jac_ext _ _ _ (fun z => (qp_cost (2%:R *: G) (2%:R *: (G *m e)) z + 4%:R)%:M)).
  move=> y; rewrite Qc (qfD _ _ sG) Ge /qp_cost qf_scl dotZl; congr (_%:M).
  by rewrite [dot (G *m y) e]dotMl sG [dot y _]dotC; sfield.
apply: grad_jac; have -> : 2%:R *: (G *m (z + e)) = (2%:R *: G) *m z + 2%:R *: (G *m e) by rewrite mulmxDr scalerDr scalemxAl.
exact: (qp_gradient _ _ _ (symmZ _ sG)).
Qed.
Lemma b_phl z (l : R) : phl Q z l%:M = (1 - 2%:R * l) *: G.
Proof.
case: (ex) => _ _ _ hl; apply: (jacobian_unique (hl _ z)).
apply: (@jac_ext _ _ _ (fun z => ((1 - 2%:R * l) *: G) *m z + (- (2%:R * l)) *: (G *m e))); last exact: affine_jacobian.
by move=> y; rewrite pdlE // b_pdf b_pdc trmxK mul_mx_scalar mulmxDr !scalerDr !scalerA [l * _]mulrC scalerBl scale1r mulmxBl -scalemxAl scaleNr opprD addrA.
Qed.
Lemma e_neq0 : e <> 0.
Proof. by move=> e0; move: Ge; rewrite e0 qf_dot dot0l => /eqP; rewrite eq_sym oner_eq0. Qed.
Lemma b_step (a t l l' : R) : (a + 1) ^+ 2 = 1 -> l <= 0 -> t = - 2%:R * (a + 1) -> l' = ((1 - 2%:R * l) * t + a) * (a + 1) / 2%:R ->
  exists c, sqp_step norm Q (a *: e) l%:M = Some ((a + t) *: e, l'%:M, c).
Proof.
move=> a1 l0 tE lE; exists (norm (pdl Q (a *: e) l%:M)); rewrite /sqp_step b_pdf b_pdc b_phl Qc.
have ae : a *: e + e = (a + 1) *: e by rewrite scalerDl scale1r.
rewrite ae; have p1 : 0 < 1 - 2%:R * l by rewrite subr_gt0 (le_lt_trans _ (@ltr01 R)) // mulr_ge0_le0 ?ler0n.
have a0 : a + 1 != 0 by apply/eqP => E; move: a1; rewrite E expr0n /= => /eqP; rewrite eq_sym oner_eq0.
have Ge0 : G *m e <> 0 by move=> E; move: Ge; rewrite qf_dot E dot0r => /eqP; rewrite eq_sym oner_eq0.
rewrite (@kkt_lqe _ _ _ _ _ _ _ (t *: e) l'%:M) /=; first by rewrite -scalerDl.
- apply: Psi_unit; split; first exact: symmZ.
    by move=> z _ /pG q; rewrite qf_scl mulr_gt0.
  move=> w; rewrite trmxK [w]scE mul_mx_scalar -scalemxAr !scalerA => E.
  have /eqP : sc w * (2%:R * (a + 1)) = 0.
    apply/eqP/negPn/negP => ne; apply: Ge0; move/(congr1 (fun M => (sc w * (2%:R * (a + 1)))^-1 *: M)): E.
    by rewrite scalerA -[sc w * _ * _]mulrA mulVf // scale1r scaler0.
  by rewrite mulf_eq0 mulf_eq0 pnatr_eq0 (negPf a0) !orbF => /eqP ->; rewrite raddf0.
- rewrite trmxK mul_mx_scalar -!scalemxAr -scalemxAl !scalerA -scalerDl; congr (_ *: _).
  transitivity (((1 - 2%:R * l) * t + a) * (a + 1) ^+ 2); first by rewrite a1 mulr1 mulrC.
  by rewrite lE; sfield.
- rewrite -!scalemxAr scalerA linearZ /= -scalemxAl trmx_mul sG.
  have -> : e^T *m G *m e = 1%:M by rewrite -Ge /qf -scE.
  have -> : qf G ((a + 1) *: e) = 1 by rewrite qfZ Ge mulr1.
  rewrite !scale_scalar_mx mulr1 -raddfN /=; congr (_%:M); rewrite tE.
  have -> : - 2%:R * (a + 1) * (2%:R * (a + 1)) = - 4%:R * (a + 1) ^+ 2 by sfield.
  by rewrite a1; sfield.
Qed.
Lemma b_fast k : forall (a l c : R), ((a == 0) || (a == - 2%:R)) -> l <= 0 -> exists a' r,
  [/\ fast_loop norm Q k (a *: e, l%:M, c) = Some r, r.1.1 = a' *: e & (a' == 0) || (a' == - 2%:R)].
Proof.
elim: k => [|k IH] a l c ha l0; first by exists a, (a *: e, l%:M, c).
have a1 : (a + 1) ^+ 2 = 1 by case/orP: ha => /eqP ->; sfield.
have [c' E] := b_step a1 l0 (erefl _) (erefl _); rewrite [fast_loop _ _ _ _]/= E /=; apply: IH.
  by case/orP: ha => /eqP ->; apply/orP; [right | left]; apply/eqP; sfield.
case/orP: ha => /eqP ->.
  have -> : ((1 - 2%:R * l) * (- 2%:R * (0 + 1)) + 0) * (0 + 1) / 2%:R = 2%:R * l - 1 by sfield.
  by rewrite subr_le0 (le_trans _ (@ler01 R)) // mulr_ge0_le0 ?ler0n.
have -> : ((1 - 2%:R * l) * (- 2%:R * (- 2%:R + 1)) + - 2%:R) * (- 2%:R + 1) / 2%:R = 2%:R * l by sfield.
by rewrite mulr_ge0_le0 ?ler0n.
Qed.
Lemma bounce k : exists r a, [/\ local_eq_fast norm Q 0 k = Some r, r.1.1 = a *: e & (a == 0) || (a == - 2%:R)].
Proof.
have [|a [r [E1 E2 E3]]] := @b_fast k 0 0 1 _ (lexx _); first by rewrite eqxx.
move: E1; rewrite scale0r raddf0 /local_eq_fast => ->; case: r E2 => [[x l] c] /= ->.
by exists (a *: e, k, c), a.
Qed.
End Bounce.

(** ** the example: dx/dt = (u + 1)^2, running cost u^2 / 2, one step *)
Section Example.
Variable R : realFieldType.
Add Ring Rr2 : (mc_ring R).
Add Field Rf2 : (mc_field R).
Ltac sfield := rsn R; field; repeat split; num_neq0 R.
Definition bad_g : R -> R -> R := fun _ u => (u + 1) ^+ 2.
Definition bad_L : R -> R -> R := fun _ u => u ^+ 2 / 2%:R.
(** states never decrease *)
Lemma bad_up (u : control R) h x0 n : 0 <= h -> x0 <= simulate bad_g u h x0 n.
Proof.
move=> h0; elim: n => [|n IH] //=; apply: (le_trans IH); rewrite /state_after ler_addl mulr_ge0 // /weighted_mean /bad_g.
apply: divr_ge0; last exact: ler0n.
by do ?[exact: sqr_ge0 | exact: ler0n | apply: addr_ge0 | apply: mulr_ge0].
Qed.
Definition bG : 'M[R]_2 := \matrix_(i, j) (if (i == 0) && (j == 0) then 1 else if (i == 0) || (j == 0) then 1 / 2%:R else 1 / 3%:R).
Definition be : 'cV[R]_2 := \col_i (if i == 0 then 1 else 0).
Lemma qf_bG (z : 'cV[R]_2) : qf bG z = z 0 0 ^+ 2 + z 0 0 * z 1 0 + z 1 0 ^+ 2 / 3%:R.
Proof.
rewrite qf_dot /dot /sc !mxE !big_ord_recl !big_ord0 !mxE !big_ord_recl !big_ord0 !mxE /=.
have -> : lift 0 0 = 1 :> 'I_2 by apply/val_inj. 
have -> : ord0 = 0 :> 'I_2 by apply/val_inj.
rewrite /=; sfield.
Qed.
Lemma bG_symm : symm bG.
Proof. by apply/matrixP => i j; rewrite !mxE andbC orbC. Qed.
Lemma bG_pd z : z <> 0 -> 0 < qf bG z.
Proof.
move=> nz; rewrite qf_bG.
have -> : z 0 0 ^+ 2 + z 0 0 * z 1 0 + z 1 0 ^+ 2 / 3%:R = (z 0 0 + z 1 0 / 2%:R) ^+ 2 + z 1 0 ^+ 2 / (4%:R * 3%:R) by sfield.
rewrite lt_neqAle addr_ge0 ?sqr_ge0 ?divr_ge0 ?sqr_ge0 // ?mulr_ge0 ?ler0n // andbT eq_sym.
apply/eqP => /eqP; rewrite paddr_eq0 ?sqr_ge0 ?divr_ge0 ?sqr_ge0 ?mulr_ge0 ?ler0n // => /andP [].
rewrite sqrf_eq0 mulf_eq0 sqrf_eq0 invr_eq0 mulf_eq0 !pnatr_eq0 !orbF => /eqP A /eqP B.
apply: nz; apply/matrixP => i j; rewrite ord1 mxE; move: A; rewrite B mul0r addr0 => A.
by case: i => [[|[|i]] lt] //; [rewrite -A | rewrite -B]; congr (z _ _); apply/val_inj.
Qed.
Lemma be_one : qf bG be = 1.
Proof. by rewrite qf_bG !mxE /=; sfield. Qed.
Section Run.
Variables (ad : forall m, ('cV[R]_m -> R) -> ('cV[R]_m -> 'cV[R]_1) -> nlp R m 1) (norm : forall m, 'cV[R]_m -> R).
Lemma vec2 (z : 'cV[R]_2) : vec z = [:: z 0 0; z 1 0].
Proof.
apply: (@eq_from_nth _ 0); rewrite size_vec // => -[|[|i]] lt //; rewrite (nth_vec _ lt); congr (z _ _); exact/val_inj.
Qed.
Lemma bad_fc (x0 xf a b : R) : fun_and_con_1 bad_g bad_L 1 x0 xf [:: a] [:: b] =
  Some ((a ^+ 2 + a * b + b ^+ 2 / 3%:R) / 2%:R, (x0 + ((a + 1) ^+ 2 + (a + 1) * b + b ^+ 2 / 3%:R) - xf)%:M).
Proof.
rewrite fc1E ?oner_eq0 //= /simulated_cost big_ord1 /= /state_after /step_cost /weighted_mean /bad_g /bad_L /piecewise /=.
rewrite !divr1 !mul1r !mul0r !subr0; congr (Some (_, (_ - xf)%:M)); first by sfield.
by congr (_ + _); sfield.
Qed.
Lemma bad_fc2 (x0 xf a b : R) : fun_and_con_2 bad_g bad_L 1 x0 xf [:: a; b] = fun_and_con_1 bad_g bad_L 1 x0 xf [:: a] [:: b].
Proof.
rewrite fc2E ?oner_eq0 // fc1E ?oner_eq0 //=; congr (Some (_, (_ - _)%:M)).
  by apply: simcost_ext => -[|i] // _ t; rewrite /broken_line /piecewise big_ord0 mulr0 addr0.
by apply: (@simulate_ext _ _ _ _ _ _ 1) => -[|i] // _ t; rewrite /broken_line /piecewise big_ord0 mulr0 addr0.
Qed.
Lemma bad_one (fc : R -> R -> 'cV[R]_2 -> option (R * 'cV[R]_1)) (x0 : R) k :
  (forall x0 xf z, fc x0 xf z = fun_and_con_1 bad_g bad_L 1 x0 xf [:: z 0 0] [:: z 1 0]) ->
  exact_derivatives (shoot_nlp ad fc x0 (x0 - 3%:R)) ->
  exists2 v, V_eval_one ad norm fc k x0 (x0 - 3%:R) = Some v & (v == 0) || (v == 2%:R).
Proof.
move=> fcE ex.
have [r [a [E1 E2 E3]]] := @bounce R 2 bG be (shoot_nlp ad fc x0 (x0 - 3%:R)) (@norm 2) bG_symm bG_pd be_one
   ltac:(by move=> z; rewrite /= /fc_fun fcE bad_fc /= qf_bG)
   ltac:(by move=> z; rewrite /= /fc_con fcE bad_fc /= qf_bG !mxE /=; congr (_%:M); sfield) ex k.
exists (fc_fun fc x0 (x0 - 3%:R) (a *: be)); first by rewrite /V_eval_one E1 /= E2.
rewrite /fc_fun fcE bad_fc /= !mxE /= mulr1 mulr0.
by case/orP: E3 => /eqP ->; apply/orP; [left|right]; apply/eqP; sfield.
Qed.
End Run.
End Example.
