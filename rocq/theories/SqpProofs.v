(** Sequential quadratic programming: proofs. *)
From Coq Require Import Ring Field.
From mathcomp Require Import all_ssreflect all_algebra.
From Verif Require Import MxBase LqtModel LqtCore NlqtSpec NlqtProofs SqpModel SqpSpec.
Import Order.TTheory GRing.Theory Num.Theory.
Set Implicit Arguments. Unset Strict Implicit. Unset Printing Implicit Defensive.
Local Open Scope ring_scope.

Section Deriv.
Variable R : realFieldType.
Variable n : nat.
Implicit Types (x g h : 'cV[R]_n).

Lemma small_zero (l : 'cV[R]_n -> R) : (forall a h, l (a *: h) = a * l h) ->
  (forall eps, 0 < eps -> exists2 delta, 0 < delta & forall h, vnorm h < delta -> `|l h| <= eps * vnorm h) ->
  forall h, l h = 0.
Proof.
move=> lZ H h; apply/eqP; rewrite -normr_eq0 eq_le normr_ge0 andbT leNgt; apply/negP => l0.
pose N := vnorm h; have N0 : 0 <= N by exact: vnorm_ge0.
have N1 : 0 < N + 1 by rewrite ltr_spaddr ?ltr01.
have e0 : 0 < `|l h| / 2%:R / (N + 1) by rewrite !divr_gt0 ?ltr0n.
have [d dp B] := H _ e0.
pose t := d / 2%:R / (N + 1); have t0 : 0 < t by rewrite !divr_gt0 ?ltr0n.
have tN : t * N < d.
  have : t * (N + 1) < d by rewrite /t divfK ?lt0r_neq0 // ltr_pdivr_mulr ?ltr0n // ltr_pmulr ?ltr1n.
  by apply: le_lt_trans; apply: ler_wpmul2l; [exact: ltW|rewrite ler_addl ler01].
have := B (t *: h); rewrite vnormZ gtr0_norm // -/N => /(_ tN).
rewrite lZ normrM gtr0_norm // mulrCA ler_pmul2l // leNgt => /negP; apply.
rewrite mulrAC ltr_pdivr_mulr // mulrAC ltr_pdivr_mulr ?ltr0n // -mulrA ltr_pmul2l //.
by rewrite mulrDl mul1r mulr_natr mulr2n -addrA ltr_addl ltr_spaddr ?ltr0n.
Qed.

Lemma gradient_unique f x g g' : is_gradient f x g -> is_gradient f x g' -> g = g'.
Proof.
move=> H H'; apply/eqP; rewrite -subr_eq0; apply/eqP; apply: dot_inj => z; rewrite dot0r dotC.
apply: (small_zero (l := fun h => dot (g - g') h)) => [a h|eps e0]; first exact: dotZr.
have e2 : 0 < eps / 2%:R by rewrite divr_gt0 ?ltr0n.
have [d dp B] := H _ e2; have [d' dp' B'] := H' _ e2.
exists (Num.min d d') => [|h]; first by rewrite lt_minr dp.
rewrite lt_minr => /andP [l l'].
have -> : dot (g - g') h = (f (x + h) - f x - dot g' h) - (f (x + h) - f x - dot g h).
  by rewrite dotBl; abel.
apply: (le_trans (ler_norm_sub _ _)); apply: (le_trans (ler_add (B' h l') (B h l))).
by rewrite -mulrDl -mulr2n -mulr_natr divfK ?pnatr_eq0 // lexx.
Qed.
Lemma jacobian_unique j (f : 'cV[R]_n -> 'cV[R]_j) x J J' : is_jacobian f x J -> is_jacobian f x J' -> J = J'.
Proof.
move=> H H'.
have Z h : (J - J') *m h = 0.
  apply: dot_inj => z; rewrite dot0r.
  apply: (small_zero (l := fun h => dot z ((J - J') *m h))) => [a v|eps e0]; first by rewrite -scalemxAr dotZr.
  have z1 : 0 < vnorm z + 1 by rewrite ltr_spaddr ?ltr01 ?vnorm_ge0.
  have e2 : 0 < eps / 2%:R / (vnorm z + 1) by rewrite !divr_gt0 ?ltr0n.
  have [d dp B] := H _ e2; have [d' dp' B'] := H' _ e2.
  exists (Num.min d d') => [|v]; first by rewrite lt_minr dp.
  rewrite lt_minr => /andP [l l'].
  have -> : (J - J') *m v = (f (x + v) - f x - J' *m v) - (f (x + v) - f x - J *m v).
    by rewrite mulmxBl; abel.
  apply: (le_trans (norm_dot _ _)).
  have h1 : vnorm (f (x + v) - f x - J' *m v - (f (x + v) - f x - J *m v)) <= eps / (vnorm z + 1) * vnorm v.
    apply: (le_trans (vnormD _ _)); rewrite vnormN; apply: (le_trans (ler_add (B' v l') (B v l))).
    by rewrite -mulrDl -mulrDl -mulr2n -mulr_natr divfK ?pnatr_eq0 // lexx.
  apply: (le_trans (ler_wpmul2l (vnorm_ge0 z) h1)).
  rewrite mulrA ler_wpmul2r ?vnorm_ge0 // mulrCA; apply: ler_pimulr; first exact: ltW.
  by rewrite ler_pdivr_mulr // mul1r ler_addl ler01.
apply/eqP; rewrite -subr_eq0; apply/eqP/matrixP => i jj.
have := Z (delta_mx jj 0) => /matrixP /(_ i 0); rewrite !mxE (bigD1 jj) //= !mxE !eqxx mulr1.
by rewrite big1 ?addr0 // => l ne; rewrite !mxE (negbTE ne) mulr0.
Qed.
End Deriv.

Section Sqp.
Variable R : realFieldType.
Variables n k : nat.
Add Ring Rr : (mc_ring R).
Add Field Rf : (mc_field R).
Ltac sfield := rsn R; field; exact: two_neq0.
Implicit Types (G B : 'M[R]_n) (A : 'M[R]_(k, n)) (x s y c : 'cV[R]_n) (b lam : 'cV[R]_k).

(** ** the KKT system *)
Lemma lqe_kkt G c A b x lam : lqe_solve G c A b = Some (x, lam) -> G *m x + c = A^T *m lam /\ A *m x = b.
Proof.
rewrite /lqe_solve; case E: (solve _ _) => [z|] //= [<- <-].
move/solveP: E; case=> _; rewrite -{1}(vsubmxK z) mul_block_col mul0mx addr0 mulNmx.
case/eq_col_mx => e1 e2; split=> //; apply/eqP; rewrite -subr_eq0 addrAC e1 addNr //.
Qed.
Lemma Psi_unit G A : qp_ok G A -> block_mx G (- A^T) A 0 \in unitmx.
Proof.
case=> sG pG rA; apply: unit_ker => z; rewrite -(vsubmxK z).
move: (usubmx z) (dsubmx z) => x l; rewrite mul_block_col mul0mx addr0 -{1}(col_mx0 R n k 1).
case/eq_col_mx => e1 e2; move: e1; rewrite mulNmx => /eqP; rewrite subr_eq0 => /eqP e1.
have x0 : x = 0.
  apply/eqP/negPn/negP => /eqP ne; have := pG x e2 ne.
  by rewrite qf_dot e1 dotMr trmxK e2 dot0l ltxx.
by rewrite x0 mulmx0 in e1; rewrite x0 (rA l (esym e1)) col_mx0.
Qed.
Lemma lqe_some G c A b : qp_ok G A -> exists x lam, lqe_solve G c A b = Some (x, lam).
Proof. by move=> ok; rewrite /lqe_solve solve_unit ?Psi_unit //=; do 2 eexists. Qed.
Lemma kkt_lqe G c A b x lam : block_mx G (- A^T) A 0 \in unitmx -> G *m x + c = A^T *m lam -> A *m x = b ->
  lqe_solve G c A b = Some (x, lam).
Proof.
move=> un e1 e2; rewrite /lqe_solve solve_unit //=.
have -> : col_mx (- c) b = block_mx G (- A^T) A 0 *m col_mx x lam.
  by rewrite mul_block_col mul0mx addr0 e2 mulNmx -e1 opprD addrA subrr add0r.
by rewrite mulKmx // col_mxKu col_mxKd.
Qed.
Lemma kkt_solution G c A b x lam : qp_ok G A -> G *m x + c = A^T *m lam -> A *m x = b -> qp_solution G c A b x.
Proof.
case=> sG pG _ e1 e2; split=> // z ez ne.
have nz : z - x <> 0 by move=> /eqP; rewrite subr_eq0 => /eqP.
have Az : A *m (z - x) = 0 by rewrite mulmxBr ez e2 subrr.
have := pG _ Az nz => q0.
have -> : qp_cost G c z = qp_cost G c x + dot (G *m x + c) (z - x) + qf G (z - x) / 2%:R.
  rewrite /qp_cost -{1 2}(subrK x z) addrC (addrC (z - x)).
  by rewrite (qfD _ _ sG) !dotDl !dotDr; sfield.
by rewrite e1 dotMl trmxK Az dot0r addr0 ltr_addl divr_gt0 ?ltr0n.
Qed.
Theorem lqe_minimiser G c A b : qp_ok G A ->
  exists x lam, lqe_solve G c A b = Some (x, lam) /\ qp_solution G c A b x.
Proof.
move=> ok; have [x [lam E]] := lqe_some c b ok; exists x, lam; split=> //.
by have [e1 e2] := lqe_kkt E; exact: kkt_solution e1 e2.
Qed.
Lemma qp_solution_unique G c A b x z : qp_solution G c A b x -> qp_solution G c A b z -> x = z.
Proof.
move=> [e1 m1] [e2 m2]; apply/eqP/negPn/negP => /eqP ne.
by have := lt_trans (m1 z e2 (nesym ne)) (m2 x e1 ne); rewrite ltxx.
Qed.

(** ** derivatives of the Lagrangian *)
Variable Q : nlp R n k.
Hypothesis ex : exact_derivatives Q.
Lemma pdlE x lam : pdl Q x lam = pdf Q x - (pdc Q x)^T *m lam.
Proof.
case: ex => gf jc gl _; apply: (gradient_unique (gl lam x)) => eps e0.
have l1 : 0 < vnorm lam + 1 by rewrite ltr_spaddr ?ltr01 ?vnorm_ge0.
have e2 : 0 < eps / 2%:R by rewrite divr_gt0 ?ltr0n.
have [d dp B] := gf x _ e2; have [d' dp' B'] := jc x _ (divr_gt0 e2 l1).
exists (Num.min d d') => [|h]; first by rewrite lt_minr dp.
rewrite lt_minr => /andP [l l'].
have -> : pf Q (x + h) - dot lam (pc Q (x + h)) - (pf Q x - dot lam (pc Q x)) - dot (pdf Q x - (pdc Q x)^T *m lam) h =
  (pf Q (x + h) - pf Q x - dot (pdf Q x) h) - dot lam (pc Q (x + h) - pc Q x - pdc Q x *m h).
  rewrite dotBl !dotBr [dot (_^T *m lam) h]dotMl trmxK.
  move: (pf Q (x + h)) (pf Q x) (dot lam (pc Q (x + h))) (dot lam (pc Q x)) (dot (pdf Q x) h) (dot lam (pdc Q x *m h)) => a1 a2 a3 a4 a5 a6.
  by rsn R; ring.
apply: (le_trans (ler_norm_sub _ _)).
have -> : eps * vnorm h = eps / 2%:R * vnorm h + eps / 2%:R * vnorm h by rewrite -mulrDl -mulr2n -mulr_natr divfK ?pnatr_eq0.
apply: ler_add; first exact: B.
apply: (le_trans (norm_dot _ _)); apply: (le_trans (ler_wpmul2l (vnorm_ge0 lam) (B' h l'))).
rewrite mulrA ler_wpmul2r ?vnorm_ge0 // mulrCA; apply: ler_pimulr; first exact: ltW.
by rewrite ler_pdivr_mulr // mul1r ler_addl ler01.
Qed.
Lemma kktE x lam : kkt_point Q x lam <-> pdl Q x lam = 0 /\ pc Q x = 0.
Proof.
case: ex => _ _ gl _; split=> - [g c]; split=> //; first exact: gradient_unique (gl lam x) g.
by rewrite -g; exact: gl.
Qed.

Lemma qp_gradient G c (c0 : R) x : symm G -> is_gradient (fun z => qp_cost G c z + c0) x (G *m x + c).
Proof.
move=> sG eps e0; have m1 : 0 < mnorm G + 1 by rewrite ltr_spaddr ?ltr01 ?mnorm_ge0.
exists (eps / (mnorm G + 1)) => [|h lt]; first by rewrite divr_gt0.
have -> : qp_cost G c (x + h) + c0 - (qp_cost G c x + c0) - dot (G *m x + c) h = dot h (G *m h) / 2%:R.
  by rewrite /qp_cost (qfD _ _ sG) !dotDl !dotDr -(qf_dot G h); sfield.
have le : mnorm G * vnorm h <= eps.
  have /ltW := lt; rewrite ler_pdivl_mulr // => H; apply: (le_trans _ H).
  by rewrite mulrDr mulr1 mulrC ler_addl vnorm_ge0.
rewrite normrM normfV (ger0_norm (ler0n _ 2)) ler_pdivr_mulr ?ltr0n //.
apply: (le_trans (norm_dot _ _)); apply: (le_trans (ler_wpmul2l (vnorm_ge0 h) (vnormM _ _))).
rewrite mulrC; apply: (le_trans (ler_wpmul2r (vnorm_ge0 h) le)).
by rewrite ler_pemulr ?ler1n // mulr_ge0 ?vnorm_ge0 // ltW.
Qed.
Lemma affine_jacobian j (A : 'M[R]_(j, n)) (b : 'cV[R]_j) x : is_jacobian (fun z => A *m z + b) x A.
Proof.
move=> eps e0; exists 1 => [|h _]; first exact: ltr01.
have -> : A *m (x + h) + b - (A *m x + b) - A *m h = 0 by mxabel.
by rewrite vnorm0 mulr_ge0 ?vnorm_ge0 // ltW.
Qed.
Section Quad.
Variables (G : 'M[R]_n) (c0 : R) (c : 'cV[R]_n) (A : 'M[R]_(k, n)) (b : 'cV[R]_k).
Hypothesis sG : symm G.
Hypothesis qp : quadratic_problem Q G c0 c A b.
Lemma grad_ext (f g : 'cV[R]_n -> R) x v : f =1 g -> is_gradient f x v -> is_gradient g x v.
Proof. by move=> e H eps e0; have [d dp B] := H eps e0; exists d => // h /B; rewrite !e. Qed.
Lemma jac_ext j (f g : 'cV[R]_n -> 'cV[R]_j) x v : f =1 g -> is_jacobian f x v -> is_jacobian g x v.
Proof. by move=> e H eps e0; have [d dp B] := H eps e0; exists d => // h /B; rewrite !e. Qed.
Lemma pdfE x : pdf Q x = G *m x + c.
Proof.
case: ex => gf _ _ _; case: qp => qf _; apply: (gradient_unique (gf x)).
by apply: (grad_ext (fun z => esym (qf z))); exact: qp_gradient.
Qed.
Lemma pdcE x : pdc Q x = A.
Proof.
case: ex => _ jc _ _; case: qp => _ qc; apply: (jacobian_unique (jc x)).
by apply: (jac_ext (fun z => esym (qc z))); exact: affine_jacobian.
Qed.
Lemma phlE x lam : phl Q x lam = G.
Proof.
case: ex => _ _ _ hl; apply: (jacobian_unique (hl lam x)).
have e z : pdl Q z lam = G *m z + (c - A^T *m lam) by rewrite pdlE pdfE pdcE addrA.
by apply: (jac_ext (fun z => esym (e z))); exact: affine_jacobian.
Qed.
Variable norm : 'cV[R]_n -> R.
Hypothesis nm : is_norm norm.
Hypothesis ok : qp_ok G A.
Lemma quad_step x lam : exists x' lam', [/\ sqp_step norm Q x lam = Some (x', lam', norm (pdl Q x lam)),
  qp_solution G c A b x', pdl Q x' lam' = 0 & A *m x' = b].
Proof.
rewrite /sqp_step pdfE pdcE phlE; have [p [l E]] := lqe_some (G *m x + c) (- pc Q x) ok.
rewrite E /=; exists (x + p), l; have [e1 e2] := lqe_kkt E.
have k1 : G *m (x + p) + c = A^T *m l by rewrite -e1 mulmxDr; abel.
have k2 : A *m (x + p) = b by case: qp => _ qc; rewrite mulmxDr e2 qc; abel.
split=> //; first exact: kkt_solution k1 k2.
by rewrite pdlE pdfE pdcE k1 subrr.
Qed.
Lemma norm0 : norm 0 = 0. Proof. by case: (nm 0) => _ [_ ->]. Qed.

Theorem qp_local_eq x0 max_iter tol : (0 < max_iter)%N -> 0 <= tol -> tol < 1 ->
  exists x iter crit, [/\ local_eq norm Q x0 max_iter tol = Some (x, iter, crit), (iter <= 2)%N & qp_solution G c A b x].
Proof.
case: max_iter => // mi _ t0 t1; rewrite /local_eq /= t1.
have [x1 [l1 [E1 S1 P1 _]]] := quad_step x0 0; rewrite E1 /=.
case: mi => [|mi] /=; first by exists x1, 1%N, (norm (pdl Q x0 0)).
case: ifP => _; last by exists x1, 1%N, (norm (pdl Q x0 0)).
have [x2 [l2 [E2 S2 P2 _]]] := quad_step x1 l1; rewrite E2 /= P1 norm0.
exists x2, 2%N, 0; split=> //; case: mi => //= mi; by rewrite ltNge t0.
Qed.
Theorem qp_local_eq_fast x0 num_iter : (0 < num_iter)%N ->
  exists x crit, local_eq_fast norm Q x0 num_iter = Some (x, num_iter, crit) /\ qp_solution G c A b x.
Proof.
move=> i0; rewrite /local_eq_fast.
suff H : forall i cr, exists x l crit, fast_loop norm Q i.+1 cr = Some (x, l, crit) /\ qp_solution G c A b x.
  case: num_iter i0 => // i _; have [x [l [crit [E S]]]] := H i (x0, 0, 1); rewrite E /=; by exists x, crit.
elim=> [|i IH] cr.
  have [x1 [l1 [E1 S1 _ _]]] := quad_step cr.1.1 cr.1.2; by exists x1, l1, (norm (pdl Q cr.1.1 cr.1.2)); rewrite /= E1.
have [x1 [l1 [E1 S1 _ _]]] := quad_step cr.1.1 cr.1.2.
have [x [l [crit [E S]]]] := IH (x1, l1, norm (pdl Q cr.1.1 cr.1.2)).
by exists x, l, crit; split=> //; rewrite -E [LHS]/= E1.
Qed.
End Quad.

(** ** zero steps *)
Variable norm : 'cV[R]_n -> R.
Hypothesis nm : is_norm norm.
Theorem zero_step_kkt x lam lam' crit : sqp_step norm Q x lam = Some (x, lam', crit) -> kkt_point Q x lam'.
Proof.
rewrite /sqp_step; case E: (lqe_solve _ _ _ _) => [[p l]|] //= [ep el _].
have p0 : p = 0 by apply/eqP; rewrite -(inj_eq (addrI x)) addr0; apply/eqP.
have [e1 e2] := lqe_kkt E; rewrite p0 !mulmx0 add0r el in e1 e2.
apply/kktE; split; first by rewrite pdlE e1 subrr.
by apply/eqP; rewrite -oppr_eq0 -e2.
Qed.
Theorem kkt_zero_step x lam x' lam' crit : kkt_point Q x lam -> sqp_step norm Q x lam = Some (x', lam', crit) ->
  [/\ x' = x, lam' = lam & crit = 0].
Proof.
move/kktE => [d0 c0]; rewrite /sqp_step; case E: (lqe_solve _ _ _ _) => [[p l]|] //= [<- <- <-].
have un : block_mx (phl Q x lam) (- (pdc Q x)^T) (pdc Q x) 0 \in unitmx.
  by move: E; rewrite /lqe_solve; case E': (solve _ _) => [z|] //= _; case/solveP: E'.
have k1 : phl Q x lam *m 0 + pdf Q x = (pdc Q x)^T *m lam.
  by rewrite mulmx0 add0r; apply/eqP; rewrite -subr_eq0 -pdlE d0.
have k2 : pdc Q x *m 0 = - pc Q x by rewrite mulmx0 c0 oppr0.
move: E; rewrite (kkt_lqe un k1 k2) => - [<- <-]; rewrite addr0 d0; split=> //.
by case: (nm 0) => _ [_ ->].
Qed.
End Sqp.

Section Loops.
Variable R : realFieldType.
Variables n k : nat.
Variable norm : 'cV[R]_n -> R.
Variable Q : nlp R n k.
Lemma local_eq_loop_bound fuel tol x lam i crit x' i' crit' :
  local_eq_loop norm Q fuel tol x lam i crit = Some (x', i', crit') -> (i <= i' <= i + fuel)%N /\ ((i' < i + fuel)%N -> crit' <= tol).
Proof.
elim: fuel x lam i crit => [|f IH] x lam i crit /=; first by case=> _ <- _; rewrite addn0 leqnn ltnn.
case: ifP => [_|/negbT]; last by rewrite -leNgt => le [_ <- <-]; rewrite leqnn leq_addr.
case E: (sqp_step _ _ _ _) => [[[y l] cr]|] //= /IH; rewrite addSnnS => - [/andP [a b] c].
by rewrite (ltnW a) b.
Qed.
Theorem local_eq_bound x0 max_iter tol x iter crit : local_eq norm Q x0 max_iter tol = Some (x, iter, crit) ->
  (iter <= max_iter)%N /\ ((iter < max_iter)%N -> crit <= tol).
Proof. by move/local_eq_loop_bound; rewrite add0n => - [/andP [_ ? ]]. Qed.
Theorem tf_fast_agrees x0 num_iter : (0 < num_iter)%N ->
  local_eq_fast norm Q x0 num_iter =
  (let? '(xs, lams, crits) := tf_local_eq_fast norm Q x0 num_iter in Some (last x0 xs, num_iter, last 1 crits)) /\
  (forall xs lams crits, tf_local_eq_fast norm Q x0 num_iter = Some (xs, lams, crits) ->
     [/\ size xs = num_iter, size lams = num_iter & size crits = num_iter]).
Proof.
move=> _; rewrite /local_eq_fast /tf_local_eq_fast.
have H i cr : fast_loop norm Q i cr = (let? r := tf_fast_loop norm Q i cr in Some (last cr r)).
  elim: i cr => [|i IH] cr //=; case: (sqp_step _ _ _ _) => [cr'|] //=; rewrite IH.
  by case: (tf_fast_loop _ _ _ _).
have S i cr r : tf_fast_loop norm Q i cr = Some r -> size r = i.
  elim: i cr r => [|i IH] cr r /=; first by case=> <-.
  by case: (sqp_step _ _ _ _) => [cr'|] //=; case E: (tf_fast_loop _ _ _ _) => [r'|] //= [<-] /=; rewrite (IH _ _ E).
rewrite H; case E: (tf_fast_loop _ _ _ _) => [r|] //=; split.
  have e : last (x0, 0, 1) r = (last x0 [seq c.1.1 | c <- r], last 0 [seq c.1.2 | c <- r], last 1 [seq c.2 | c <- r]).
    by rewrite (last_map (fun c => c.1.1) r (x0, 0, 1)) (last_map (fun c => c.1.2) r (x0, 0, 1)) (last_map snd r (x0, 0, 1)); case: (last _ _) => [[? ?] ?].
  by rewrite e.
by move=> xs ls cs [<- <- <-]; rewrite !size_map (S _ _ _ E).
Qed.
End Loops.
