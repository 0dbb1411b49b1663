(** Direct shooting is exact for affine dynamics and convex quadratic costs (C87). *)
From Coq Require Import Ring Field.
From mathcomp Require Import all_ssreflect all_algebra.
From Verif Require Import MxBase LinComb LqtModel Rk4Model SqpModel SqpSpec SqpProofs ClqtModel ShootModel ShootSpec ShootProofs Rk4Proofs.
Import Order.TTheory GRing.Theory Num.Theory.
Set Implicit Arguments. Unset Strict Implicit. Unset Printing Implicit Defensive.
Local Open Scope ring_scope.

Lemma scE (R : realFieldType) (A : 'M[R]_1) : A = (sc A)%:M.
Proof. exact: mx11_scalar. Qed.

Section Fn.
Variable R : realFieldType.
Add Ring Rr : (mc_ring R).
Add Field Rf : (mc_field R).
Ltac sfield := rsn R; field; repeat split; num_neq0 R.
Variable m : nat.
Local Notation T := ('cV[R]_m).
Implicit Types f : T -> R.
Definition linear_f f := exists w, forall z, f z = dot w z.
Definition affine_f f := exists w b, forall z, f z = dot w z + b.
Definition quad_f f := exists G c c0, symm G /\ forall z, f z = qp_cost G c z + c0.
Definition curv f (z : T) : R := f z + f (- z) - 2%:R * f 0.

Lemma lin_aff f : linear_f f -> affine_f f.
Proof. by case=> w e; exists w, 0 => z; rewrite addr0. Qed.
Lemma aff_const (a : R) : affine_f (fun _ => a).
Proof. by exists 0, a => z; rewrite dot0l add0r. Qed.
Lemma aff_add f f' : affine_f f -> affine_f f' -> affine_f (fun z => f z + f' z).
Proof. by case=> w [b e] [w' [b' e']]; exists (w + w'), (b + b') => z; rewrite e e' dotDl; sfield. Qed.
Lemma aff_scale a f : affine_f f -> affine_f (fun z => a * f z).
Proof. by case=> w [b e]; exists (a *: w), (a * b) => z; rewrite e dotZl; sfield. Qed.
Lemma aff_ext f f' : f =1 f' -> affine_f f -> affine_f f'.
Proof. by move=> e [w [b h]]; exists w, b => z; rewrite -e. Qed.
Lemma lin_add f f' : linear_f f -> linear_f f' -> linear_f (fun z => f z + f' z).
Proof. by case=> w e [w' e']; exists (w + w') => z; rewrite e e' dotDl. Qed.
Lemma lin_scale a f : linear_f f -> linear_f (fun z => a * f z).
Proof. by case=> w e; exists (a *: w) => z; rewrite e dotZl. Qed.
Lemma lin_ext f f' : f =1 f' -> linear_f f -> linear_f f'.
Proof. by move=> e [w h]; exists w => z; rewrite -e. Qed.
Lemma lin_sum k (F : 'I_k -> T -> R) : (forall i, linear_f (F i)) -> linear_f (fun z => \sum_i F i z).
Proof.
elim: k F => [|k ih] F H; first by exists 0 => z; rewrite big_ord0 dot0l.
apply: (@lin_ext (fun z => F ord0 z + \sum_i F (lift ord0 i) z)); first by move=> z; rewrite big_ord_recl.
by apply: lin_add => //; apply: ih.
Qed.
Lemma lin_coord k : linear_f (fun z => nth 0 (vec z) k).
Proof.
case: (ltnP k m) => lt.
  exists (delta_mx (Ordinal lt) 0) => z; rewrite /vec (nth_map (Ordinal lt)) ?size_enum_ord //.
  have -> : nth (Ordinal lt) (enum 'I_m) k = Ordinal lt by apply: val_inj; rewrite /= nth_enum_ord.
  rewrite /dot /sc mxE (bigD1 (Ordinal lt)) //= !mxE !eqxx mul1r big1 ?addr0 // => j ne.
  by rewrite !mxE (negPf ne) mul0r.
by exists 0 => z; rewrite dot0l nth_default // /vec size_map size_enum_ord.
Qed.

Lemma symmD (A B : 'M[R]_m) : symm A -> symm B -> symm (A + B).
Proof. by rewrite /symm linearD /= => -> ->. Qed.
Lemma symmZ a (A : 'M[R]_m) : symm A -> symm (a *: A).
Proof. by rewrite /symm linearZ /= => ->. Qed.
Lemma qf_add (A B : 'M[R]_m) z : qf (A + B) z = qf A z + qf B z.
Proof. by rewrite /qf mulmxDr mulmxDl scD. Qed.
Lemma qf_scl a (A : 'M[R]_m) z : qf (a *: A) z = a * qf A z.
Proof. by rewrite /qf -scalemxAr -scalemxAl scZ. Qed.
Lemma qf_zero z : qf (0 : 'M[R]_m) z = 0.
Proof. by rewrite /qf mulmx0 mul0mx sc0. Qed.
Lemma quad_ext f f' : f =1 f' -> quad_f f -> quad_f f'.
Proof. by move=> e [G [c [c0 [s h]]]]; exists G, c, c0; split=> // z; rewrite -e. Qed.
Lemma quad_aff f : affine_f f -> quad_f f.
Proof.
case=> w [b e]; exists 0, w, b; split=> [|z]; first by rewrite /symm trmx0.
by rewrite e /qp_cost qf_zero mul0r add0r.
Qed.
Lemma quad_add f f' : quad_f f -> quad_f f' -> quad_f (fun z => f z + f' z).
Proof.
case=> G [c [c0 [s e]]] [G' [c' [c0' [s' e']]]]; exists (G + G'), (c + c'), (c0 + c0'); split; first exact: symmD.
by move=> z; rewrite e e' /qp_cost qf_add dotDl; sfield.
Qed.
Lemma quad_scale a f : quad_f f -> quad_f (fun z => a * f z).
Proof.
case=> G [c [c0 [s e]]]; exists (a *: G), (a *: c), (a * c0); split; first exact: symmZ.
by move=> z; rewrite e /qp_cost qf_scl dotZl; sfield.
Qed.
Lemma quad_sum k (F : 'I_k -> T -> R) : (forall i, quad_f (F i)) -> quad_f (fun z => \sum_i F i z).
Proof.
elim: k F => [|k ih] F H.
  by apply: (@quad_ext (fun _ => 0)); [move=> z; rewrite big_ord0 | apply: quad_aff; apply: aff_const].
apply: (@quad_ext (fun z => F ord0 z + \sum_i F (lift ord0 i) z)); first by move=> z; rewrite big_ord_recl.
by apply: quad_add => //; apply: ih.
Qed.
Lemma qf_outer (w w' z : T) : qf (w *m w'^T) z = dot w z * dot w' z.
Proof.
rewrite /qf mulmxA -mulmxA.
have -> : w'^T *m z = (dot w' z)%:M by rewrite /dot -scE.
by rewrite mul_mx_scalar scZ mulrC -/(dot z w) dotC.
Qed.
Lemma quad_mul f f' : affine_f f -> affine_f f' -> quad_f (fun z => f z * f' z).
Proof.
case=> w [b e] [w' [b' e']]; exists (w *m w'^T + w' *m w^T), (b' *: w + b *: w'), (b * b'); split.
  by rewrite /symm linearD /= !trmx_mul !trmxK addrC.
by move=> z; rewrite e e' /qp_cost qf_add !qf_outer dotDl !dotZl; sfield.
Qed.

Lemma qp0 (G : 'M[R]_m) c : qp_cost G c 0 = 0.
Proof. by rewrite /qp_cost qf0 dot0r mul0r addr0. Qed.
Lemma curv_quad f G c c0 : (forall z, f z = qp_cost G c z + c0) -> forall z, curv f z = qf G z.
Proof.
move=> e z; rewrite /curv !e qp0 /qp_cost.
have -> : qf G (- z) = qf G z by rewrite !qf_dot mulmxN dotNl dotNr opprK.
by rewrite dotNr; sfield.
Qed.
Lemma curv_add f f' z : curv (fun z => f z + f' z) z = curv f z + curv f' z.
Proof. by rewrite /curv; sfield. Qed.
Lemma curv_scale a f z : curv (fun z => a * f z) z = a * curv f z.
Proof. by rewrite /curv; sfield. Qed.
Lemma curv_sum k (F : 'I_k -> T -> R) z : curv (fun z => \sum_i F i z) z = \sum_i curv (F i) z.
Proof. by rewrite /curv mulr_sumr -big_split /= -sumrB. Qed.
Lemma curv_ext f f' z : f =1 f' -> curv f z = curv f' z.
Proof. by move=> e; rewrite /curv !e. Qed.

(** *** a quadratic cost along affine functions *)
Variables (L : R -> R -> R) (lxx lxu luu lx lu l0 : R).
Hypothesis Lq : quadratic_cost L lxx lxu luu lx lu l0.
Lemma quad_L X U : affine_f X -> affine_f U -> quad_f (fun z => L (X z) (U z)).
Proof.
move=> aX aU; apply: (@quad_ext (fun z => (lxx / 2%:R) * (X z * X z) + (lxu * (X z * U z) + ((luu / 2%:R) * (U z * U z) + (lx * X z + (lu * U z + l0)))))).
  by move=> z; rewrite Lq; rewrite !expr2; sfield.
apply: quad_add; first by apply: quad_scale; apply: quad_mul.
apply: quad_add; first by apply: quad_scale; apply: quad_mul.
apply: quad_add; first by apply: quad_scale; apply: quad_mul.
by apply: quad_aff; apply: aff_add; [|apply: aff_add]; [apply: aff_scale|apply: aff_scale|apply: aff_const].
Qed.
Definition lform x u : R := lxx * x ^+ 2 + 2%:R * lxu * x * u + luu * u ^+ 2.
Lemma curv_L X U z : affine_f X -> linear_f U -> curv (fun z => L (X z) (U z)) z = lform (X z - X 0) (U z).
Proof.
case=> w [b e] [v e']; rewrite /curv !Lq !e !e' !dot0r !dotNr /lform !expr2; sfield.
Qed.
End Fn.

Section Sim.
Variable R : realFieldType.
Add Ring Rr2 : (mc_ring R).
Add Field Rf2 : (mc_field R).
Ltac sfield := rsn R; field; repeat split; num_neq0 R.
Variables (m : nat) (g L : R -> R -> R) (p q r lxx lxu luu lx lu l0 : R).
Hypothesis ga : affine_dynamics g p q r.
Hypothesis Lq : quadratic_cost L lxx lxu luu lx lu l0.
Hypothesis cvx : convex_in_control lxx lxu luu.
Local Notation T := ('cV[R]_m).

Lemma aff_g (X U : T -> R) : affine_f X -> affine_f U -> affine_f (fun z => g (X z) (U z)).
Proof.
move=> aX aU; apply: (@aff_ext _ _ (fun z => p * X z + (q * U z + r))); first by move=> z; rewrite ga addrA.
by apply: aff_add; [|apply: aff_add]; [apply: aff_scale|apply: aff_scale|apply: aff_const].
Qed.

Variables (u : T -> R -> R) (h : R) (x : T -> R) (t : R).
Hypothesis lu_ : forall s, linear_f (fun z => u z s).
Hypothesis ax : affine_f x.
Let au s : affine_f (fun z => u z s). Proof. exact: lin_aff. Qed.
Lemma aff_step (F : T -> R) c : affine_f F -> affine_f (fun z => x z + c * F z).
Proof. by move=> aF; apply: aff_add => //; apply: aff_scale. Qed.
Lemma aff_pt2 : affine_f (fun z => pt2 g (u z) h (x z) t).
Proof. by apply: aff_step; apply: aff_g. Qed.
Lemma aff_pt3 : affine_f (fun z => pt3 g (u z) h (x z) t).
Proof. by apply: aff_step; apply: aff_g => //; exact: aff_pt2. Qed.
Lemma aff_pt4 : affine_f (fun z => pt4 g (u z) h (x z) t).
Proof. by apply: aff_step; apply: aff_g => //; exact: aff_pt3. Qed.
Lemma aff_state : affine_f (fun z => state_after g (u z) h (x z) t).
Proof.
apply: aff_step; apply: (@aff_ext _ _ (fun z => 6%:R^-1 * (g (pt1 (x z)) (u z t) + (2%:R * g (pt2 g (u z) h (x z) t) (u z (t + h / 2%:R)) +
   (2%:R * g (pt3 g (u z) h (x z) t) (u z (t + h / 2%:R)) + g (pt4 g (u z) h (x z) t) (u z (t + h))))))).
  by move=> z; rewrite /weighted_mean mulrC !addrA.
apply: aff_scale; apply: aff_add; first exact: aff_g.
apply: aff_add; first by apply: aff_scale; apply: aff_g => //; exact: aff_pt2.
apply: aff_add; first by apply: aff_scale; apply: aff_g => //; exact: aff_pt3.
by apply: aff_g => //; exact: aff_pt4.
Qed.
Let C z := (h / 6%:R) * (L (pt1 (x z)) (u z t) + (2%:R * L (pt2 g (u z) h (x z) t) (u z (t + h / 2%:R)) +
   (2%:R * L (pt3 g (u z) h (x z) t) (u z (t + h / 2%:R)) + L (pt4 g (u z) h (x z) t) (u z (t + h))))).
Lemma costC z : C z = step_cost g L (u z) h (x z) t.
Proof. by rewrite /C /step_cost /weighted_mean -mulrA [_^-1 * _]mulrC !addrA. Qed.
Lemma quad_cost : quad_f (fun z => step_cost g L (u z) h (x z) t).
Proof.
apply: (quad_ext costC); apply: quad_scale; apply: quad_add; first exact: (quad_L Lq).
apply: quad_add; first by apply: quad_scale; apply: (quad_L Lq) => //; exact: aff_pt2.
apply: quad_add; first by apply: quad_scale; apply: (quad_L Lq) => //; exact: aff_pt3.
by apply: (quad_L Lq) => //; exact: aff_pt4.
Qed.
Lemma lform_ge0 y w : 0 <= lform lxx lxu luu y w. Proof. by case: (cvx y w). Qed.
Lemma lform_eq0 y w : lform lxx lxu luu y w = 0 -> w = 0.
Proof. by move=> e; apply/eqP/negPn/negP => ne; case: (cvx y w) => _ /(_ ne); rewrite -/(lform lxx lxu luu y w) e ltxx. Qed.
Lemma curv_cost z : 0 < h -> 0 <= curv (fun z => step_cost g L (u z) h (x z) t) z /\
  (curv (fun z => step_cost g L (u z) h (x z) t) z = 0 -> u z t = 0 /\ u z (t + h) = 0).
Proof.
move=> h0; rewrite -(curv_ext z costC) curv_scale curv_add (curv_L Lq) //.
rewrite curv_add curv_scale (curv_L Lq) //; last exact: aff_pt2.
rewrite curv_add curv_scale (curv_L Lq) //; last exact: aff_pt3.
rewrite (curv_L Lq) //; last exact: aff_pt4.
have h6 : 0 < h / 6%:R by rewrite divr_gt0 // ltr0n.
set d1 := lform _ _ _ (pt1 _ - _) _; set d2 := lform _ _ _ (pt2 _ _ _ _ _ - _) _; set d3 := lform _ _ _ (pt3 _ _ _ _ _ - _) _.
set d4 := lform _ _ _ (pt4 _ _ _ _ _ - _) _.
have g1 : 0 <= d1 := lform_ge0 _ _; have g2 : 0 <= d2 := lform_ge0 _ _; have g3 : 0 <= d3 := lform_ge0 _ _.
have g4 : 0 <= d4 := lform_ge0 _ _; have z1 : d1 = 0 -> u z t = 0 := @lform_eq0 _ _; have z4 : d4 = 0 -> u z (t + h) = 0 := @lform_eq0 _ _.
clearbody d1 d2 d3 d4.
have s3 : 0 <= 2%:R * d3 by rewrite mulr_ge0 ?ler0n.
have s2 : 0 <= 2%:R * d2 by rewrite mulr_ge0 ?ler0n.
split.
  apply: mulr_ge0; first exact: ltW.
  by apply: (addr_ge0 g1); apply: (addr_ge0 s2); exact: (addr_ge0 s3 g4).
move/eqP; rewrite mulf_eq0 (gt_eqF h6) /= paddr_eq0 ?addr_ge0 // => /andP[/eqP e1].
rewrite paddr_eq0 ?addr_ge0 // => /andP[_]; rewrite paddr_eq0 // => /andP[_ /eqP e4].
by rewrite z1 // z4.
Qed.
End Sim.

Section Run.
Variable R : realFieldType.
Add Ring Rr3 : (mc_ring R).
Add Field Rf3 : (mc_field R).
Ltac sfield := rsn R; field; repeat split; num_neq0 R.
Variables (m : nat) (g L : R -> R -> R) (p q r lxx lxu luu lx lu l0 : R).
Hypothesis ga : affine_dynamics g p q r.
Hypothesis Lq : quadratic_cost L lxx lxu luu lx lu l0.
Hypothesis cvx : convex_in_control lxx lxu luu.
Local Notation T := ('cV[R]_m).
Variables (U : T -> control R) (h x0 : R).
Hypothesis lU : forall i s, linear_f (fun z => U z i s).
Lemma aff_sim n : affine_f (fun z => simulate g (U z) h x0 n).
Proof. by elim: n => [|n ih] /=; [exact: aff_const | exact: (@aff_state _ _ _ _ _ _ ga)]. Qed.
Lemma quad_sim n : quad_f (fun z => simulated_cost g L (U z) h x0 n).
Proof. by apply: quad_sum => i; apply: (quad_cost ga Lq) => //; exact: aff_sim. Qed.
Lemma curv_sim n z : 0 < h -> curv (fun z => simulated_cost g L (U z) h x0 n) z = 0 ->
  forall i, (i < n)%N -> U z i (i%:R * h) = 0 /\ U z i (i%:R * h + h) = 0.
Proof.
move=> h0; rewrite curv_sum => /eqP.
have H (i : 'I_n) := curv_cost ga Lq cvx (i%:R * h) (lU i) (aff_sim i) z h0.
rewrite psumr_eq0 => [/allP e i lt|i _]; last by case: (H i).
have := e (Ordinal lt); rewrite mem_index_enum => /(_ isT) /eqP /=.
by case: (H (Ordinal lt)) => _ /= K /K.
Qed.
Lemma curv_sim_ge0 n z : 0 < h -> 0 <= curv (fun z => simulated_cost g L (U z) h x0 n) z.
Proof.
move=> h0; rewrite curv_sum; apply: sumr_ge0 => i _.
by case: (curv_cost ga Lq cvx (i%:R * h) (lU i) (aff_sim i) z h0).
Qed.
End Run.

(** ** one entry of the table *)
Section One.
Variable R : realFieldType.
Variables (ad : forall m, ('cV[R]_m -> R) -> ('cV[R]_m -> 'cV[R]_1) -> nlp R m 1) (norm : forall m, 'cV[R]_m -> R).
Variables (m : nat) (fc : R -> R -> 'cV[R]_m -> option (R * 'cV[R]_1)) (x0 xf : R) (F X : 'cV[R]_m -> R).
Hypothesis fcE : forall z, fc x0 xf z = Some (F z, (X z - xf)%:M).
Hypothesis qF : quad_f F.
Hypothesis cF : forall z, 0 <= curv F z /\ (curv F z = 0 -> z = 0).
Hypothesis aX : affine_f X.
Hypothesis ncX : exists z, X z != X 0.
Hypothesis ex : exact_derivatives (shoot_nlp ad fc x0 xf).
Lemma one_exact k : (0 < k)%N -> exists z, [/\ V_eval_one ad norm fc k x0 xf = Some (F z), X z = xf &
  forall z', X z' = xf -> z' <> z -> F z < F z'].
Proof.
move=> k0; case: qF => G [c [c0 [sG eF]]]; case: aX => w [b eX].
have qp : quadratic_problem (shoot_nlp ad fc x0 xf) G c0 c w^T (xf - b)%:M.
  split=> z /=; first by rewrite /fc_fun fcE /= eF.
  rewrite /fc_con fcE /= eX.
  have -> : w^T *m z = (dot w z)%:M by rewrite /dot -scE.
  by rewrite -raddfB /=; congr (_%:M); rewrite opprB addrA.
have ok : qp_ok G w^T.
  split=> // [z _ nz|l]; first by rewrite -(curv_quad eF) lt_neqAle eq_sym; case: (cF z) => -> H; rewrite andbT; apply/eqP => /H.
  rewrite trmxK => e; case: ncX => z; rewrite !eX dot0r => /eqP ne.
  have : dot w z * sc l = 0.
    have : sc (z^T *m (w *m l)) = 0 by rewrite e mulmx0 sc0.
    rewrite [l in w *m l]scE mulmxA mul_mx_scalar scZ mulrC.
    by rewrite -/(dot z w) dotC.
  move/eqP; rewrite mulf_eq0 => /orP[/eqP z0|/eqP l0]; first by case: ne; rewrite z0.
  by rewrite (scE l) l0 raddf0.
have [z [crit [E [Az mn]]]] := @qp_local_eq_fast _ _ _ _ ex _ _ _ _ _ sG qp (@norm m) ok 0 k k0.
have XE z' : w^T *m z' = (xf - b)%:M <-> X z' = xf.
  have -> : w^T *m z' = (dot w z')%:M by rewrite /dot -scE.
  rewrite eX; split=> [|<-]; last by rewrite addrK.
  by move/(congr1 (fun A : 'M[R]_1 => A 0 0)); rewrite !mxE !eqxx !mulr1n => ->; rewrite subrK.
exists z; split; first by rewrite /V_eval_one E /= /fc_fun fcE.
  exact/XE.
by move=> z' /XE e ne; rewrite !eF ltr_add2r; apply: mn.
Qed.
End One.
