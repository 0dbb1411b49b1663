(** Direct shooting: exact tables for linear dynamics and quadratic cost, values for unreachable end points, and nan in
    every entry if there is no running cost. *)
From Coq Require Import Ring Field.
From mathcomp Require Import all_ssreflect all_algebra.
From Verif Require Import MxBase LinComb LqtModel ClqtModel NlqtSpec NlqtProofs SqpModel SqpSpec SqpProofs ShootModel ShootSpec ShootProofs Rk4Proofs ShootQuad ShootMain ShootAd ShootTable ShootBad.
Import Order.TTheory GRing.Theory Num.Theory.
Set Implicit Arguments. Unset Strict Implicit. Unset Printing Implicit Defensive.
Local Open Scope ring_scope.

Section Lq.
Variable R : realFieldType.
Variables (ad : forall m, ('cV[R]_m -> R) -> ('cV[R]_m -> 'cV[R]_1) -> nlp R m 1) (norm : forall m, 'cV[R]_m -> R).
Variables (g L : R -> R -> R) (p q r lxx lxu luu lx lu l0 : R).
Hypothesis ga : affine_dynamics g p q r.
Hypothesis q0 : q != 0.
Hypothesis Lq : quadratic_cost L lxx lxu luu lx lu l0.
Hypothesis cvx : convex_in_control lxx lxu luu.
Variables (T : R) (blocks n : nat) (xs : seq R) (k : nat).
Hypotheses (T0 : 0 < T) (b0 : (0 < blocks)%N) (n0 : (0 < n)%N) (k0 : (0 < k)%N).
Local Notation Tb := (T / blocks%:R).
Local Notation h := (T / blocks%:R / n%:R).
Let Tb_gt0 : 0 < Tb. Proof. by rewrite divr_gt0 // ltr0n. Qed.
Lemma lq_table1 method : (method != 2)%N -> (forall x y, x \in xs -> y \in xs -> exact_derivatives (shoot_nlp ad (fc_1 g L Tb (steps := n)) x y)) ->
  exists2 tab, directShooting g L ad norm T blocks n xs method k = Some tab &
  table_of xs (fun x y e => exists2 v, e = Some v &
    unique_least (fun ab : seq R * seq R => [/\ size ab.1 = n, size ab.2 = n & simulate g (piecewise ab.1 ab.2 h) h x n = y])
      (fun ab => simulated_cost g L (piecewise ab.1 ab.2 h) h x n) v) tab.
Proof.
move=> /negPf m2 ex; rewrite dsE ?(gt_eqF T0) // m2; eexists; first by [].
by apply: table_map => i j li lj; apply: (one1 ga q0 Lq cvx) => //; apply: ex; exact: mem_nth.
Qed.
Lemma lq_table2 : (forall x y, x \in xs -> y \in xs -> exact_derivatives (shoot_nlp ad (fc_2 g L Tb (steps := n)) x y)) ->
  exists2 tab, directShooting g L ad norm T blocks n xs 2 k = Some tab &
  table_of xs (fun x y e => exists2 v, e = Some v &
    unique_least (fun ub : R * seq R => size ub.2 = n /\ simulate g (broken_line ub.1 ub.2 h) h x n = y)
      (fun ub => simulated_cost g L (broken_line ub.1 ub.2 h) h x n) v) tab.
Proof.
move=> ex; rewrite dsE ?(gt_eqF T0) // eqxx; eexists; first by [].
by apply: table_map => i j li lj; apply: (one2 ga q0 Lq cvx) => //; apply: ex; exact: mem_nth.
Qed.
Lemma lq_compare method tab tab2 i j v v2 : (method != 2)%N ->
  (forall x y, x \in xs -> y \in xs -> exact_derivatives (shoot_nlp ad (fc_1 g L Tb (steps := n)) x y)) ->
  (forall x y, x \in xs -> y \in xs -> exact_derivatives (shoot_nlp ad (fc_2 g L Tb (steps := n)) x y)) ->
  directShooting g L ad norm T blocks n xs method k = Some tab -> directShooting g L ad norm T blocks n xs 2 k = Some tab2 ->
  (i < size xs)%N -> (j < size xs)%N -> entry tab i j = Some v -> entry tab2 i j = Some v2 -> v <= v2.
Proof.
move=> m2 e1 e2 D1 D2 li lj E1 E2.
have [t1 + [_ _ /(_ _ _ li lj) [w1 W1 U1]]] := lq_table1 m2 e1; rewrite D1 => -[et1]; move: W1; rewrite -et1 E1 => -[ew1].
have [t2 + [_ _ /(_ _ _ li lj) [w2 W2 U2]]] := lq_table2 e2; rewrite D2 => -[et2]; move: W2; rewrite -et2 E2 => -[ew2].
subst w1 w2; case: U2 => -[u0 b] [/= [sb xf] <- _]; case: U1 => ab [Dab <- mn].
have e s : (s < n)%N -> broken_line u0 b h s =1 piecewise (starts h u0 b) b h s.
  by move=> lt t; rewrite /broken_line /piecewise /starts (nth_map 0%N) ?size_iota ?sb // nth_iota ?sb.
rewrite (@simcost_ext _ g L _ _ h (nth 0 xs i) n e).
have Db : [/\ size (starts h u0 b, b).1 = n, size (starts h u0 b, b).2 = n & simulate g (piecewise (starts h u0 b) b h) h (nth 0 xs i) n = nth 0 xs j].
  by split=> //=; [rewrite size_map size_iota | rewrite -(@simulate_ext _ g _ _ h (nth 0 xs i) n e)].
case: ((starts h u0 b, b) =P ab) => [<-|ne] //; exact/ltW/(mn _ Db).
Qed.
End Lq.

(** ** an end point that no control reaches *)
Section Unreach.
Variable R : realFieldType.
Variables (ad : forall m, ('cV[R]_m -> R) -> ('cV[R]_m -> 'cV[R]_1) -> nlp R m 1) (norm : forall m, 'cV[R]_m -> R).
Let fcb1 (x0 xf : R) (z : 'cV[R]_2) : fc_1 (@bad_g R) (@bad_L R) 1 x0 xf (z : 'cV[R]_(2 * 1)) = fun_and_con_1 (@bad_g R) (@bad_L R) 1 x0 xf [:: z 0 0] [:: z 1 0].
Proof. by rewrite /fc_1; have -> : @vec R (2 * 1) z = [:: z 0 0; z 1 0] by exact: vec2. Qed.
Let fcb2 (x0 xf : R) (z : 'cV[R]_2) : fc_2 (@bad_g R) (@bad_L R) 1 x0 xf z = fun_and_con_1 (@bad_g R) (@bad_L R) 1 x0 xf [:: z 0 0] [:: z 1 0].
Proof. by rewrite /fc_2 vec2 bad_fc2. Qed.
Lemma bad_reach (u : control R) h (x0 : R) n : 0 <= h -> simulate (@bad_g R) u h x0 n <> x0 - 3%:R.
Proof.
move=> h0 E; have := @bad_up R u h x0 n h0; rewrite E ler_subr_addl -subr_ge0 opprD addrCA subrr addr0 oppr_ge0.
by rewrite leNgt ltr0n.
Qed.
Lemma bad_table (x0 : R) method k :
  exact_derivatives (shoot_nlp ad (fc_1 (@bad_g R) (@bad_L R) 1 (steps := 1)) x0 (x0 - 3%:R)) ->
  exact_derivatives (shoot_nlp ad (fc_2 (@bad_g R) (@bad_L R) 1 (steps := 1)) x0 (x0 - 3%:R)) ->
  exists tab v, [/\ directShooting (@bad_g R) (@bad_L R) ad norm 1 1 1 [:: x0; x0 - 3%:R] method k = Some tab & entry tab 0 1 = Some v].
Proof.
move=> e1 e2; rewrite dsE ?oner_eq0 //.
have d1 : 1 / 1%:R = 1 :> R by rewrite divr1.
have [v1 V1 _] := @bad_one R ad norm (fc_1 (@bad_g R) (@bad_L R) 1 (steps := 1)) x0 k fcb1 e1.
have [v2 V2 _] := @bad_one R ad norm (fc_2 (@bad_g R) (@bad_L R) 1 (steps := 1)) x0 k fcb2 e2.
case: eqP => _; do 2 eexists; (split; first by []); rewrite /entry /= d1; [exact: V2 | exact: V1].
Qed.
End Unreach.

(** ** no running cost *)
Section Free.
Variable R : realFieldType.
Lemma wide_singular m (A : 'M[R]_(1, m)) : (1 < m)%N -> block_mx 0 (- A^T) A 0 \notin unitmx.
Proof.
move=> m1; apply/negP => un.
have : (kermx A^T != 0) by rewrite kermx_eq0 /row_free neq_ltn (leq_ltn_trans (rank_leq_col _) m1).
case/rowV0Pn => v /sub_kermxP vA v0.
have /eqP : block_mx 0 (- A^T) A 0 *m col_mx v^T (0 : 'cV[R]_1) = 0.
  by rewrite mul_block_col !mulmx0 mul0mx !addr0 -[A *m v^T]trmxK trmx_mul trmxK vA trmx0 col_mx0.
move/eqP/(congr1 (fun M => invmx (block_mx 0 (- A^T) A 0) *m M)); rewrite mulKmx // mulmx0 -(col_mx0 R m 1 1) => /eq_col_mx [e _].
by case/negP: v0; rewrite -[v]trmxK e trmx0.
Qed.
Variables (m : nat) (nm : 'cV[R]_m -> R) (Q : nlp R m 1).
Lemma free_nan k x0 : (1 < m)%N -> (forall z, pf Q z = 0) ->
  (forall x, is_gradient (fun x => pf Q x - dot 0 (pc Q x)) x (pdl Q x 0)) -> (forall x, is_jacobian (pdl Q ^~ 0) x (phl Q x 0)) ->
  (0 < k)%N -> local_eq_fast nm Q x0 k = None.
Proof.
case: k => // k m1 f0 gl hl _; rewrite /local_eq_fast /= /sqp_step.
have l0 x : pdl Q x 0 = 0.
  apply: (gradient_unique (gl x)); apply: (@grad_ext _ _ (fun _ => 0)); first by move=> y; rewrite f0 dot0l subr0.
  by move=> eps e0; exists 1 => [|h _]; rewrite ?ltr01 // dot0l !subr0 normr0; apply: mulr_ge0; [exact: ltW | exact: vnorm_ge0].
have h0 : phl Q x0 0 = 0.
  apply: (jacobian_unique (hl x0)); apply: (@jac_ext _ _ _ (fun _ => 0)); first by move=> y; rewrite l0.
  by move=> eps e0; exists 1 => [|h _]; rewrite ?ltr01 // mul0mx !subr0 vnorm0; apply: mulr_ge0; [exact: ltW | exact: vnorm_ge0].
by rewrite h0 /lqe_solve /solve (negPf (wide_singular _ m1)).
Qed.
End Free.
Section FreeTab.
Variable R : realFieldType.
Variables (ad : forall m, ('cV[R]_m -> R) -> ('cV[R]_m -> 'cV[R]_1) -> nlp R m 1) (norm : forall m, 'cV[R]_m -> R).
Variables (g L : R -> R -> R).
Hypothesis L0 : forall x u, L x u = 0.
Lemma free_cost u h x n : simulated_cost g L u h x n = 0.
Proof. by rewrite /simulated_cost big1 // => i _; rewrite /step_cost /weighted_mean !L0 !mulr0 !addr0 mul0r mulr0. Qed.
Lemma free_table T blocks n xs method k : T != 0 -> (0 < blocks)%N -> (0 < n)%N -> (0 < k)%N ->
  (forall m (f : 'cV[R]_m -> R) c, (forall z, f z = 0) -> let Q := with_ad ad f c in
     (forall x, is_gradient (fun x => pf Q x - dot 0 (pc Q x)) x (pdl Q x 0)) /\ (forall x, is_jacobian (pdl Q ^~ 0) x (phl Q x 0))) ->
  exists2 tab, directShooting g L ad norm T blocks n xs method k = Some tab & table_of xs (fun _ _ e => e = None) tab.
Proof.
move=> T0 b0 n0 k0 H; have Tb := Tb0 b0 T0; rewrite dsE //; eexists; first by [].
case: eqP => _; apply: table_map => i j _ _; rewrite /V_eval_one.
  have f0 z : fc_fun (fc_2 g L (T / blocks%:R) (steps := n)) (nth 0 xs i) (nth 0 xs j) z = 0 by rewrite /fc_fun fc_2E //= free_cost.
  by case: (H _ _ (fc_con (fc_2 g L (T / blocks%:R) (steps := n)) (nth 0 xs i) (nth 0 xs j)) f0) => h1 h2; rewrite free_nan.
have f0 z : fc_fun (fc_1 g L (T / blocks%:R) (steps := n)) (nth 0 xs i) (nth 0 xs j) z = 0 by rewrite /fc_fun fc_1E //= free_cost.
case: (H _ _ (fc_con (fc_1 g L (T / blocks%:R) (steps := n)) (nth 0 xs i) (nth 0 xs j)) f0) => h1 h2; rewrite free_nan //.
by rewrite mul2n -addnn -[2%N]addn1 leq_add.
Qed.
End FreeTab.
