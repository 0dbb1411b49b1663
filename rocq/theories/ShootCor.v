(** Direct shooting: the statements of the property theorems, put together. *)
From Coq Require Import Ring Field.
From mathcomp Require Import all_ssreflect all_algebra.
From Verif Require Import MxBase LinComb LqtModel ClqtModel NlqtSpec NlqtProofs SqpModel SqpSpec SqpProofs ShootModel ShootSpec ShootProofs Rk4Proofs ShootQuad ShootMain ShootAd ShootTable ShootBad ShootNan ShootEx.
Import Order.TTheory GRing.Theory Num.Theory.
Set Implicit Arguments. Unset Strict Implicit. Unset Printing Implicit Defensive.
Local Open Scope ring_scope.
Section C.
Variable R : realFieldType.
Implicit Types g L : R -> R -> R.
Lemma cor_m2 g L (T x0 xf u0 : R) (b : seq R) : T != 0 -> (0 < size b)%N ->
  exists2 a, size a = size b & fun_and_con_2 g L T x0 xf (u0 :: b) = fun_and_con_1 g L T x0 xf a b /\
    (forall t, piecewise a b (T / (size b)%:R) 0%N t = u0 + nth 0 b 0 * t) /\ continuous_control (piecewise a b (T / (size b)%:R)) (T / (size b)%:R) (size b).
Proof.
move=> T0 n0; exists (starts (T / (size b)%:R) u0 b); first by rewrite size_map size_iota.
set h := T / _; split; first exact: method2_is_method1.
have e i : (i < size b)%N -> broken_line u0 b h i =1 piecewise (starts h u0 b) b h i.
  by move=> lt t; rewrite /broken_line /piecewise /starts (nth_map 0%N) ?size_iota // nth_iota.
split=> [t|]; first by rewrite -e // /broken_line big_ord0 mulr0 addr0 mul0r subr0.
by move=> i lt; rewrite -!e // ?(ltnW lt) //; apply: (broken_line_continuous _ _ _ lt).
Qed.
Lemma cor_raise g L (T x0 xf : R) : (forall a b, (T == 0) || (size a == 0)%N || (size b != size a) -> fun_and_con_1 g L T x0 xf a b = None) /\
  (forall theta, (T == 0) || (size theta <= 1)%N -> fun_and_con_2 g L T x0 xf theta = None).
Proof. by split=> *; [exact: fc1_none | exact: fc2_none]. Qed.
Lemma cor_tf_fc g L (T x0 xf : R) : (forall a b, tf_fun_and_con_1 g L T x0 xf a b = fun_and_con_1 g L T x0 xf a b) /\
  (forall theta, tf_fun_and_con_2 g L T x0 xf theta = fun_and_con_2 g L T x0 xf theta).
Proof. by split=> *; [exact: tf_fc1 | exact: tf_fc2]. Qed.
Variables (ad : forall m, ('cV[R]_m -> R) -> ('cV[R]_m -> 'cV[R]_1) -> nlp R m 1) (norm : forall m, 'cV[R]_m -> R).
Lemma cor_tf_tab g L (T : R) n xs ys k tab : extensional_ad ad -> (0 < k)%N ->
  (tf_V_eval_1 g L ad norm T n xs ys k = Some tab <-> V_eval_1 g L ad norm T n xs ys k = Some [seq [seq Some v | v <- r] | r <- tab]) /\
  (tf_V_eval_2 g L ad norm T n xs ys k = Some tab <-> V_eval_2 g L ad norm T n xs ys k = Some [seq [seq Some v | v <- r] | r <- tab]).
Proof. by move=> ext k0; split; apply: tf_same => // x y z; [exact: tf_fc1 | exact: tf_fc2]. Qed.
Lemma cor_bad (x0 : R) : exists g L, 
  (forall u h n, 0 <= h -> simulate g u h x0 n <> x0 - 3%:R) /\
  (exact_derivatives (shoot_nlp ad (fc_1 g L 1 (steps := 1)) x0 (x0 - 3%:R)) ->
   exact_derivatives (shoot_nlp ad (fc_2 g L 1 (steps := 1)) x0 (x0 - 3%:R)) -> forall method k,
   exists tab v, directShooting g L ad norm 1 1 1 [:: x0; x0 - 3%:R] method k = Some tab /\ entry tab 0 1 = Some v).
Proof.
exists (@bad_g R), (@bad_L R); split; first by move=> *; exact: bad_reach.
by move=> e1 e2 method k; have [tab [v [h1 h2]]] := bad_table norm method k e1 e2; exists tab, v.
Qed.
Lemma cor_bad_fd (x0 : R) : exists g L, 
  (forall u h n, 0 <= h -> simulate g u h x0 n <> x0 - 3%:R) /\ (forall method k,
   exists tab v, directShooting g L (@fd_ad R) norm 1 1 1 [:: x0; x0 - 3%:R] method k = Some tab /\ entry tab 0 1 = Some v) /\
  exact_derivatives (shoot_nlp (@fd_ad R) (fc_1 g L 1 (steps := 1)) x0 (x0 - 3%:R)) /\
  exact_derivatives (shoot_nlp (@fd_ad R) (fc_2 g L 1 (steps := 1)) x0 (x0 - 3%:R)).
Proof.
exists (@bad_g R), (@bad_L R); split; first by move=> *; exact: bad_reach.
split; last by split; [exact: fd_bad1 | exact: fd_bad2].
by move=> method k; have [tab [v [h1 h2]]] := bad_table norm method k (@fd_bad1 R x0 _) (@fd_bad2 R x0 _); exists tab, v.
Qed.
Lemma cor_free nx nu T blocks n xs method k : T != 0 -> (0 < blocks)%N -> (0 < n)%N -> (0 < k)%N ->
  (forall m (f : 'cV[R]_m -> R) c, (forall z, f z = 0) -> let Q := with_ad ad f c in
     (forall x, is_gradient (fun x => pf Q x - dot 0 (pc Q x)) x (pdl Q x 0)) /\ (forall x, is_jacobian (pdl Q ^~ 0) x (phl Q x 0))) ->
  let M := upwind_model R nx nu in
  (forall h x i, simulate (md_f M) (fun _ _ => 0) h x i = x) /\
  (forall h x i, simulated_cost (md_f M) (md_L M) (fun _ _ => 0) h x i = 0) /\
  exists2 tab, directShooting (md_f M) (md_L M) ad norm T blocks n xs method k = Some tab & table_of xs (fun _ _ e => e = None) tab.
Proof.
move=> T0 b0 n0 k0 H M; split; last by split; [move=> *; exact: free_cost | exact: free_table].
by move=> h x; elim=> [|i IH] //=; rewrite /state_after /weighted_mean !mul0r !mulr0 !addr0 mul0r mulr0 addr0.
Qed.
End C.
Section Ex.
Variable R : realFieldType.
Definition taxi m (x : 'cV[R]_m) : R := \sum_i `|x i 0|.
Lemma ex_lin nx nu blocks n k : (0 < blocks)%N -> (0 < n)%N -> (0 < k)%N ->
  let M := linear_model R nx nu in let h := md_T M / blocks%:R / n%:R in
  [/\ affine_dynamics (md_f M) 1 1 0, quadratic_cost (md_L M) 1 0 1 0 0 0, convex_in_control (1 : R) 0 1 &
  exists tab tab2, [/\ directShooting (md_f M) (md_L M) (@fd_ad R) taxi (md_T M) blocks n (md_xs M) 1 k = Some tab,
    directShooting (md_f M) (md_L M) (@fd_ad R) taxi (md_T M) blocks n (md_xs M) 2 k = Some tab2 &
    forall i j, (i < nx)%N -> (j < nx)%N -> exists v v2, [/\ entry tab i j = Some v, entry tab2 i j = Some v2, v <= v2 &
      unique_least (fun ab : seq R * seq R => [/\ size ab.1 = n, size ab.2 = n & simulate (md_f M) (piecewise ab.1 ab.2 h) h (nth 0 (md_xs M) i) n = nth 0 (md_xs M) j])
      (fun ab => simulated_cost (md_f M) (md_L M) (piecewise ab.1 ab.2 h) h (nth 0 (md_xs M) i) n) v]]].
Proof.
move=> b0 n0 k0 M h; have A := @lin_affine R nx nu; have Q := @lin_quadratic R nx nu; have C := @lin_convex R; split=> //.
have T0 : 0 < md_T M by exact: ltr01.
have Tb : md_T M / blocks%:R != 0 by rewrite gt_eqF // divr_gt0 // ltr0n.
have sx : size (md_xs M) = nx by rewrite /= size_map size_iota.
have e1 x y : x \in md_xs M -> y \in md_xs M -> _ := fun _ _ => fd_lq1 A Q Tb n0 x y.
have e2 x y : x \in md_xs M -> y \in md_xs M -> _ := fun _ _ => fd_lq2 A Q Tb n0 x y.
have [tab D1 [_ _ H1]] := @lq_table1 _ (@fd_ad R) taxi _ _ _ _ _ _ _ _ _ _ _ A (oner_neq0 _) Q C _ _ _ _ _ T0 b0 n0 k0 1%N erefl e1.
have [tab2 D2 [_ _ H2]] := @lq_table2 _ (@fd_ad R) taxi _ _ _ _ _ _ _ _ _ _ _ A (oner_neq0 _) Q C _ _ _ _ _ T0 b0 n0 k0 e2.
exists tab, tab2; split=> // i j; rewrite -sx => li lj; have [v V U] := H1 _ _ li lj; have [v2 V2 U2] := H2 _ _ li lj.
exists v, v2; split=> //.
exact: (@lq_compare _ (@fd_ad R) taxi _ _ _ _ _ _ _ _ _ _ _ A (oner_neq0 _) Q C _ _ _ _ _ T0 b0 n0 k0 1%N tab tab2 i j v v2 erefl e1 e2 D1 D2 li lj V V2).
Qed.
Lemma ex_tf : extensional_ad (@fd_ad R) /\ exists tab, tf_V_eval_1 (fun x u => x + u) (fun x u => x ^+ 2 + u ^+ 2) (@fd_ad R) taxi 1 1 [:: 1; 0] [:: 1; 0] 3 = Some tab.
Proof.
have ext := @fd_ext R; split=> //.
have A : affine_dynamics (fun x u : R => x + u) 1 1 0 by move=> x u; rewrite !mul1r addr0.
have Q : quadratic_cost (fun x u : R => x ^+ 2 + u ^+ 2) 2%:R 0 2%:R 0 0 0.
  by move=> x u; rewrite !mul0r !addr0 mulr0 !mul0r addr0 -mulrDr mulrC mulKf // pnatr_eq0.
have C : convex_in_control (2%:R : R) 0 2%:R.
  move=> x u; rewrite mulr0 !mul0r addr0 -mulrDr pmulr_rge0 ?ltr0n // pmulr_rgt0 ?ltr0n // addr_ge0 ?sqr_ge0 //; split=> // u0.
  by rewrite ltr_paddl ?sqr_ge0 // lt_neqAle sqr_ge0 eq_sym sqrf_eq0 u0.
have one x y := @one1 R _ _ _ _ _ _ _ _ _ _ _ A (oner_neq0 _) Q C (@fd_ad R) taxi 1 1 x y 3 ltr01 isT isT (@fd_lq1 R _ _ _ _ _ _ _ _ _ _ _ A Q 1 1 (oner_neq0 _) isT x y).
have [a Ea _] := one 1 1; have [b Eb _] := one 1 0; have [c Ec _] := one 0 1; have [d Ed _] := one 0 0.
exists [:: [:: a; b]; [:: c; d]].
have [[_ H] _] := @cor_tf_tab R (@fd_ad R) taxi (fun x u : R => x + u) (fun x u => x ^+ 2 + u ^+ 2) 1 1 [:: 1; 0] [:: 1; 0] 3 [:: [:: a; b]; [:: c; d]] ext isT.
apply: H.
by rewrite V1E ?oner_eq0 //= Ea Eb Ec Ed.
Qed.
Add Ring Rr : (mc_ring R).
Add Field Rf : (mc_field R).
Lemma ex_fc : fun_and_con_1 (fun _ u : R => u) (fun _ u => u ^+ 2) 1 1 0 [:: 1] [:: 2%:R] = Some ((1 + 4%:R * 3%:R) / 3%:R, 3%:R%:M).
Proof.
rewrite fc1E ?oner_eq0 //= /simulated_cost big_ord1 /= /state_after /step_cost /weighted_mean /piecewise /=.
rewrite !divr1 !mul1r !mul0r !subr0; congr (Some (_, _%:M)); rsn R; field; repeat split; num_neq0 R.
Qed.
End Ex.
