(** Direct shooting: the two parametrisations, the exact table for linear-quadratic problems (C87). *)
From Coq Require Import Ring Field.
From mathcomp Require Import all_ssreflect all_algebra.
From Verif Require Import MxBase LinComb LqtModel Rk4Model SqpModel SqpSpec SqpProofs ClqtModel ShootModel ShootSpec ShootProofs Rk4Proofs ShootQuad.
Import Order.TTheory GRing.Theory Num.Theory.
Set Implicit Arguments. Unset Strict Implicit. Unset Printing Implicit Defensive.
Local Open Scope ring_scope.

Section Vec.
Variable R : realFieldType.
Lemma size_vec m (z : 'cV[R]_m) : size (vec z) = m.
Proof. by rewrite /vec size_map size_enum_ord. Qed.
Lemma nth_vec m (z : 'cV[R]_m) k (lt : (k < m)%N) : nth 0 (vec z) k = z (Ordinal lt) 0.
Proof.
rewrite /vec (nth_map (Ordinal lt)) ?size_enum_ord //; congr (z _ 0).
by apply: val_inj; rewrite /= nth_enum_ord.
Qed.
Lemma nth_vec_col m (f : nat -> R) k : (k < m)%N -> nth 0 (vec (\col_(i < m) f i)) k = f k.
Proof. by move=> lt; rewrite (nth_vec _ lt) mxE. Qed.
Lemma vec_eq0 m (z : 'cV[R]_m) : (forall k, (k < m)%N -> nth 0 (vec z) k = 0) -> z = 0.
Proof. by move=> H; apply/matrixP => i j; rewrite mxE ord1 -(H i (ltn_ord i)) (nth_vec _ (ltn_ord i)); congr (z _ 0); apply: val_inj. Qed.
Lemma vec0 m k : nth 0 (vec (0 : 'cV[R]_m)) k = 0.
Proof. by case: (ltnP k m) => lt; [rewrite (nth_vec _ lt) mxE | rewrite nth_default // size_vec]. Qed.

Lemma evens_spec n : forall s : seq R, (size s <= n)%N -> size (evens s) = uphalf (size s) /\ forall i, nth 0 (evens s) i = nth 0 s i.*2.
Proof.
elim: n => [|n ih] [|x [|y s]] //= sz; try by split=> // i; rewrite ?nth_nil //; case: i => [|i] //=; rewrite !nth_nil.
have [e1 e2] := ih s (ltnW sz); rewrite e1; split=> [|[|i]] //=.
Qed.
Lemma size_evens (s : seq R) : size (evens s) = uphalf (size s). Proof. by case: (@evens_spec (size s) s (leqnn _)). Qed.
Lemma nth_evens (s : seq R) i : nth 0 (evens s) i = nth 0 s i.*2. Proof. by case: (@evens_spec (size s) s (leqnn _)). Qed.
Lemma size_odds (s : seq R) : size (odds s) = (size s)./2.
Proof. by case: s => [|x s] //=; rewrite size_evens. Qed.
Lemma nth_odds (s : seq R) i : nth 0 (odds s) i = nth 0 s i.*2.+1.
Proof. by case: s => [|x s] /=; rewrite ?nth_nil // nth_evens. Qed.
End Vec.

Section M.
Variable R : realFieldType.
Add Ring Rr : (mc_ring R).
Add Field Rf : (mc_field R).
Ltac sfield := rsn R; field; repeat split; num_neq0 R.
Variables (g L : R -> R -> R).
Lemma size_e1 n (z : 'cV[R]_(2 * n)) : size (evens (vec z)) = n.
Proof. by rewrite size_evens size_vec mul2n uphalf_double. Qed.
Lemma size_o1 n (z : 'cV[R]_(2 * n)) : size (odds (vec z)) = n.
Proof. by rewrite size_odds size_vec mul2n doubleK. Qed.
Lemma fc_1E T n x0 xf (z : 'cV[R]_(2 * n)) : T != 0 -> (0 < n)%N -> let h := T / n%:R in
  let U := piecewise (evens (vec z)) (odds (vec z)) h in
  fc_1 g L T x0 xf z = Some (simulated_cost g L U h x0 n, (simulate g U h x0 n - xf)%:M).
Proof. by move=> T0 n0 h U; rewrite /fc_1 fc1E // ?size_e1 ?size_o1. Qed.
Lemma vecS n (z : 'cV[R]_n.+1) : vec z = nth 0 (vec z) 0 :: behead (vec z).
Proof. by have := size_vec z; case: (vec z). Qed.
Lemma fc_2E T n x0 xf (z : 'cV[R]_n.+1) : T != 0 -> (0 < n)%N -> let h := T / n%:R in
  let U := broken_line (nth 0 (vec z) 0) (behead (vec z)) h in
  fc_2 g L T x0 xf z = Some (simulated_cost g L U h x0 n, (simulate g U h x0 n - xf)%:M).
Proof.
move=> T0 n0 h U; rewrite /fc_2; have sz : size (behead (vec z)) = n by rewrite size_behead size_vec.
by rewrite vecS fc2E // ?sz.
Qed.

Variables (p q r lxx lxu luu lx lu l0 : R).
Hypothesis ga : affine_dynamics g p q r.
Hypothesis q0 : q != 0.
(** a ramp on one step moves the state *)
Lemma ramp h x t : h != 0 -> state_after g (fun s => s - t) h x t != state_after g (fun _ => 0) h x t.
Proof.
move=> h0; rewrite -subr_eq0.
have -> : state_after g (fun s => s - t) h x t - state_after g (fun _ => 0) h x t = q * h ^+ 2 / 6%:R * (2%:R + (p * h / 2%:R + 1) ^+ 2).
  by rewrite /state_after /weighted_mean /pt4 /pt3 /pt2 /pt1 !ga !expr2; sfield.
rewrite mulf_neq0 //; first by rewrite !mulf_neq0 // ?expf_neq0 // invr_eq0 pnatr_eq0.
by rewrite gt_eqF // ltr_paddr ?ltr0n // sqr_ge0.
Qed.
Lemma sim_zero (U U' : control R) h x0 n : (forall i, (i < n)%N -> forall s, U i s = 0) -> (forall i, (i < n)%N -> forall s, U' i s = 0) ->
  simulate g U h x0 n = simulate g U' h x0 n.
Proof. by move=> e e'; apply: simulate_ext => i lt s; rewrite e // e'. Qed.
Lemma move_end (U U' : control R) h x0 n : h != 0 -> (forall i, (i <= n)%N -> forall s, U' i s = 0) ->
  (forall i, (i < n)%N -> forall s, U i s = 0) -> (forall s, U n s = s - n%:R * h) -> simulate g U h x0 n.+1 != simulate g U' h x0 n.+1.
Proof.
move=> h0 e' e en /=; rewrite (sim_zero (U' := U') h x0 e); last by move=> i lt; apply: e'; apply: ltnW.
rewrite (state_ext g h (simulate g U' h x0 n) (n%:R * h) en) (state_ext g h (simulate g U' h x0 n) (n%:R * h) (e' n (leqnn n))).
exact: ramp.
Qed.

Lemma nonconst1 n h' x0 : (0 < n)%N -> h' != 0 -> exists z : 'cV[R]_(2 * n),
  simulate g (piecewise (evens (vec z)) (odds (vec z)) h') h' x0 n !=
  simulate g (piecewise (evens (vec (0 : 'cV[R]_(2 * n)))) (odds (vec (0 : 'cV[R]_(2 * n)))) h') h' x0 n.
Proof.
case: n => // n' _ h0.
pose f (i : nat) : R := (i == (n'.*2).+1)%:R; exists (\col_(i < 2 * n'.+1) f i).
have lt : ((n'.*2).+1 < 2 * n'.+1)%N by rewrite mul2n doubleS.
apply: move_end => //.
+ by move=> i _ s; rewrite /piecewise nth_evens nth_odds !vec0 mul0r addr0.
+ move=> i li s; rewrite /piecewise nth_evens nth_odds !nth_vec_col /f.
  * by rewrite eqSS (inj_eq double_inj) (ltn_eqF li) mul0r addr0; case: eqP => // /(congr1 odd); rewrite /= !odd_double.
  * by apply: (leq_ltn_trans _ lt); first [by rewrite ltnS leq_double ltnW | by rewrite leqW // leq_double ltnW].
  * by apply: (leq_ltn_trans _ lt); first [by rewrite ltnS leq_double ltnW | by rewrite leqW // leq_double ltnW].
+ move=> s; rewrite /piecewise nth_evens nth_odds !nth_vec_col /f //; last by rewrite ltnW.
  by rewrite eqxx mul1r; case: eqP => [/(congr1 odd)|_]; rewrite /= ?odd_double // add0r.
Qed.
Lemma nonconst2 n h' x0 : (0 < n)%N -> h' != 0 -> exists z : 'cV[R]_n.+1,
  simulate g (broken_line (nth 0 (vec z) 0) (behead (vec z)) h') h' x0 n !=
  simulate g (broken_line (nth 0 (vec (0 : 'cV[R]_n.+1)) 0) (behead (vec (0 : 'cV[R]_n.+1))) h') h' x0 n.
Proof.
case: n => // n' _ h0.
have E z i s : broken_line (nth 0 (vec z) 0) (behead (vec z)) h' i s = nth 0 (vec z) 0 + (h' * (\sum_(j < i) nth 0 (vec z) j.+1) + (s - i%:R * h') * nth 0 (vec z) i.+1).
  rewrite /broken_line nth_behead mulrC -addrA [_ * nth 0 _ _]mulrC; congr (_ + (_ + _)).
  by rewrite mulrC; congr (_ * _); apply: eq_bigr => j _; rewrite nth_behead.
pose f (i : nat) : R := (i == n'.+1)%:R; exists (\col_(i < n'.+2) f i).
have fE k : (k < n'.+2)%N -> nth 0 (vec (\col_(i < n'.+2) f i)) k = (k == n'.+1)%:R by move=> lt; rewrite nth_vec_col.
apply: move_end => //.
+ by move=> i _ s; rewrite E !vec0 mulr0 addr0 big1 ?mulr0 ?addr0 // => j _; rewrite vec0.
+ move=> i li s; rewrite E fE // add0r fE ?ltnS 1?ltnW // eqSS (ltn_eqF li) mulr0 addr0 big1 ?mulr0 // => j _.
  have lj := ltn_trans (ltn_ord j) li.
  by rewrite fE ?ltnS 1?ltnW // eqSS (ltn_eqF lj).
+ move=> s; rewrite E fE // add0r fE // eqxx mulr1 big1 ?mulr0 ?add0r // => j _.
  by rewrite fE ?ltnS 1?ltnW // eqSS (ltn_eqF (ltn_ord j)).
Qed.

Hypothesis Lq : quadratic_cost L lxx lxu luu lx lu l0.
Hypothesis cvx : convex_in_control lxx lxu luu.
Variables (ad : forall m, ('cV[R]_m -> R) -> ('cV[R]_m -> 'cV[R]_1) -> nlp R m 1) (norm : forall m, 'cV[R]_m -> R).
Variables (T : R) (n : nat) (x0 xf : R) (k : nat).
Hypotheses (T0 : 0 < T) (n0 : (0 < n)%N) (k0 : (0 < k)%N).
Local Notation h := (T / n%:R).
Lemma h_gt0 : 0 < h. Proof. by rewrite divr_gt0 // ltr0n. Qed.
Let step_h i : i%:R * h + h - i%:R * h = h. Proof. by rewrite addrC addKr. Qed.

(** *** method 1 *)
Local Notation U1 := (fun z : 'cV[R]_(2 * n) => piecewise (evens (vec z)) (odds (vec z)) h).
Lemma U1E z i s : U1 z i s = nth 0 (vec z) i.*2 + nth 0 (vec z) i.*2.+1 * (s - i%:R * h).
Proof. by rewrite /piecewise nth_evens nth_odds. Qed.
Lemma lin_U1 i s : linear_f (fun z => U1 z i s).
Proof.
apply: (@lin_ext _ _ (fun z => nth 0 (vec z) i.*2 + (s - i%:R * h) * nth 0 (vec z) i.*2.+1)); first by move=> z; rewrite U1E mulrC.
by apply: lin_add; [exact: lin_coord | apply: lin_scale; exact: lin_coord].
Qed.
Lemma one1 : exact_derivatives (shoot_nlp ad (fc_1 g L T (steps := n)) x0 xf) ->
  exists2 v, V_eval_one ad norm (fc_1 g L T (steps := n)) k x0 xf = Some v &
  unique_least (fun ab : seq R * seq R => [/\ size ab.1 = n, size ab.2 = n & simulate g (piecewise ab.1 ab.2 h) h x0 n = xf])
    (fun ab => simulated_cost g L (piecewise ab.1 ab.2 h) h x0 n) v.
Proof.
move=> ex; have [|||||z [E zf mn]] := @one_exact R ad norm _ _ x0 xf (fun z => simulated_cost g L (U1 z) h x0 n) (fun z => simulate g (U1 z) h x0 n) _ _ _ _ _ ex k k0.
- by move=> z; rewrite fc_1E // gt_eqF.
- exact: (quad_sim ga Lq h x0 lin_U1).
- move=> z; split; first exact: (curv_sim_ge0 ga Lq cvx x0 lin_U1 n z h_gt0).
  move=> c; apply: vec_eq0 => j lt.
  have H i : (i < n)%N -> nth 0 (vec z) i.*2 = 0 /\ nth 0 (vec z) i.*2.+1 = 0.
    move=> li; have := curv_sim ga Lq cvx lin_U1 h_gt0 c li; rewrite !U1E subrr mulr0 addr0 step_h => -[-> /eqP].
    by rewrite add0r mulf_eq0 (gt_eqF h_gt0) orbF => /eqP.
  have lj : (j./2 < n)%N by rewrite -ltn_double -[n.*2]mul2n (leq_ltn_trans _ lt) // -[X in (_ <= X)%N](odd_double_half j) leq_addl.
  by rewrite -{1}(odd_double_half j); case: (H _ lj); case: (odd j).
- exact: (aff_sim ga h x0 lin_U1).
- by apply: nonconst1 => //; rewrite gt_eqF // h_gt0.
exists (simulated_cost g L (U1 z) h x0 n) => //; exists (evens (vec z), odds (vec z)); split=> //.
  by rewrite /= size_e1 size_o1.
case=> a b [/= sa sb e] ne.
pose f (i : nat) := if odd i then nth 0 b i./2 else nth 0 a i./2; pose y : 'cV[R]_(2 * n) := \col_i f i.
have ya : evens (vec y) = a.
  apply: (@eq_from_nth _ 0) => [|i]; rewrite size_e1 // => li; rewrite nth_evens nth_vec_col /f ?odd_double ?doubleK //.
  by rewrite mul2n ltn_double.
have yb : odds (vec y) = b.
  apply: (@eq_from_nth _ 0) => [|i]; rewrite size_o1 // => li; rewrite nth_odds nth_vec_col /f /= ?odd_double ?uphalf_double //.
  by move: li; rewrite mul2n -leq_double doubleS.
have := mn y; rewrite ya yb; apply=> // ey; apply: ne; by rewrite -ya -yb ey.
Qed.

(** *** method 2 *)
Local Notation U2 := (fun z : 'cV[R]_n.+1 => broken_line (nth 0 (vec z) 0) (behead (vec z)) h).
Lemma U2E z i s : U2 z i s = nth 0 (vec z) 0 + (h * (\sum_(j < i) nth 0 (vec z) j.+1) + (s - i%:R * h) * nth 0 (vec z) i.+1).
Proof.
rewrite /broken_line nth_behead mulrC -addrA [_ * nth 0 _ _]mulrC; congr (_ + (_ + _)).
  by rewrite mulrC; congr (_ * _); apply: eq_bigr => j _; rewrite nth_behead.
Qed.
Lemma lin_U2 i s : linear_f (fun z => U2 z i s).
Proof.
apply: (@lin_ext _ _ (fun z => nth 0 (vec z) 0 + (h * (\sum_(j < i) nth 0 (vec z) j.+1) + (s - i%:R * h) * nth 0 (vec z) i.+1))).
  by move=> z; rewrite U2E.
apply: lin_add; first exact: lin_coord.
apply: lin_add; apply: lin_scale; last exact: lin_coord.
by apply: lin_sum => j; exact: lin_coord.
Qed.
Lemma one2 : exact_derivatives (shoot_nlp ad (fc_2 g L T (steps := n)) x0 xf) ->
  exists2 v, V_eval_one ad norm (fc_2 g L T (steps := n)) k x0 xf = Some v &
  unique_least (fun ub : R * seq R => size ub.2 = n /\ simulate g (broken_line ub.1 ub.2 h) h x0 n = xf)
    (fun ub => simulated_cost g L (broken_line ub.1 ub.2 h) h x0 n) v.
Proof.
move=> ex; have [|||||z [E zf mn]] := @one_exact R ad norm _ _ x0 xf (fun z => simulated_cost g L (U2 z) h x0 n) (fun z => simulate g (U2 z) h x0 n) _ _ _ _ _ ex k k0.
- by move=> z; rewrite fc_2E // gt_eqF.
- exact: (quad_sim ga Lq h x0 lin_U2).
- move=> z; split; first exact: (curv_sim_ge0 ga Lq cvx x0 lin_U2 n z h_gt0).
  move=> c.
  have H i : (i < n)%N -> nth 0 (vec z) i.+1 = 0.
    move=> li; have := curv_sim ga Lq cvx lin_U2 h_gt0 c li; rewrite !U2E subrr mul0r addr0 step_h addrA => -[-> /eqP].
    by rewrite add0r mulf_eq0 (gt_eqF h_gt0) /= => /eqP.
  apply: vec_eq0 => -[_|j lt]; last exact: H.
  by case: (curv_sim ga Lq cvx lin_U2 h_gt0 c n0) => + _; rewrite U2E big_ord0 mulr0 add0r subrr mul0r addr0.
- exact: (aff_sim ga h x0 lin_U2).
- by apply: nonconst2 => //; rewrite gt_eqF // h_gt0.
exists (simulated_cost g L (U2 z) h x0 n) => //; exists (nth 0 (vec z) 0, behead (vec z)); split=> //.
  by rewrite /= size_behead size_vec.
case=> u0 b [/= sb e] ne.
pose f (i : nat) := nth 0 (u0 :: b) i; pose y : 'cV[R]_n.+1 := \col_i f i.
have ey : vec y = u0 :: b.
  by apply: (@eq_from_nth _ 0) => [|i]; rewrite size_vec /= ?sb // => li; rewrite nth_vec_col.
have := mn y; rewrite ey /=; apply=> // ez; apply: ne; by rewrite -ez ey.
Qed.
End M.
