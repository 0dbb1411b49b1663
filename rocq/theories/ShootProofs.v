(** Proofs about direct shooting: what cost and constraint are (C85), the table (C86). *)
From Coq Require Import Ring Field.
From mathcomp Require Import all_ssreflect all_algebra.
From Verif Require Import MxBase LinComb LqtModel Rk4Model Rk4Spec Rk4Proofs SqpModel SqpProofs ClqtModel ShootModel ShootSpec.
Import Order.TTheory GRing.Theory Num.Theory.
Set Implicit Arguments. Unset Strict Implicit. Unset Printing Implicit Defensive.
Local Open Scope ring_scope.

Section P.
Variable R : realFieldType.
Add Ring Rr : (mc_ring R).
Add Field Rf : (mc_field R).
Local Notation V := [lmodType R of (R^o * R^o)%type].
Variables (g L : R -> R -> R).
Implicit Types (h x c t : R).
Local Arguments rk4_xt : simpl never.
Local Arguments tf_rk4 : simpl never.

Lemma rk4_xc (u : R -> R) h x c t : rk4_xt (xc_rhs g L u) h ((x, c) : V) t = Some ((state_after g u h x t, c + step_cost g L u h x t) : V).
Proof.
rewrite /xc_rhs (@rk4_total R V (fun (xc : V) t => ((g xc.1 (u t), L xc.1 (u t)) : V))); congr Some.
rewrite /state_after /step_cost /weighted_mean /pt4 /pt3 /pt2 /pt1.
congr pair => /=; rewrite /GRing.scale /=; [congr (_ + _)|congr (_ + _)]; rewrite -mulrA [_^-1 * _]mulrC //.
Qed.

Lemma shoot1_cons h x c a b ti r : shoot1 g L h ((x, c) : V) ((a, b, ti) :: r) =
  shoot1 g L h ((state_after g (fun t => a + b * (t - ti)) h x ti, c + step_cost g L (fun t => a + b * (t - ti)) h x ti) : V) r.
Proof.
transitivity (obind (fun xc' => shoot1 g L h xc' r) (rk4_xt (xc_rhs g L (fun t => a + b * (t - ti))) h ((x, c) : V) ti)) => //.
by rewrite rk4_xc.
Qed.
Lemma shoot2_cons h x c w b ti r : shoot2 g L h ((x, c) : V) w ((b, ti) :: r) =
  shoot2 g L h ((state_after g (fun t => w + b * (t - ti)) h x ti, c + step_cost g L (fun t => w + b * (t - ti)) h x ti) : V) (w + b * h) r.
Proof.
transitivity (obind (fun xc' => shoot2 g L h xc' (w + b * h) r) (rk4_xt (xc_rhs g L (fun t => w + b * (t - ti))) h ((x, c) : V) ti)) => //.
by rewrite rk4_xc.
Qed.
Lemma tf_shoot1_cons h x c a b ti r : tf_shoot1 g L h x c ((a, b, ti) :: r) =
  (let x' := state_after g (fun t => a + b * (t - ti)) h x ti in let c' := c + step_cost g L (fun t => a + b * (t - ti)) h x ti in
   let? l := tf_shoot1 g L h x' c' r in Some ((x', c') :: l)).
Proof.
transitivity (obind (fun xc : V => let? l := tf_shoot1 g L h xc.1 xc.2 r in Some ((xc.1, xc.2) :: l))
  (tf_rk4 (fun xc t (p : unit) => xc_rhs g L (fun t => a + b * (t - ti)) xc t) h ((x, c) : V) ti tt)) => //.
by rewrite form_tf rk4_xc.
Qed.
Lemma tf_shoot2_cons h x c w b ti r : tf_shoot2 g L h x c w ((b, ti) :: r) =
  (let x' := state_after g (fun t => w + b * (t - ti)) h x ti in let c' := c + step_cost g L (fun t => w + b * (t - ti)) h x ti in
   let? l := tf_shoot2 g L h x' c' (w + b * h) r in Some ((x', c', w + b * h) :: l)).
Proof.
transitivity (obind (fun xc : V => let? l := tf_shoot2 g L h xc.1 xc.2 (w + b * h) r in Some ((xc.1, xc.2, w + b * h) :: l))
  (tf_rk4 (fun xc t (p : unit) => xc_rhs g L (fun t => w + b * (t - ti)) xc t) h ((x, c) : V) ti tt)) => //.
by rewrite form_tf rk4_xc.
Qed.

Lemma arange0E (T : R) n : T != 0 -> (0 < n)%N -> arange0 T (T / n%:R) n.+1 = [seq k%:R * (T / n%:R) | k <- iota 0 n].
Proof.
move=> T0 n0; rewrite /arange0; congr map.
have nn : (n%:R : R) != 0 by rewrite pnatr_eq0 -lt0n.
have -> : T / (T / n%:R) = n%:R by rewrite invfM invrK mulrA divff // mul1r.
rewrite -addn1 iotaD filter_cat /= add0n ltxx cats0.
by apply/all_filterP/allP => k; rewrite mem_iota add0n /= ltr_nat.
Qed.

Lemma shoot1_run (ab : nat -> R * R) (h x0 : R) n (c0 : R) : forall j xc,
  xc = (simulate g (fun i t => (ab i).1 + (ab i).2 * (t - i%:R * h)) h x0 j, c0) :> V ->
  shoot1 g L h xc [seq (ab k, k%:R * h) | k <- iota j n] =
  Some ((simulate g (fun i t => (ab i).1 + (ab i).2 * (t - i%:R * h)) h x0 (j + n),
         c0 + \sum_(i < n) step_cost g L (fun t => (ab (j + i)%N).1 + (ab (j + i)%N).2 * (t - (j + i)%:R * h)) h
               (simulate g (fun i t => (ab i).1 + (ab i).2 * (t - i%:R * h)) h x0 (j + i)) ((j + i)%:R * h)) : V).
Proof.
elim: n c0 => [|n ih] c0 j xc ->; first by rewrite addn0 big_ord0 addr0.
rewrite -[iota j n.+1]/(j :: iota j.+1 n) map_cons; case e: (ab j) => [a b]; rewrite shoot1_cons.
rewrite (ih (c0 + step_cost g L (fun t => a + b * (t - j%:R * h)) h (simulate g (fun i t => (ab i).1 + (ab i).2 * (t - i%:R * h)) h x0 j) (j%:R * h)) j.+1 _) /=; last first.
  by congr pair; rewrite /= e.
congr Some; congr pair; first by rewrite ?addSnnS ?addnS ?addSn.
rewrite big_ord_recl /= addn0 e /= -addrA; congr (_ + (_ + _)).
by apply: eq_bigr => i _; rewrite /bump /= add1n ?addSnnS ?addnS ?addSn.
Qed.

Lemma zip_pts (a b : seq R) h : size b = size a ->
  zip (zip a b) [seq k%:R * h | k <- iota 0 (size a)] = [seq ((nth 0 a k, nth 0 b k), k%:R * h) | k <- iota 0 (size a)].
Proof.
move=> sz; apply: (@eq_from_nth _ (0, 0, 0)); first by rewrite !size_zip sz !size_map size_iota !minnn.
move=> i; rewrite !size_zip sz size_map size_iota !minnn => lt.
rewrite nth_zip ?size_zip ?size_map ?size_iota ?sz ?minnn // nth_zip //.
by rewrite !(nth_map 0%N) ?size_iota // !nth_iota // add0n.
Qed.

Lemma fc1E (T x0 xf : R) (a b : seq R) : T != 0 -> (0 < size a)%N -> size b = size a ->
  let h := T / (size a)%:R in
  fun_and_con_1 g L T x0 xf a b =
  Some (simulated_cost g L (piecewise a b h) h x0 (size a), (simulate g (piecewise a b h) h x0 (size a) - xf)%:M).
Proof.
move=> T0 n0 sz h; rewrite /fun_and_con_1 -[_ == 0%N]negbK -lt0n n0 (negPf T0) /= -/h arange0E // size_map size_iota sz eqxx /=.
rewrite zip_pts // (@shoot1_run (fun k => (nth 0 a k, nth 0 b k)) h x0 (size a) 0 0 _ erefl) /= add0n add0r.
by [].
Qed.

(** *** method 2 is method 1 with a continuous control *)
Definition starts (h u0 : R) (b : seq R) : seq R := [seq u0 + h * (\sum_(j < k) nth 0 b j) | k <- iota 0 (size b)].
Lemma shoot2_run (b : seq R) h (u0 : R) x0 n c0 : forall j xc,
  xc = (simulate g (broken_line u0 b h) h x0 j, c0) :> V ->
  shoot2 g L h xc (u0 + h * (\sum_(i < j) nth 0 b i)) [seq (nth 0 b k, k%:R * h) | k <- iota j n] =
  Some ((simulate g (broken_line u0 b h) h x0 (j + n),
         c0 + \sum_(i < n) step_cost g L (broken_line u0 b h (j + i)%N) h (simulate g (broken_line u0 b h) h x0 (j + i)) ((j + i)%:R * h)) : V,
        u0 + h * (\sum_(i < j + n) nth 0 b i)).
Proof.
elim: n c0 => [|n ih] c0 j xc ->; first by rewrite addn0 big_ord0 addr0.
rewrite -[iota j n.+1]/(j :: iota j.+1 n) map_cons shoot2_cons.
have -> : u0 + h * (\sum_(i < j) nth 0 b i) + nth 0 b j * h = u0 + h * (\sum_(i < j.+1) nth 0 b i).
  by rewrite big_ord_recr /= mulrDr addrA [h * nth 0 b j]mulrC.
rewrite (ih (c0 + step_cost g L (broken_line u0 b h j) h (simulate g (broken_line u0 b h) h x0 j) (j%:R * h)) j.+1 _ erefl).
congr Some; congr pair; last by rewrite ?addSnnS ?addnS ?addSn.
congr pair; first by rewrite ?addSnnS ?addnS ?addSn.
rewrite big_ord_recl /= addn0 -addrA; congr (_ + (_ + _)).
by apply: eq_bigr => i _; rewrite /bump /= add1n ?addSnnS ?addnS ?addSn.
Qed.
Lemma zip_pts2 (b : seq R) h : zip b [seq k%:R * h | k <- iota 0 (size b)] = [seq (nth 0 b k, k%:R * h) | k <- iota 0 (size b)].
Proof.
apply: (@eq_from_nth _ (0, 0)); first by rewrite !size_zip !size_map size_iota !minnn.
move=> i; rewrite !size_zip size_map size_iota !minnn => lt.
by rewrite nth_zip ?size_map ?size_iota // !(nth_map 0%N) ?size_iota // !nth_iota // add0n.
Qed.
Lemma fc2E (T x0 xf u0 : R) (b : seq R) : T != 0 -> (0 < size b)%N ->
  let h := T / (size b)%:R in
  fun_and_con_2 g L T x0 xf (u0 :: b) =
  Some (simulated_cost g L (broken_line u0 b h) h x0 (size b), (simulate g (broken_line u0 b h) h x0 (size b) - xf)%:M).
Proof.
move=> T0 n0 h; rewrite /fun_and_con_2 -[_ == 0%N]negbK -lt0n n0 (negPf T0) /= -/h arange0E // size_map size_iota eqxx /=.
have e := @shoot2_run b h u0 x0 (size b) 0 0 (x0, 0) erefl.
by rewrite big_ord0 mulr0 addr0 add0r add0n in e; rewrite zip_pts2 e /=.
Qed.
Lemma broken_line_continuous (u0 : R) (b : seq R) h n : continuous_control (broken_line u0 b h) h n.
Proof.
move=> i _; rewrite /broken_line big_ord_recr /= subrr mulr0 addr0.
have -> : i.+1%:R * h - i%:R * h = h by rewrite -mulrBl -natrB // subSnn mul1r.
by rewrite [b`_i * h]mulrC -addrA -mulrDr.
Qed.
Lemma state_ext (u u' : R -> R) h x t : u =1 u' -> state_after g u h x t = state_after g u' h x t.
Proof. by move=> e; rewrite /state_after /weighted_mean /pt4 /pt3 /pt2 /pt1 !e. Qed.
Lemma cost_ext (u u' : R -> R) h x t : u =1 u' -> step_cost g L u h x t = step_cost g L u' h x t.
Proof. by move=> e; rewrite /step_cost /weighted_mean /pt4 /pt3 /pt2 /pt1 !e. Qed.
Lemma simulate_ext (u u' : control R) h x0 n : (forall i, (i < n)%N -> u i =1 u' i) -> simulate g u h x0 n = simulate g u' h x0 n.
Proof.
elim: n => [|n ih] //= e; rewrite ih; last by move=> i lt; apply: e; rewrite ltnS ltnW.
by apply: state_ext; apply: e.
Qed.
Lemma simcost_ext (u u' : control R) h x0 n : (forall i, (i < n)%N -> u i =1 u' i) ->
  simulated_cost g L u h x0 n = simulated_cost g L u' h x0 n.
Proof.
move=> e; apply: eq_bigr => i _; rewrite (@simulate_ext u u'); last by move=> j lt; apply: e; apply: ltn_trans lt (ltn_ord i).
by apply: cost_ext; apply: e; apply: ltn_ord.
Qed.
Lemma method2_is_method1 (T x0 xf u0 : R) (b : seq R) : T != 0 -> (0 < size b)%N ->
  fun_and_con_2 g L T x0 xf (u0 :: b) = fun_and_con_1 g L T x0 xf (starts (T / (size b)%:R) u0 b) b.
Proof.
move=> T0 n0; have sz : size (starts (T / (size b)%:R) u0 b) = size b by rewrite size_map size_iota.
rewrite fc2E // fc1E // ?sz //; set h := T / _.
have e i : (i < size b)%N -> broken_line u0 b h i =1 piecewise (starts h u0 b) b h i.
  by move=> lt t; rewrite /broken_line /piecewise /starts (nth_map 0%N) ?size_iota // nth_iota.
by rewrite (simcost_ext h x0 e) (simulate_ext h x0 e).
Qed.

(** *** nothing is returned for no steps or no time *)
Lemma fc1_none (T x0 xf : R) (a b : seq R) : (T == 0) || (size a == 0)%N || (size b != size a) -> fun_and_con_1 g L T x0 xf a b = None.
Proof.
by rewrite /fun_and_con_1; case: (T == 0); rewrite ?orbT //; case: (size a == 0)%N => //= ->.
Qed.
Lemma fc2_none (T x0 xf : R) (theta : seq R) : (T == 0) || (size theta <= 1)%N -> fun_and_con_2 g L T x0 xf theta = None.
Proof. by case: theta => [|u0 [|b0 b]] //=; rewrite orbF => ->. Qed.

(** *** the tensor versions *)
Lemma tf_shoot1E h (abt : seq (R * R * R)) : forall x c, abt != [::] ->
  shoot1 g L h ((x, c) : V) abt = (let? l := tf_shoot1 g L h x c abt in
    let? xT := last_of [seq z.1 | z <- l] in let? cT := last_of [seq z.2 | z <- l] in Some ((xT, cT) : V)).
Proof.
elim: abt => [|[[a b] ti] r ih] x c // _; rewrite shoot1_cons tf_shoot1_cons.
case: r ih => [|[[a' b'] t'] r] ih //; rewrite ih //; cbv zeta; rewrite tf_shoot1_cons; cbv zeta.
by case: (tf_shoot1 g L h _ _ r).
Qed.
Lemma last_of_map {X Y} (f : X -> Y) s : last_of [seq f x | x <- s] = omap f (last_of s).
Proof. by case: s => [|x s] //=; rewrite last_map. Qed.
Lemma tf_fc1 (T x0 xf : R) (a b : seq R) : tf_fun_and_con_1 g L T x0 xf a b = fun_and_con_1 g L T x0 xf a b.
Proof.
rewrite /tf_fun_and_con_1 /fun_and_con_1; case: ifP => // /negbT; rewrite negb_or => /andP[n0 T0].
case: ifP => // /negbT; rewrite negb_or !negbK => /andP[/eqP sb /eqP st].
rewrite tf_shoot1E; last first.
  by rewrite -size_eq0 !size_zip sb st !minnn.
case: (tf_shoot1 _ _ _ _ _ _) => [l|] //=; rewrite !last_of_map; case: (last_of l) => [z|] //=.
Qed.
Lemma tf_shoot2E h (bt : seq (R * R)) : forall x c w, bt != [::] ->
  omap fst (shoot2 g L h ((x, c) : V) w bt) = (let? l := tf_shoot2 g L h x c w bt in
    let? xT := last_of [seq z.1.1 | z <- l] in let? cT := last_of [seq z.1.2 | z <- l] in Some ((xT, cT) : V)).
Proof.
elim: bt => [|[b ti] r ih] x c w // _; rewrite shoot2_cons tf_shoot2_cons.
case: r ih => [|[b' t'] r] ih //; rewrite ih //; cbv zeta; rewrite tf_shoot2_cons; cbv zeta.
by case: (tf_shoot2 g L h _ _ _ r).
Qed.
Lemma tf_fc2 (T x0 xf : R) (theta : seq R) : tf_fun_and_con_2 g L T x0 xf theta = fun_and_con_2 g L T x0 xf theta.
Proof.
case: theta => [|u0 b] //; rewrite /tf_fun_and_con_2 /fun_and_con_2; case: ifP => // /negbT; rewrite negb_or => /andP[n0 T0].
case: ifP => // /negbT; rewrite negbK => /eqP st.
have ne : zip b (arange0 T (T / (size b)%:R) (size b).+1) != [::] by rewrite -size_eq0 !size_zip st !minnn.
have := @tf_shoot2E (T / (size b)%:R) _ x0 0 u0 ne.
case: (tf_shoot2 _ _ _ _ _ _ _) => [l|] //=; last by case: (shoot2 _ _ _ _ _ _).
rewrite !last_of_map; case: (last_of l) => [z|] //=; case: (shoot2 _ _ _ _ _ _) => [[w w']|] //= -[->].
by [].
Qed.

(** *** the simulated step is the classical one *)
Lemma state_classical (u : R -> R) h x t : classical_step (fun (x : R^o) t => Some (g x (u t) : R^o)) h x t (state_after g u h x t).
Proof.
exists (g (pt1 x) (u t)), (g (pt2 g u h x t) (u (t + h / 2%:R))), (g (pt3 g u h x t) (u (t + h / 2%:R))), (g (pt4 g u h x t) (u (t + h))).
by split=> //; rewrite /state_after /weighted_mean /GRing.scale /= -mulrA [_^-1 * _]mulrC.
Qed.
End P.

(** ** the table *)
Section T.
Variable R : realFieldType.
Lemma reshape_map {X Y} (f : X -> Y) sh (s : seq X) : reshape sh [seq f x | x <- s] = [seq [seq f x | x <- r] | r <- reshape sh s].
Proof. by elim: sh s => [|n sh ih] s //=; rewrite -map_take -map_drop ih. Qed.
Lemma mesh_zip (xs ys : seq R) :
  reshape (shape (x0_mesh xs ys)) (zip (flatten (x0_mesh xs ys)) (flatten (xf_mesh xs ys))) = [seq [seq (x, y) | y <- ys] | x <- xs].
Proof.
rewrite /x0_mesh /xf_mesh; elim: xs => [|x xs ih] //=.
have zc : zip (nseq (size ys) x ++ flatten [seq nseq (size ys) x0 | x0 <- xs]) (ys ++ flatten (nseq (size xs) ys)) =
          [seq (x, y) | y <- ys] ++ zip (flatten [seq nseq (size ys) x0 | x0 <- xs]) (flatten (nseq (size xs) ys)).
  by rewrite zip_cat ?size_nseq //; congr cat; elim: (ys) => [|y r e] //=; rewrite e.
rewrite zc size_nseq take_size_cat ?size_map // drop_size_cat ?size_map // ih //.
Qed.
Variables (ad : forall m, ('cV[R]_m -> R) -> ('cV[R]_m -> 'cV[R]_1) -> nlp R m 1) (norm : forall m, 'cV[R]_m -> R).
Variables (m : nat) (fc : R -> R -> 'cV[R]_m -> option (R * 'cV[R]_1)).
Lemma V_evalE xs ys k : V_eval ad norm fc xs ys k =
  (if fc 0 0 0 is Some _ then Some [seq [seq V_eval_one ad norm fc k x y | y <- ys] | x <- xs] else None).
Proof.
rewrite /V_eval; case: (fc 0 0 0) => [r|] //=; congr Some.
by rewrite reshape_map mesh_zip -map_comp; apply: eq_map => x /=; rewrite -map_comp.
Qed.
Lemma omap_seq_map {X Y} (f : X -> option Y) s r : omap_seq f s = Some r -> [seq f x | x <- s] = [seq Some y | y <- r].
Proof.
elim: s r => [|x s ih] r /=; first by case=> <-.
by case: (f x) => [y|] //=; case: (omap_seq f s) ih => [r'|] //= ih [<-]; rewrite (ih _ erefl).
Qed.
Lemma tf_oneE k x y : tf_V_eval_one ad norm fc k x y = (if (0 < k)%N then V_eval_one ad norm fc k x y else None).
Proof.
rewrite /tf_V_eval_one /V_eval_one; case: ltnP => [k0|]; last by rewrite leqn0 => /eqP ->.
case: (tf_fast_agrees (@norm m) (shoot_nlp ad fc x y) 0 k0) => -> H.
case e: (tf_local_eq_fast _ _ _ _) => [[[ts ls] cs]|] //=; case: (H _ _ _ e) => s1 _ _.
by case: ts s1 {e H} => [|t0 ts] //= s1; rewrite -s1 in k0.
Qed.
Lemma tf_V_evalE xs ys k (tab : seq (seq R)) : tf_V_eval ad norm fc xs ys k = Some tab ->
  [seq [seq Some v | v <- r] | r <- tab] = [seq [seq tf_V_eval_one ad norm fc k x y | y <- ys] | x <- xs].
Proof.
rewrite /tf_V_eval; case: (fc 0 0 0) => [r|] //=.
case e: (omap_seq _ _) => [vs|] //= [<-].
have := omap_seq_map e => e'.
rewrite -reshape_map -e' reshape_map mesh_zip -map_comp; apply: eq_map => x /=; by rewrite -map_comp.
Qed.
Lemma omap_seq_none {X Y} (f : X -> option Y) s : omap_seq f s = None <-> exists2 i, (i < size s)%N & forall x0, f (nth x0 s i) = None.
Proof.
elim: s => [|x s ih] /=; first by split=> // -[].
case e: (f x) => [y|] /=; last by split=> // _; exists 0%N.
split.
  by case e': (omap_seq f s) => [r|] //= _; case/ih: e' => i lt h; exists i.+1.
by case=> [[|i]] lt h; [move: (h x); rewrite /= e | have -> : omap_seq f s = None by apply/ih; exists i].
Qed.
End T.
