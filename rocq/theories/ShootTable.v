(** Direct shooting: the whole table. *)
From Coq Require Import Ring Field.
From mathcomp Require Import all_ssreflect all_algebra.
From Verif Require Import MxBase LinComb LqtModel ClqtModel NlqtSpec SqpModel SqpSpec SqpProofs ShootModel ShootSpec ShootProofs Rk4Proofs ShootQuad ShootMain.
Import Order.TTheory GRing.Theory Num.Theory.
Set Implicit Arguments. Unset Strict Implicit. Unset Printing Implicit Defensive.
Local Open Scope ring_scope.

Section Tab.
Variable R : realFieldType.
Variables (ad : forall m, ('cV[R]_m -> R) -> ('cV[R]_m -> 'cV[R]_1) -> nlp R m 1) (norm : forall m, 'cV[R]_m -> R).
Lemma table_map xs (f : R -> R -> option R) (P : R -> R -> option R -> Prop) :
  (forall i j, (i < size xs)%N -> (j < size xs)%N -> P (nth 0 xs i) (nth 0 xs j) (f (nth 0 xs i) (nth 0 xs j))) ->
  table_of xs P [seq [seq f x y | y <- xs] | x <- xs].
Proof.
move=> H; split; first by rewrite size_map.
  by move=> i li; rewrite (nth_map 0) // size_map.
by move=> i j li lj; rewrite /entry (nth_map 0) // (nth_map 0) //; exact: H.
Qed.
Section G.
Variables g L : R -> R -> R.
Section T.
Variables (T : R) (n : nat).
Hypotheses (T0 : T != 0) (n0 : (0 < n)%N).
Local Notation h := (T / n%:R).
Lemma ctrl1 (z : 'cV[R]_(2 * n)) : values_and_slopes z h =2 piecewise (evens (vec z)) (odds (vec z)) h.
Proof. by move=> i t; rewrite /values_and_slopes /piecewise nth_evens nth_odds -[i.*2]mul2n addn1. Qed.
Lemma one1_spec k x0 xf : solver_cost ad norm g L (@values_and_slopes R (2 * n)) h n x0 xf k (V_eval_one ad norm (fc_1 g L T (steps := n)) k x0 xf).
Proof.
exists (shoot_nlp ad (fc_1 g L T (steps := n)) x0 xf); split=> //.
- move=> z /=; rewrite /fc_fun fc_1E //=; apply: simcost_ext => i _ t; by rewrite ctrl1.
- move=> z /=; rewrite /fc_con fc_1E //=; congr (_%:M); congr (_ - _).
  by apply: simulate_ext => i _ t; rewrite ctrl1.
Qed.
Lemma one2_spec k x0 xf : solver_cost ad norm g L (@first_and_slopes R n.+1) h n x0 xf k (V_eval_one ad norm (fc_2 g L T (steps := n)) k x0 xf).
Proof.
exists (shoot_nlp ad (fc_2 g L T (steps := n)) x0 xf); split=> //.
- by move=> z /=; rewrite /fc_fun fc_2E.
- by move=> z /=; rewrite /fc_con fc_2E.
Qed.
Lemma V1E xs ys k : V_eval_1 g L ad norm T n xs ys k = Some [seq [seq V_eval_one ad norm (fc_1 g L T (steps := n)) k x y | y <- ys] | x <- xs].
Proof. by rewrite /V_eval_1 V_evalE fc_1E. Qed.
Lemma V2E xs ys k : V_eval_2 g L ad norm T n xs ys k = Some [seq [seq V_eval_one ad norm (fc_2 g L T (steps := n)) k x y | y <- ys] | x <- xs].
Proof. by rewrite /V_eval_2 V_evalE fc_2E. Qed.
End T.

Variables (T : R) (blocks n : nat) (xs : seq R).
Hypotheses (b0 : (0 < blocks)%N) (n0 : (0 < n)%N).
Local Notation Tb := (T / blocks%:R).
Local Notation h := (T / blocks%:R / n%:R).
Lemma Tb0 : T != 0 -> Tb != 0.
Proof. by move=> T0; rewrite mulf_neq0 // invr_eq0 pnatr_eq0 -lt0n. Qed.
Lemma dsE method k : T != 0 -> directShooting g L ad norm T blocks n xs method k =
  Some (if method == 2 then [seq [seq V_eval_one ad norm (fc_2 g L Tb (steps := n)) k x y | y <- xs] | x <- xs]
        else [seq [seq V_eval_one ad norm (fc_1 g L Tb (steps := n)) k x y | y <- xs] | x <- xs])%N.
Proof.
move=> /Tb0 T0; rewrite /directShooting eqn0Ngt b0 /= !V1E // V2E //; case: eqP => [->|] //; by case: eqP.
Qed.
Lemma ds_none method k : directShooting g L ad norm T blocks n xs method k = None <-> T = 0.
Proof.
split=> [|->]; last first.
  rewrite /directShooting eqn0Ngt b0 mul0r /V_eval_1 /V_eval_2 !V_evalE /fc_1 fc1_none ?eqxx // /fc_2 fc2_none ?eqxx //.
  by case: (_ == 1)%N; case: (_ == 2)%N.
by move=> E; apply/eqP/negPn/negP => T0; move: E; rewrite dsE.
Qed.
Lemma ds_table1 method k : T != 0 -> (method != 2)%N -> exists2 tab, directShooting g L ad norm T blocks n xs method k = Some tab &
  table_of xs (fun x y => solver_cost ad norm g L (@values_and_slopes R (2 * n)) h n x y k) tab.
Proof.
move=> T0 /negPf m2; rewrite dsE // m2; eexists; first by [].
by apply: table_map => i j _ _; apply: one1_spec => //; exact: Tb0.
Qed.
Lemma ds_table2 k : T != 0 -> exists2 tab, directShooting g L ad norm T blocks n xs 2 k = Some tab &
  table_of xs (fun x y => solver_cost ad norm g L (@first_and_slopes R n.+1) h n x y k) tab.
Proof.
move=> T0; rewrite dsE // eqxx; eexists; first by [].
by apply: table_map => i j _ _; apply: one2_spec => //; exact: Tb0.
Qed.
End G.
Lemma ds_raise g L T blocks n xs method k : directShooting g L ad norm T blocks n xs method k = None <-> (T = 0 \/ blocks = 0%N) \/ n = 0%N.
Proof.
case: (posnP blocks) => [->|b0]; first by split=> // _; left; right.
case: (posnP n) => [->|n0]; last first.
  rewrite ds_none //; split=> [->|]; first by left; left.
  by case=> [[|e]|e] //; move: b0 n0; rewrite e.
split=> _; first by right.
rewrite /directShooting eqn0Ngt b0 /= /V_eval_1 /V_eval_2 !V_evalE /fc_1 fc1_none ?size_e1 ?eqxx ?orbT // /fc_2 fc2_none ?size_vec ?orbT //.
by case: (_ == 1)%N; case: (_ == 2)%N.
Qed.

(** ** the tensor version *)
Section Ext.
Variables (m : nat) (nm : 'cV[R]_m -> R) (Q Q' : nlp R m 1).
Hypotheses (e1 : pdf Q =1 pdf Q') (e2 : pdc Q =1 pdc Q') (e3 : pdl Q =2 pdl Q') (e4 : phl Q =2 phl Q') (e5 : pc Q =1 pc Q').
Lemma step_ext x l : sqp_step nm Q x l = sqp_step nm Q' x l.
Proof. by rewrite /sqp_step e1 e2 e3 e4 e5. Qed.
Lemma fast_ext k c : fast_loop nm Q k c = fast_loop nm Q' k c.
Proof. by elim: k c => [|k IH] c //=; rewrite step_ext; case: (sqp_step _ _ _ _) => [c'|] //=; exact: IH. Qed.
Lemma local_ext x k : local_eq_fast nm Q x k = local_eq_fast nm Q' x k.
Proof. by rewrite /local_eq_fast fast_ext. Qed.
End Ext.
Hypothesis ext : extensional_ad ad.
Lemma one_ext m (fc fc' : R -> R -> 'cV[R]_m -> option (R * 'cV[R]_1)) : (forall x y z, fc x y z = fc' x y z) ->
  forall k x y, V_eval_one ad norm fc k x y = V_eval_one ad norm fc' k x y.
Proof.
move=> E k x y; rewrite /V_eval_one.
have ef : fc_fun fc x y =1 fc_fun fc' x y by move=> z; rewrite /fc_fun E.
have ec : fc_con fc x y =1 fc_con fc' x y by move=> z; rewrite /fc_con E.
case: (ext ef ec) => h1 h2 h3 h4.
rewrite (@local_ext _ _ _ (shoot_nlp ad fc' x y)) //; case: (local_eq_fast _ _ _ _) => [r|] //=.
by rewrite ef.
Qed.
Lemma tf_same m (fc fc' : R -> R -> 'cV[R]_m -> option (R * 'cV[R]_1)) xs ys k tab : (forall x y z, fc x y z = fc' x y z) -> (0 < k)%N ->
  tf_V_eval ad norm fc xs ys k = Some tab <-> V_eval ad norm fc' xs ys k = Some [seq [seq Some v | v <- r] | r <- tab].
Proof.
move=> E k0; have inj : injective (map (map (@Some R))) by do 2 apply: inj_map; move=> a b [].
have tfE t : tf_V_eval ad norm fc xs ys k = Some t -> V_eval ad norm fc' xs ys k = Some [seq [seq Some v | v <- r] | r <- t].
  move=> H; rewrite V_evalE -E (tf_V_evalE H); move: H; rewrite /tf_V_eval; case: (fc 0 0 0) => [r|] //= _; congr Some.
  by apply: eq_map => x; apply: eq_map => y; rewrite tf_oneE k0; apply/esym/one_ext.
split; first exact: tfE.
move=> H; case F: (tf_V_eval ad norm fc xs ys k) => [t|].
  by move: H; rewrite (tfE _ F) => -[/inj ->].
case: notF; move: H F; rewrite V_evalE -E /tf_V_eval; case: (fc 0 0 0) => [r|] //= -[H].
case O: (omap_seq _ _) => [vs|] //= _; case/omap_seq_none: O => i li /(_ (0, 0)) O.
have : flatten [seq [seq V_eval_one ad norm fc' k x y | y <- ys] | x <- xs] = [seq V_eval_one ad norm fc' k z.1 z.2 | z <- zip (flatten (x0_mesh xs ys)) (flatten (xf_mesh xs ys))].
  rewrite -[RHS](@reshapeKr _ (shape (x0_mesh xs ys))); last first.
    have sx : size (flatten (x0_mesh xs ys)) = sumn (shape (x0_mesh xs ys)) by rewrite size_flatten.
    have sy : size (flatten (xf_mesh xs ys)) = sumn (shape (x0_mesh xs ys)).
      by rewrite size_flatten /xf_mesh /x0_mesh /shape map_nseq -map_comp; elim: (xs) => [|x s ih] //=; rewrite ih size_nseq.
    by rewrite size_map size_zip sx sy minnn.
  rewrite reshape_map mesh_zip -map_comp; congr flatten; apply: eq_map => x /=; by rewrite -map_comp.
rewrite H => /(congr1 (fun s => nth (Some 0) s i)); rewrite (nth_map (0, 0)) //.
move: O; rewrite tf_oneE k0 (one_ext E) => ->.
have -> : flatten [seq [seq Some v | v <- r1] | r1 <- tab] = [seq Some v | v <- flatten tab] by rewrite map_flatten.
case: (ltnP i (size (flatten tab))) => lt; first by rewrite (nth_map 0).
by rewrite nth_default // size_map.
Qed.
End Tab.
