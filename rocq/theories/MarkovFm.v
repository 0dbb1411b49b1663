(** Lemmas on the game of finite_model_np.py (C56). *)
From Coq Require Import List Arith ZArith Bool Reals Lra Lia.
From Verif Require Import ScanModel Ord FscModel FscSpec FscCore FscProofs FscProofs4 MarkovModel MarkovSpec.
Import ListNotations.
Local Open Scope R_scope.

Lemma for_inv {S} (Inv : nat -> S -> Prop) (body : nat -> S -> option S) T : forall a s,
  Inv a s -> (forall k s, (a <= k < a + T)%nat -> Inv k s -> exists s', body k s = Some s' /\ Inv (Datatypes.S k) s') ->
  exists s', for_ (seq a T) body s = Some s' /\ Inv (a + T)%nat s'.
Proof.
  induction T as [|T IH]; intros a s H Hb; simpl.
  - exists s. split; [reflexivity|]. rewrite Nat.add_0_r. exact H.
  - destruct (Hb a s ltac:(lia) H) as (s1 & -> & H1).
    destruct (IH (Datatypes.S a) s1 H1) as (s2 & E & H2).
    + intros k s' Hk. apply Hb. lia.
    + exists s2. split; [exact E|]. replace (a + Datatypes.S T)%nat with (Datatypes.S a + T)%nat by lia. exact H2.
Qed.

Lemma Rltb_lt a b : Rltb a b = true <-> a < b.
Proof.
  unfold Rltb. rewrite negb_true_iff. split.
  - intros H. apply Rnot_le_lt. intros H'. apply Rleb_le in H'. congruence.
  - intros H. destruct (Rleb b a) eqn:E; [|reflexivity]. apply Rleb_le in E. lra.
Qed.
Lemma Rltb_ge a b : Rltb a b = false <-> b <= a.
Proof. unfold Rltb. rewrite negb_false_iff. apply Rleb_le. Qed.

Section Game.
Variables nx T : nat.

Lemma mask_one k y m (g : nat -> nat -> R) : (k < T)%nat ->
  (if ((0 <=? y) && (y <? Z.of_nat nx))%Z then
     do c <- get2 (tab nx T g) (Z.to_nat y) k; do m <- Some m; upd2 (tab nx T g) (Z.to_nat y) k (c * m)
   else Some (tab nx T g))
  = Some (tab nx T (fun a b => if (Z.of_nat a =? y)%Z && (b =? k)%nat then g a b * m else g a b)).
Proof.
  intros Hk. destruct ((0 <=? y) && (y <? Z.of_nat nx))%Z eqn:E.
  - apply andb_prop in E as [E1 E2]. apply Z.leb_le in E1. apply Z.ltb_lt in E2.
    rewrite get2_tab by lia. rewrite upd2_tab by lia. f_equal. apply tab_ext. intros i j Hi Hj.
    replace (Z.of_nat i =? y)%Z with (i =? Z.to_nat y)%nat
      by (destruct (Nat.eqb_spec i (Z.to_nat y)), (Z.eqb_spec (Z.of_nat i) y); lia || reflexivity).
    destruct (Nat.eqb_spec i (Z.to_nat y)) as [->|]; simpl; [|reflexivity].
    destruct (Nat.eqb_spec j k) as [->|]; reflexivity.
  - f_equal. apply tab_ext. intros i j Hi Hj.
    destruct (Z.eqb_spec (Z.of_nat i) y) as [<-|]; [|reflexivity]. exfalso.
    apply andb_false_iff in E as [E|E]; [apply Z.leb_gt in E|apply Z.ltb_ge in E]; lia.
Qed.

Lemma apply_mask_tab k x (g : nat -> nat -> R) : (k < T)%nat ->
  apply_mask nx k x (tab nx T g) =
  Some (tab nx T (fun a b => if (b =? k)%nat then g a b * factor (dist x a) else g a b)).
Proof.
  intros Hk. unfold apply_mask. cbn [length mask seq for_ nth_error].
  cbv zeta.
  rewrite (mask_one k (Z.of_nat x - 2 + Z.of_nat 0) (5/10) g Hk).
  rewrite (mask_one k (Z.of_nat x - 2 + Z.of_nat 1) (3/10) _ Hk).
  rewrite (mask_one k (Z.of_nat x - 2 + Z.of_nat 2) (1/10) _ Hk).
  rewrite (mask_one k (Z.of_nat x - 2 + Z.of_nat 3) (3/10) _ Hk).
  rewrite (mask_one k (Z.of_nat x - 2 + Z.of_nat 4) (5/10) _ Hk).
  f_equal. apply tab_ext. intros a b Ha Hb.
  destruct (Nat.eqb_spec b k) as [->|]; [|rewrite !andb_false_r; reflexivity].
  rewrite !andb_true_r.
  repeat match goal with |- context[(Z.of_nat a =? ?y)%Z] => destruct (Z.eqb_spec (Z.of_nat a) y) end; try lia.
  - replace (dist x a) with 2%nat by (unfold dist; lia). reflexivity.
  - replace (dist x a) with 1%nat by (unfold dist; lia). reflexivity.
  - replace (dist x a) with 0%nat by (unfold dist; lia). reflexivity.
  - replace (dist x a) with 1%nat by (unfold dist; lia). reflexivity.
  - replace (dist x a) with 2%nat by (unfold dist; lia). reflexivity.
  - destruct (dist x a) as [|[|[|d]]] eqn:E; unfold dist in E; try lia. simpl. lra.
Qed.

(** positions *)
Fixpoint pos (u : nat -> R) (x k : nat) : nat :=
  match k with 0%nat => x | S k' => walk_step nx (u k') (pos u x k') end.

Lemma walk_step_lt u x : (x < nx)%nat -> (walk_step nx u x < nx)%nat.
Proof.
  intros H. unfold walk_step. destruct (Rltb _ _); [destruct (0 <? x)%nat; lia|].
  destruct (Rltb _ _); [|lia]. destruct (Nat.ltb_spec x (nx - 1)); lia.
Qed.
Lemma pos_lt u x k : (x < nx)%nat -> (pos u x k < nx)%nat.
Proof. intros H. induction k; simpl; [exact H|]. apply walk_step_lt, IHk. Qed.
Lemma pos_walks u x k : (x < nx)%nat -> walks nx u x k (pos u x k).
Proof.
  intros H. induction k as [|k IH]; simpl; [reflexivity|]. exists (pos u x k). split; [exact IH|].
  pose proof (pos_lt u x k H) as Hp. unfold walk_step.
  destruct (Rltb (u k) (2/10)) eqn:E1.
  - apply Rltb_lt in E1. left. split; [exact E1|]. destruct (Nat.ltb_spec 0 (pos u x k)); lia.
  - apply Rltb_ge in E1. right. destruct (Rltb (1 - 2/10) (u k)) eqn:E2.
    + apply Rltb_lt in E2. left. split; [lra|]. destruct (Nat.ltb_spec (pos u x k) (nx - 1)); lia.
    + apply Rltb_ge in E2. right. split; [lra|reflexivity].
Qed.

Lemma round_tab u x0 (g : nat -> nat -> R) :
  exists x', for_ (seq 0 T)
    (fun k s => let '(x, track) := s in
       do track' <- apply_mask nx k (walk_step nx (u k) x) track; Some (walk_step nx (u k) x, track')) (x0, tab nx T g)
  = Some (x', tab nx T (fun a b => g a b * factor (dist (pos u x0 (S b)) a))).
Proof.
  destruct (for_inv (fun k s => s = (pos u x0 k,
      tab nx T (fun a b => if (b <? k)%nat then g a b * factor (dist (pos u x0 (S b)) a) else g a b)))
    (fun k s => let '(x, track) := s in
       do track' <- apply_mask nx k (walk_step nx (u k) x) track; Some (walk_step nx (u k) x, track')) T 0%nat (x0, tab nx T g)) as (s & -> & ->).
  - reflexivity.
  - intros k s Hk ->. cbv zeta. rewrite apply_mask_tab by lia. eexists. split; [reflexivity|]. f_equal.
    apply tab_ext. intros a b Ha Hb. destruct (Nat.eqb_spec b k) as [->|].
    + rewrite (proj2 (Nat.ltb_ge k k)) by lia. rewrite (proj2 (Nat.ltb_lt k (S k))) by lia. reflexivity.
    + destruct (Nat.ltb_spec b k), (Nat.ltb_spec b (S k)); try lia; reflexivity.
  - exists (pos u x0 (0 + T)). f_equal. f_equal. apply tab_ext. intros a b Ha Hb.
    rewrite (proj2 (Nat.ltb_lt b (0 + T))) by lia. reflexivity.
Qed.

Lemma factor_pos d : 0 < factor d <= 1.
Proof. destruct d as [|[|[|d]]]; simpl; lra. Qed.

Definition scene (u : nat -> nat -> R) (y k : nat) : R :=
  factor (dist (pos (u 0%nat) (nx / 2) (S k)) y) * factor (dist (pos (u 1%nat) (nx / 2) (S k)) y).
Lemma genData_tab u : fm_genData u T nx = Some (tab nx T (scene u), (nx / 2)%nat).
Proof.
  unfold fm_genData. replace (repeat (repeat 1 T) nx) with (tab nx T (fun _ _ => 1))
    by (unfold tab; rewrite !repeat_vec; reflexivity).
  cbn [seq for_].
  destruct (round_tab (u 0%nat) (nx / 2)%nat (fun _ _ => 1)) as (x1 & ->). cbn [snd].
  destruct (round_tab (u 1%nat) (nx / 2)%nat (fun a b => 1 * factor (dist (pos (u 0%nat) (nx / 2) (S b)) a))) as (x2 & ->).
  cbn [snd]. f_equal. f_equal. apply tab_ext. intros a b _ _. unfold scene. ring.
Qed.
Lemma scene_pos u y k : 0 < scene u y k <= 1.
Proof.
  unfold scene. pose proof (factor_pos (dist (pos (u 0%nat) (nx / 2) (S k)) y)) as A.
  pose proof (factor_pos (dist (pos (u 1%nat) (nx / 2) (S k)) y)) as B. nra.
Qed.
End Game.

Lemma tab_table' {X} (Q : X -> Prop) n m (g : nat -> nat -> X) :
  (forall i j, (i < n)%nat -> (j < m)%nat -> Q (g i j)) -> table n m Q (tab n m g).
Proof.
  intros H. split; [apply tab_length|]. apply Forall_forall. intros r Hr. apply vec_in in Hr as (i & Hi & ->).
  split; [apply vec_length|]. apply Forall_forall. intros y Hy. apply vec_in in Hy as (j & Hj & ->). auto.
Qed.

Lemma C56_scene_lemma u T nx :
  exists track, fm_genData u T nx = Some (track, (nx / 2)%nat) /\
    ((0 < nx)%nat -> (nx / 2 < nx)%nat) /\ table nx T (fun e => 0 < e <= 1) track /\
    forall y k, (y < nx)%nat -> (k < T)%nat ->
      exists p q, walks nx (u 0%nat) (nx / 2) (S k) p /\ walks nx (u 1%nat) (nx / 2) (S k) q /\
        (p < nx)%nat /\ (q < nx)%nat /\ get2 track y k = Some (factor (dist p y) * factor (dist q y)).
Proof.
  exists (tab nx T (scene nx u)). split; [apply genData_tab|].
  assert (Hx : (0 < nx)%nat -> (nx / 2 < nx)%nat) by (intros H; apply Nat.div_lt; lia).
  split; [exact Hx|]. split; [apply tab_table'; intros; apply scene_pos|].
  intros y k Hy Hk. assert (H0 : (nx / 2 < nx)%nat) by (apply Hx; lia).
  exists (pos nx (u 0%nat) (nx / 2) (S k)), (pos nx (u 1%nat) (nx / 2) (S k)).
  split; [apply pos_walks; exact H0|]. split; [apply pos_walks; exact H0|].
  split; [apply pos_lt; exact H0|]. split; [apply pos_lt; exact H0|].
  rewrite get2_tab by assumption. reflexivity.
Qed.

(** ** getFSC *)
Definition entry (M : list (list R)) (x k : nat) : R := nth k (nth x M []) 0.

Lemma arr_tab (a : arr R) : arr_ok a -> adata a = tab (shape0 a) (shape1 a) (entry (adata a)).
Proof.
  intros [H1 H2]. rewrite Forall_forall in H2.
  rewrite (list_vec [] (adata a)) at 1. rewrite H1. apply vec_ext. intros i Hi.
  assert (E : length (nth i (adata a) []) = shape1 a) by (apply H2, nth_In; lia).
  rewrite (list_vec 0 (nth i (adata a) [])) at 1. rewrite E. reflexivity.
Qed.

Definition mv (nx x u : nat) : nat := nth u [Nat.max 0 (x - 1); x; Nat.min (nx - 1) (x + 1)]%nat 0%nat.
Lemma mv_move nx x u : (u < 3)%nat -> mv nx x u = game_move nx x u.
Proof. intros H. destruct u as [|[|[|u]]]; unfold mv, game_move; simpl nth; lia. Qed.
Lemma fm_f_tab nx : fm_f nx = tab nx 3 (mv nx).
Proof. reflexivity. Qed.

Definition stageL (M : list (list R)) (k x u : nat) : R := entry M x k + nth u u_cost 0.

Lemma Ltables (a : arr R) : arr_ok a ->
  mapM (fun k =>
       do d <- mapM (fun x => mapM (fun u => do t <- get2 (adata a) x k; do c <- nth_error u_cost u; Some (t + c))
                                   (seq 0 3)) (seq 0 (shape0 a));
       Some (Arr (shape0 a) 3 d)) (seq 0 (shape1 a))
  = Some (vec (shape1 a) (fun k => Arr (shape0 a) 3%nat (tab (shape0 a) 3 (stageL (adata a) k)))).
Proof.
  intros Ha. apply mapM_seq. intros k Hk.
  rewrite (mapM_seq _ (fun x => vec 3 (stageL (adata a) k x))); [reflexivity|].
  intros x Hx. apply mapM_seq. intros u Hu. rewrite (arr_tab a Ha) at 1. rewrite get2_tab by assumption.
  unfold stageL. destruct u as [|[|[|u]]]; try lia; reflexivity.
Qed.

Definition gameP (a : arr R) : fsc Rcost :=
  @FSC Rcost (repeat (tab (shape0 a) 3 (mv (shape0 a))) (shape1 a))
      (vec (shape1 a) (fun k => tab (shape0 a) 3 (stageL (adata a) k))) (vec (shape0 a) (fun _ => 0)).

Lemma map_repeat {A B} (f : A -> B) x n : map f (repeat x n) = repeat (f x) n.
Proof. induction n; simpl; congruence. Qed.

Lemma getFSC_some (a : arr R) : arr_ok a -> (1 <= shape1 a)%nat -> fm_getFSC a = Some (gameP a).
Proof.
  intros Ha HT. unfold fm_getFSC. cbv zeta. rewrite Ltables by exact Ha. apply C14_lemma.
  exists (shape1 a), (repeat (Arr (shape0 a) 3%nat (fm_f (shape0 a))) (shape1 a)),
    (vec (shape1 a) (fun k => Arr (shape0 a) 3%nat (tab (shape0 a) 3 (stageL (adata a) k)))),
    (repeat 0 (shape0 a)), (shape0 a), 3%nat.
  split; [exact HT|]. split; [reflexivity|]. split; [split; [reflexivity|apply vec_length]|].
  split; [exact I|]. split.
  { apply Forall_forall. intros b Hb. apply repeat_spec in Hb. subst b. split; reflexivity. }
  split. { apply Forall_forall. intros b Hb. apply vec_in in Hb as (k & _ & ->). split; reflexivity. }
  split; [apply repeat_length|]. split; [reflexivity|].
  unfold gameP. f_equal.
  - rewrite map_repeat. reflexivity.
  - unfold vec. rewrite map_map. reflexivity.
  - apply eq_sym, repeat_vec.
Qed.

Lemma getFSC_none (a : arr R) : shape1 a = 0%nat -> fm_getFSC a = None.
Proof. intros H. unfold fm_getFSC. rewrite H. reflexivity. Qed.

Lemma mv_lt nx x u : (x < nx)%nat -> (u < 3)%nat -> (mv nx x u < nx)%nat.
Proof. intros Hx Hu. rewrite mv_move by exact Hu. destruct u as [|[|u]]; simpl; lia. Qed.

Lemma gameP_valid a : (1 <= shape0 a)%nat -> valid (shape0 a) 3 (gameP a).
Proof.
  intros H. constructor; simpl; try lia.
  - apply Forall_forall. intros M HM. apply repeat_spec in HM. subst M. apply tab_table'. intros. apply mv_lt; assumption.
  - apply Forall_forall. intros M HM. apply vec_in in HM as (k & _ & ->). apply tab_table'. auto.
  - rewrite vec_length, repeat_length. reflexivity.
  - apply vec_length.
Qed.

Lemma game_cost_gen nx M T : forall k us x, controls 3 T us -> (x < nx)%nat ->
  run_cost (K := Rcost) (repeat (tab nx 3 (mv nx)) T) (map (fun k => tab nx 3 (stageL M k)) (seq k T)) (vec nx (fun _ => 0)) x us
  = Some (game_cost nx (entry M) k x us).
Proof.
  induction T as [|T IH]; intros k us x [Hl Hu] Hx; destruct us as [|u us]; try discriminate; simpl.
  - apply (vec_nth nx (fun _ : nat => 0) x Hx).
  - pose proof (Forall_inv Hu) as H1. pose proof (Forall_inv_tail Hu) as H2. simpl in Hl.
    rewrite !get2_tab by assumption. rewrite mv_move by exact H1.
    rewrite IH; [|split; [congruence|exact H2]|rewrite <- mv_move by exact H1; apply mv_lt; assumption].
    f_equal. unfold stageL. f_equal. f_equal. destruct u as [|[|[|u]]]; try lia; reflexivity.
Qed.

Lemma C56_controller_lemma (track : arr R) : arr_ok track -> (1 <= shape1 track)%nat ->
  let nx := shape0 track in let T := shape1 track in
  exists P, fm_getFSC track = Some P /\ length (ff P) = T /\ ((1 <= nx)%nat -> valid nx 3 P) /\
    (forall k x u, (k < T)%nat -> (x < nx)%nat -> (u < 3)%nat ->
       exists f, nth_error (ff P) k = Some f /\ get2 f x u = Some (game_move nx x u) /\ (game_move nx x u < nx)%nat) /\
    (forall us x, controls 3 T us -> (x < nx)%nat ->
       run_cost (ff P) (fL P) (fLT P) x us = Some (game_cost nx (fun x k => nth k (nth x (adata track) []) 0) 0 x us)).
Proof.
  intros Ha HT nx T. exists (gameP track). split; [apply getFSC_some; assumption|].
  split; [apply repeat_length|]. split; [apply gameP_valid|]. split.
  - intros k x u Hk Hx Hu. exists (tab nx 3 (mv nx)). split; [apply nth_error_repeat, Hk|].
    rewrite get2_tab by assumption. rewrite mv_move by exact Hu. split; [reflexivity|].
    rewrite <- mv_move by exact Hu. apply mv_lt; assumption.
  - intros us x Hus Hx. apply (game_cost_gen nx (adata track) T 0 us x Hus Hx).
Qed.

(** ** generated games are solved by both solvers *)
Lemma nmul_R k (a : R) : nmul (K := Rcost) k a = INR k * a.
Proof. induction k as [|k IH]; [simpl; lra|]. rewrite S_INR. simpl nmul. rewrite IH. simpl. lra. Qed.

Lemma some_inj {A} (a b : A) : Some a = Some b -> a = b.
Proof. congruence. Qed.

Lemma C56_solved_lemma u T nx : (1 <= nx)%nat -> (1 <= T)%nat -> INR T <= 10 ^ 19 ->
  exists track P us Vs xs cs, fm_genData u T nx = Some (track, (nx / 2)%nat) /\
    fm_getFSC (Arr nx T track) = Some P /\
    seqBackwardPass P = Some (us, Vs) /\ parBackwardPass (K := Rcost) (10 ^ 20) P = Some (us, Vs) /\
    seqForwardPass P (nx / 2) us = Some (cs, xs) /\ length xs = S T /\ Forall (fun x => (x < nx)%nat) xs /\
    controls 3 T cs /\
    forall cs', controls 3 T cs' ->
      game_cost nx (fun x k => nth k (nth x track []) 0) 0 (nx / 2) cs <=
      game_cost nx (fun x k => nth k (nth x track []) 0) 0 (nx / 2) cs'.
Proof.
  intros Hn HT Hb. set (a := Arr nx T (tab nx T (scene nx u))).
  assert (Ha : arr_ok a).
  { split; [apply tab_length|]. apply Forall_forall. intros r Hr. apply vec_in in Hr as (i & _ & ->). apply vec_length. }
  destruct (C56_controller_lemma a Ha HT) as (P & EP & HlP & HV & _ & HC). specialize (HV Hn).
  assert (Hne : ff P <> []) by (intros E; rewrite E in HlP; simpl in HlP; lia).
  assert (Hx0 : (nx / 2 < nx)%nat) by (apply Nat.div_lt; lia).
  assert (EP' : P = gameP a) by (rewrite getFSC_some in EP by assumption; congruence).
  destruct (C07_bounded Rcost nx 3 0 2 (10 ^ 20) P HV Hne) as (us & Vs & E1 & E2).
  { rewrite EP'. split; simpl; apply Forall_forall.
    - intros M HM. apply vec_in in HM as (k & Hk & ->). apply Forall_forall. intros r Hr. apply vec_in in Hr as (x & Hx & ->).
      apply Forall_forall. intros c Hc. apply vec_in in Hc as (w & Hw & ->).
      assert (E : stageL (adata a) k x w = scene nx u x k + nth w u_cost 0).
      { unfold stageL. f_equal. unfold entry. simpl adata. unfold tab.
        rewrite (nth_error_nth _ x [] (vec_nth nx (fun i => vec T (scene nx u i)) x Hx)).
        rewrite (nth_error_nth _ k 0 (vec_nth T _ k Hk)). reflexivity. }
      pose proof (scene_pos nx u x k) as S0.
      enough (H : 0 <= stageL (adata a) k x w <= 2) by (split; apply Rleb_le; apply H). rewrite E. destruct w as [|[|[|w]]]; try lia; cbn [nth u_cost]; lra.
    - intros c Hc. apply vec_in in Hc as (x & Hx & ->). unfold cleb; simpl. rewrite !Rleb_le. lra. }
  { unfold cleb; simpl. apply Rleb_le. lra. }
  { unfold cleb; simpl. apply Rleb_le. lra. }
  { rewrite !nmul_R, HlP. unfold cleb; simpl car. unfold Rcost. apply Rleb_le. unfold cadd. rewrite S_INR.
    change (shape1 a) with T. replace (10 ^ 20) with (10 * 10 ^ 19) by (simpl; lra).
    assert (1 <= 10 ^ 19) by (apply pow_R1_Rle; lra). lra. }
  destruct (C06_lemma Rcost nx 3 P (nx / 2)%nat HV Hx0) as (us' & Vs' & cs & xs & v & F1 & F2 & (Hcs & c & Hc & Hlc) & Hxs & _ & _ & _).
  rewrite E2 in F1. injection F1 as <- <-. rewrite HlP in Hcs. change (shape1 a) with T in *.
  exists (tab nx T (scene nx u)), P, us, Vs, xs, cs.
  split; [apply genData_tab|]. split; [exact EP|]. split; [exact E2|]. split; [exact E1|]. split; [exact F2|].
  assert (Hrun : forall fs x us xs, Forall (table nx 3 (fun x => (x < nx)%nat)) fs -> run_states fs x us = Some xs -> (x < nx)%nat ->
     length xs = S (length fs) /\ Forall (fun x => (x < nx)%nat) xs).
  { clear. induction fs as [|f fs IH]; intros x us xs HF H Hx; destruct us as [|w us]; simpl in H; try discriminate.
    - injection H as <-. split; [reflexivity|]. constructor; [exact Hx|constructor].
    - destruct (get2 f x w) as [x'|] eqn:E; [|discriminate]. destruct (run_states fs x' us) as [r|] eqn:Er; [|discriminate].
      injection H as <-. pose proof (Forall_inv HF) as [_ H1]. pose proof (Forall_inv_tail HF) as H2.
      assert (Hx' : (x' < nx)%nat).
      { unfold get2 in E. destruct (nth_error f x) as [row|] eqn:Ef; [|discriminate].
        rewrite Forall_forall in H1. destruct (H1 row (nth_error_In _ _ Ef)) as [_ H3]. rewrite Forall_forall in H3.
        apply H3, (nth_error_In _ _ E). }
      destruct (IH x' us r H2 Er Hx') as [A B]. split; [simpl; congruence|constructor; assumption]. }
  destruct (Hrun _ _ _ _ (v_f _ _ _ _ HV) Hxs Hx0) as [A B]. rewrite HlP in A.
  split; [exact A|]. split; [exact B|]. split; [exact Hcs|].
  intros cs' Hcs'. destruct Hlc as [Hle _].
  destruct (Hle cs') as (c' & Ec & Hcc); [rewrite skipn_O, HlP; exact Hcs'|].
  rewrite !skipn_O in Ec. rewrite (HC _ _ Hcs' Hx0) in Ec. rewrite (HC _ _ Hcs Hx0) in Hc.
  apply some_inj in Ec. apply some_inj in Hc. change (adata a) with (tab nx T (scene nx u)) in *. change (shape0 a) with nx in *.
  rewrite Ec, Hc. apply Rleb_le. exact Hcc.
Qed.
