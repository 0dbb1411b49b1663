(** Forward-backward passes of the FSC model. *)
From Coq Require Import List Arith Lia Bool.
From Verif Require Import ScanModel ScanSpec ScanProofs Ord FscModel FscSpec FscCore FscProofs FscProofs2.
Import ListNotations.

Section P.
Variable K : ordcost.
Variables n m : nat.
Hypothesis Hn : 0 < n.
Hypothesis Hm : 0 < m.
Variable infty : K.
Implicit Types (ss : list (stg K)) (s : stg K).
Local Open Scope cost_scope.
Local Notation "i << n" := (Peano.lt i n) (at level 70).

Lemma fold1_step ss : forall A,
  fold1 combine_V (tab n n A) (map (fun s => tab n n (E m infty s)) ss) =
  Some (tab n n (fun i j => fold_left (step n m infty) ss (A i) j)).
Proof.
  induction ss as [|s ss IH]; intros A; simpl; [reflexivity|].
  rewrite combine_V_tab by exact Hn. rewrite IH. reflexivity.
Qed.

Definition d0 (x0 : nat) : nat -> K := fun j => if (j =? x0)%nat then czero else infty.

Lemma fb_init ss lt x0 : Forall (sok n m) ss -> ss <> [] -> x0 << n ->
  parFwdBwdPass_init infty (mkP K n m ss lt) x0 = Some (map (fun A => tab n n A) ((fun _ => d0 x0) :: map (E m infty) ss)).
Proof.
  intros Hok Hne Hx. unfold parFwdBwdPass_init.
  assert (E0 : exists s0, nth_error (ff (mkP K n m ss lt)) 0 = Some (tab n m (sf s0))).
  { destruct ss as [|s0 ss]; [congruence|]. exists s0. reflexivity. }
  destruct E0 as [s0 ->]. rewrite tab_length, ncols_tab by exact Hn.
  rewrite stage_elems_mkP by assumption.
  assert (H : forall k, (k <= n)%nat -> for_ (seq 0 k) (fun x V => upd2 V x x0 czero) (full infty n)
     = Some (tab n n (fun i j => if (i <? k) then d0 x0 j else infty))).
  { induction k as [|k IH]; intros Hk.
    - simpl. f_equal. unfold full. rewrite !repeat_vec. reflexivity.
    - rewrite seq_S, for_app, IH by lia. simpl. rewrite upd2_tab by lia. f_equal. apply tab_ext. intros i j Hi Hj.
      destruct (Nat.eqb_spec i k) as [->|Hik]; simpl.
      + rewrite Nat.ltb_irrefl. destruct (Nat.ltb_spec k (S k)); [reflexivity|lia].
      + destruct (Nat.ltb_spec i k), (Nat.ltb_spec i (S k)); try reflexivity; lia. }
  rewrite H by lia. simpl map. rewrite map_map. f_equal. f_equal. apply tab_ext. intros i j Hi _.
  apply Nat.ltb_lt in Hi. rewrite Hi. reflexivity.
Qed.

Lemma fb_scan ss A :
  par_fwdbwd_pass_scan (map (fun B => tab n n B) (A :: map (E m infty) ss)) =
  Some (vec (S (length ss)) (fun k => tab n n (fun i j => fold_left (step n m infty) (firstn k ss) (A i) j))).
Proof.
  unfold par_fwdbwd_pass_scan.
  replace (S (length ss)) with (length (map (fun B => tab n n B) (A :: map (E m infty) ss))).
  2:{ rewrite map_length. simpl. rewrite map_length. reflexivity. }
  apply (scan_known (isV K n)).
  - apply combine_V_closed; exact Hn.
  - apply combine_V_assoc; exact Hn.
  - discriminate.
  - apply Forall_map, Forall_forall. intros; eexists; reflexivity.
  - intros k _. rewrite firstn_map. simpl firstn. rewrite firstn_map. simpl map. rewrite map_map. simpl. apply fold1_step.
Qed.

(** the state picked at time k, and the lists assembled by the extract loops *)
Section Lists.
Variables (ss : list (stg K)) (lt : nat -> K) (xk : nat -> nat).
Hypothesis Hxk : forall k, (k <= length ss)%nat -> xk k << n.
Definition fb_us : list nat := map (fun k => pol m (nth k ss (Stg (fun _ _ => 0%nat) (fun _ _ => czero))) (Vf m (skipn (k + 1) ss) lt) (xk k)) (seq 0 (length ss)).
Definition fb_xs : list nat := map xk (seq 0 (S (length ss))).

Lemma fb_loop (body : nat -> list nat * list nat -> option (list nat * list nat)) :
  (forall k us xs, (k <= length ss)%nat -> body k (us, xs) =
     if (k <? length (bus K n m ss lt))%nat then
         do uk <- nth_error (bus K n m ss lt) k; do u <- nth_error uk (xk k); Some (us ++ [u], xs ++ [xk k])
       else Some (us, xs ++ [xk k])) ->
  for_ (seq 0 (S (length ss))) body ([], []) = Some (fb_us, fb_xs).
Proof.
  intros Hb. set (d := Stg (fun _ _ => 0%nat) (fun _ _ => @czero K)).
  rewrite (for_append (fun k => if (k <? length ss)%nat then [pol m (nth k ss d) (Vf m (skipn (k + 1) ss) lt) (xk k)] else []) (fun k => [xk k])).
  - rewrite flat_map_single, !app_nil_l. apply (f_equal Some). apply f_equal2; [|reflexivity].
    rewrite seq_S, flat_map_app. simpl. rewrite Nat.ltb_irrefl, app_nil_r.
    rewrite flat_map_if by (intros i Hi'; apply in_seq in Hi'; lia). reflexivity.
  - intros k us xs Hk. apply in_seq in Hk. rewrite Hb by lia. rewrite bus_length.
    destruct (Nat.ltb_spec k (length ss)) as [H|H]; [|rewrite app_nil_r; reflexivity].
    rewrite (bus_nth K n m ss lt k (nth k ss d) (skipn (S k) ss)) by (apply skipn_nth; exact H).
    rewrite vec_nth by (apply Hxk; lia). rewrite Nat.add_1_r. reflexivity.
Qed.
Lemma fb_xs_length : length fb_xs = S (length ss).
Proof. unfold fb_xs. rewrite map_length, seq_length. reflexivity. Qed.
Lemma fb_us_length : length fb_us = length ss.
Proof. unfold fb_us. rewrite map_length, seq_length. reflexivity. Qed.
Lemma fb_xs_nth k : (k <= length ss)%nat -> nth_error fb_xs k = Some (xk k).
Proof. intros H. apply (vec_nth (S (length ss)) xk). lia. Qed.
Lemma fb_us_nth k s ss' : skipn k ss = s :: ss' -> nth_error fb_us k = Some (pol m s (Vf m ss' lt) (xk k)).
Proof.
  intros Hsk. assert (Hk : k << length ss).
  { destruct (Nat.lt_ge_cases k (length ss)); [assumption|]. rewrite skipn_all2 in Hsk by assumption. discriminate. }
  set (d := Stg (fun _ _ => 0%nat) (fun _ _ => @czero K)).
  rewrite (skipn_nth ss d) in Hsk by exact Hk. injection Hsk as <- <-.
  unfold fb_us. fold d. etransitivity; [apply (vec_nth (length ss)); exact Hk|]. cbv beta.
  replace (k + 1)%nat with (S k) by lia. reflexivity.
Qed.
(** picked states agreeing with the policy trajectory give the policy trajectory *)
Lemma fb_unique x0 : x0 << n -> Forall (sok n m) ss ->
  (forall k, (k <= length ss)%nat -> nth_error (sts K ss x0 (pus m ss lt x0)) k = Some (xk k)) ->
  fb_xs = sts K ss x0 (pus m ss lt x0) /\ fb_us = pus m ss lt x0.
Proof.
  intros Hx Hok H. assert (Hl : length (pus m ss lt x0) = length ss) by (apply pus_ctl; exact Hm). split.
  - apply nth_error_ext. intros i. destruct (Nat.le_gt_cases i (length ss)) as [Hi|Hi].
    + rewrite fb_xs_nth, H by exact Hi. reflexivity.
    + transitivity (@None nat); [|symmetry]; apply nth_error_None; [rewrite fb_xs_length|rewrite sts_length by exact Hl]; lia.
  - apply nth_error_ext. intros i. destruct (Nat.lt_ge_cases i (length ss)) as [Hi|Hi].
    2:{ transitivity (@None nat); [|symmetry]; apply nth_error_None; [rewrite fb_us_length|rewrite Hl]; lia. }
    set (d := Stg (fun _ _ => 0%nat) (fun _ _ => @czero K)).
    rewrite (fb_us_nth i (nth i ss d) (skipn (S i) ss)) by (apply skipn_nth; exact Hi).
    specialize (H i ltac:(lia)). clear Hl.
    assert (G : forall q x, i << length q -> forall y, nth_error (sts K q x (pus m q lt x)) i = Some y ->
       nth_error (pus m q lt x) i = Some (pol m (nth i q d) (Vf m (skipn (S i) q) lt) y)).
    { clear. revert i. induction i as [|i IH]; intros [|s q] x Hi y Hy; try (simpl in Hi; lia).
      - simpl in *. congruence.
      - cbn [pus nth_error nth skipn] in *. simpl in Hy. apply IH; [simpl in Hi; lia|exact Hy]. }
    symmetry. apply G; assumption.
Qed.
End Lists.

(** state picked by argmin of forward plus backward value *)
Definition pick (d : nat -> K) pre post lt : nat := amin n (fun j => fold_left (step n m infty) pre d j + Vf m post lt j).

Lemma parFwdBwd_mkP ss lt x0 : Forall (sok n m) ss -> ss <> [] -> x0 << n ->
  let xk := fun k => pick (d0 x0) (firstn k ss) (skipn k ss) lt in
  parFwdBwdPass infty (mkP K n m ss lt) x0 (bus K n m ss lt) (bVs K n m ss lt) = Some (fb_us ss lt xk, fb_xs ss xk).
Proof.
  intros Hok Hne Hx xk. unfold parFwdBwdPass. rewrite fb_init by assumption. rewrite fb_scan.
  unfold parFwdBwdPass_extract. rewrite vec_length.
  apply fb_loop.
  - intros k _. apply amin_lt; exact Hn.
  - intros k us xs Hk. rewrite vec_nth by lia. unfold tab. rewrite vec_nth by exact Hn.
    rewrite bVs_nth by assumption. rewrite vadd_vec. rewrite argmin_vec by exact Hn. reflexivity.
Qed.

Definition xk2 ss lt x0 (k : nat) : nat :=
  match k, ss with
  | S k', s :: ss' => pick (E m infty s x0) (firstn k' ss') (skipn k' ss') lt
  | _, _ => x0
  end.
Lemma parFwdBwd2_mkP ss lt x0 : Forall (sok n m) ss -> ss <> [] -> x0 << n ->
  parFwdBwdPass2 infty (mkP K n m ss lt) x0 (bus K n m ss lt) (bVs K n m ss lt)
  = Some (fb_us ss lt (xk2 ss lt x0), fb_xs ss (xk2 ss lt x0)).
Proof.
  intros Hok Hne Hx. unfold parFwdBwdPass2, parFwdBwdPass2_init.
  assert (E0 : exists s0, nth_error (ff (mkP K n m ss lt)) 0 = Some (tab n m (sf s0))).
  { destruct ss as [|s0 ss]; [congruence|]. exists s0. reflexivity. }
  destruct E0 as [s0 ->]. rewrite tab_length, ncols_tab by exact Hn.
  rewrite stage_elems_mkP by assumption.
  destruct ss as [|s ss]; [congruence|].
  replace (map (fun s1 => tab n n (E m infty s1)) (s :: ss)) with (map (fun B => tab n n B) (E m infty s :: map (E m infty) ss)).
  2:{ simpl. rewrite map_map. reflexivity. }
  rewrite fb_scan. unfold parFwdBwdPass2_extract. rewrite vec_length.
  replace (S (length ss) + 1)%nat with (S (length (s :: ss))) by (simpl; lia).
  apply fb_loop.
  - intros [|k] _; simpl; [exact Hx|apply amin_lt; exact Hn].
  - intros [|k] us xs Hk; [reflexivity|].
    simpl in Hk. rewrite vec_nth by lia. unfold tab. rewrite vec_nth by exact Hx.
    rewrite bVs_nth by (simpl; lia). rewrite vadd_vec. rewrite argmin_vec by exact Hn. reflexivity.
Qed.

(** ** optimality of the picked states *)
Hypothesis Hstrict : strict_add K.

Definition on_optimal ss lt x0 k x : Prop :=
  exists us, ctl m (length ss) us /\ rc ss lt x0 us = Vf m ss lt x0 /\ nth_error (sts K ss x0 us) k = Some x.

Lemma join_optimal pre post lt x us j : Forall (sok n m) (pre ++ post) -> x << n -> ctl m (length pre) us ->
  endst pre x us = j -> rc pre (Vf m post lt) x us = Vf m (pre ++ post) lt x ->
  on_optimal (pre ++ post) lt x (length pre) j.
Proof.
  intros Hok Hx Hus He Hr. exists (us ++ pus m post lt j). split; [|split].
  - rewrite app_length. apply ctl_app; [exact Hus|apply pus_ctl; exact Hm].
  - destruct Hus as [Hl _]. rewrite rc_app by exact Hl. rewrite rc_end by exact Hl. rewrite He.
    rewrite pus_cost by exact Hm. rewrite <- Hr. rewrite (rc_end K pre (Vf m post lt)) by exact Hl. rewrite He. reflexivity.
  - destruct Hus as [Hl _]. rewrite sts_app by exact Hl. congruence.
Qed.

Lemma pick_attains d pre post lt M : M = minv n (fun j => fold_left (step n m infty) pre d j + Vf m post lt j) ->
  fold_left (step n m infty) pre d (pick d pre post lt) + Vf m post lt (pick d pre post lt) = M.
Proof. intros ->. apply (amin_min K n (fun j => fold_left (step n m infty) pre d j + Vf m post lt j) Hn). Qed.

Lemma d0_total ss lt x0 : x0 << n -> (forall i, i << n -> Vf m ss lt x0 <= infty + Vf m ss lt i) ->
  minv n (fun i => d0 x0 i + Vf m ss lt i) = Vf m ss lt x0.
Proof.
  intros Hx H. apply minv_eq; [exact Hn| |].
  - intros i Hi. unfold d0. destruct (Nat.eqb_spec i x0) as [->|]; [rewrite cadd_0_l; apply cle_refl|auto].
  - exists x0. split; [exact Hx|]. unfold d0. rewrite Nat.eqb_refl, cadd_0_l. apply cle_refl.
Qed.

Lemma pick_optimal ss lt x0 k : Forall (sok n m) ss -> x0 << n -> (k <= length ss)%nat ->
  sent_strict n m infty ss lt -> (forall i, i << n -> Vf m ss lt x0 < infty + Vf m ss lt i) ->
  on_optimal ss lt x0 k (pick (d0 x0) (firstn k ss) (skipn k ss) lt).
Proof.
  intros Hok Hx Hk Hs H0. set (pre := firstn k ss). set (post := skipn k ss).
  assert (Ess : ss = pre ++ post) by (symmetry; apply firstn_skipn).
  assert (Hkl : length pre = k) by (apply firstn_length_le; exact Hk).
  assert (HM : minv n (fun i => d0 x0 i + Vf m (pre ++ post) lt i) = Vf m ss lt x0).
  { rewrite <- Ess. apply d0_total; [exact Hx|]. intros i Hi. apply clt_le; auto. }
  set (j := pick (d0 x0) pre post lt).
  rewrite Ess in Hok, Hs.
  destruct (attain_back K n m Hn Hm infty Hstrict pre post lt Hok Hs (d0 x0) j (Vf m ss lt x0)) as (i & us & Hi & Hus & Hend & HiM & Hr).
  - apply amin_lt; exact Hn.
  - symmetry. exact HM.
  - apply pick_attains. rewrite (steps_total K n m Hn Hm infty) by (try assumption; apply sent_strict_ok; assumption).
    symmetry. exact HM.
  - assert (i = x0) as ->.
    { destruct (Nat.eq_dec i x0) as [|Hne]; [assumption|exfalso]. unfold d0 in HiM.
      apply Nat.eqb_neq in Hne. rewrite Hne in HiM. rewrite <- Ess in HiM. specialize (H0 i Hi). rewrite HiM in H0.
      apply (clt_irrefl K _ H0). }
    rewrite Ess at 1. rewrite <- Hkl. eapply join_optimal; eassumption.
Qed.

Lemma pick2_optimal ss lt x0 k : Forall (sok n m) ss -> x0 << n -> (k <= length ss)%nat ->
  sent_strict n m infty ss lt -> on_optimal ss lt x0 k (xk2 ss lt x0 k).
Proof.
  intros Hok Hx Hk Hs. destruct k as [|k].
  { simpl. exists (pus m ss lt x0). split; [apply pus_ctl; exact Hm|]. split; [apply pus_cost; exact Hm|].
    destruct ss; reflexivity. }
  destruct ss as [|s ss]; [simpl in Hk; lia|]. simpl in Hk. simpl xk2.
  pose proof (Forall_inv Hok) as Hs1. pose proof (Forall_inv_tail Hok) as Hok'. destruct Hs as [Hb Hs].
  set (pre := firstn k ss). set (post := skipn k ss).
  assert (Ess : ss = pre ++ post) by (symmetry; apply firstn_skipn).
  assert (Hkl : length pre = k) by (apply firstn_length_le; lia).
  assert (HM : minv n (fun i => E m infty s x0 i + Vf m ss lt i) = Vf m (s :: ss) lt x0).
  { apply (Jv_step K n m Hn Hm); [exact Hs1|exact Hx|]. intros j Hj. apply clt_le. apply Hb; assumption. }
  set (j := pick (E m infty s x0) pre post lt).
  rewrite Ess in Hok', Hs.
  destruct (attain_back K n m Hn Hm infty Hstrict pre post lt Hok' Hs (E m infty s x0) j (Vf m (s :: ss) lt x0))
    as (i & us & Hi & Hus & Hend & HiM & Hr).
  - apply amin_lt; exact Hn.
  - rewrite <- Ess. symmetry. exact HM.
  - apply pick_attains. rewrite (steps_total K n m Hn Hm infty) by (try assumption; apply sent_strict_ok; assumption).
    rewrite <- Ess. symmetry. exact HM.
  - rewrite <- Ess in HiM. destruct (E_cases K n m Hn Hm infty s x0 i) as [EI|(u & Hu & Hf & EL)].
    + exfalso. rewrite EI in HiM. specialize (Hb x0 i Hx Hi). rewrite HiM in Hb. apply (clt_irrefl K _ Hb).
    + rewrite EL in HiM. replace (s :: ss) with ((s :: pre) ++ post) by (simpl; rewrite <- Ess; reflexivity).
      rewrite <- Hkl. change (S (length pre)) with (length (s :: pre)).
      apply (join_optimal (s :: pre) post lt x0 (u :: us)).
      * simpl. rewrite <- Ess. exact Hok.
      * exact Hx.
      * destruct Hus as [A B]. split; [simpl; congruence|constructor; assumption].
      * simpl. rewrite Hf. exact Hend.
      * simpl app. simpl rc. rewrite Hf, Hr, <- Ess. exact HiM.
Qed.
End P.
