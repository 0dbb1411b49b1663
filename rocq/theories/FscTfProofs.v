(** The TensorFlow finite-state control passes compute what the NumPy passes compute. *)
From Coq Require Import List Arith Lia Bool.
From Verif Require Import ScanModel ScanSpec ScanProofs ScanUse Ord FscModel FscSpec FscCore FscProofs FscProofs2 FscProofs3 FscProofs4 TfScan VitModel FscTfModel.
Import ListNotations.

(** ** generic *)
Lemma map2M_map {X A B C} (g : A -> B -> option C) (a : X -> A) (b : X -> B) (h : X -> C) l :
  (forall x, In x l -> g (a x) (b x) = Some (h x)) -> map2M g (map a l) (map b l) = Some (map h l).
Proof.
  induction l as [|x l IH]; intros H; [reflexivity|]. cbn. rewrite H by (left; reflexivity).
  rewrite IH by (intros; apply H; right; assumption). reflexivity.
Qed.
Lemma map2M_vec {A B C} (g : A -> B -> option C) (a : nat -> A) (b : nat -> B) (h : nat -> C) n :
  (forall i, i < n -> g (a i) (b i) = Some (h i)) -> map2M g (vec n a) (vec n b) = Some (vec n h).
Proof. intros H. apply map2M_map. intros i Hi. apply in_seq in Hi. apply H. lia. Qed.
Lemma removelast_vec {A} n (g : nat -> A) : removelast (vec (S n) g) = vec n g.
Proof. unfold vec. rewrite seq_S, map_app. cbn. apply removelast_last. Qed.
Lemma tl_vec {A} n (g : nat -> A) : tl (vec (S n) g) = vec n (fun k => g (S k)).
Proof. rewrite vec_S. reflexivity. Qed.
Lemma map_vec_nth {A B} (h : A -> B) (l : list A) d : map h l = vec (length l) (fun k => h (nth k l d)).
Proof. rewrite (list_vec d l) at 1. unfold vec. rewrite map_map. reflexivity. Qed.

Section Scans.
Context {A : Type} (P : A -> Prop) (op : A -> A -> option A).
Hypothesis C : closed_on P op.
Hypothesis As : assoc_on P op.
Lemma tfp_fwd L a : 1 <= L -> a <> [] -> Forall P a -> length a < 2 ^ (L + 1) ->
  tfp_scan_associative op L a = my_assoc_scan op a false.
Proof.
  intros hL hne F hl. destruct a as [|x l]; [easy|]. inversion F; subst.
  rewrite (scan_scanl P op C As) by assumption. apply (tfp_scan_spec P); auto.
Qed.
Lemma C_swap : closed_on P (fun y x => op x y).
Proof. intros x y Px Py. now apply C. Qed.
Lemma As_swap : assoc_on P (fun y x => op x y).
Proof.
  intros x y z xy yz Px Py Pz E1 E2. cbn in *. symmetry. now apply (As z y x yz xy).
Qed.
Lemma tfp_bwd L a : 1 <= L -> a <> [] -> Forall P a -> length a < 2 ^ (L + 1) ->
  exists r, tfp_scan_associative (fun y x => op x y) L (rev a) = Some r /\ my_assoc_scan op a true = Some (rev r).
Proof.
  intros hL ne F hl. destruct (rev_scanr P op C a ne F) as (r & E1 & E2).
  exists r. split; [|rewrite (scan_scanr P op C As) by assumption; exact E2].
  assert (Fr := Forall_rev F). rewrite <- (rev_length a) in hl.
  destruct (rev a) as [|x t] eqn:E; [apply (f_equal (@length A)) in E; rewrite rev_length in E; now destruct a|].
  inversion Fr; subst. rewrite (tfp_scan_spec P _ C_swap As_swap L x t) by assumption. exact E1.
Qed.
End Scans.

Lemma levels_pos mp : 2 <= mp -> 1 <= levels mp.
Proof. intros h. unfold levels. change 1 with (Nat.log2_up 2). now apply Nat.log2_up_le_mono. Qed.

Section P.
Variable K : ordcost.
Variables n m : nat.
Hypothesis Hn : 0 < n.
Hypothesis Hm : 0 < m.
Variable infty : K.
Implicit Types (ss : list (stg K)) (s : stg K).
Local Notation fst_ ss := (map (fun s => tab n m (sf s)) ss).
Local Notation Lst_ ss := (map (fun s => tab n m (sL s)) ss).

Lemma gather_tab {X} s (v : nat -> X) : sok n m s -> gather (vec n v) (tab n m (sf s)) = Some (tab n m (fun x u => v (sf s x u))).
Proof.
  intros Hs. unfold gather, tab. apply mapM_vec. intros x Hx. apply mapM_vec. intros u Hu. apply vec_nth. now apply Hs.
Qed.
Lemma add_tab (g h : nat -> nat -> K) : map2M vadd (tab n m g) (tab n m h) = Some (tab n m (fun x u => cadd (g x u) (h x u))).
Proof. unfold tab. apply map2M_vec. intros x _. apply vadd_vec. Qed.
Lemma tf_vu_tab s v : sok n m s ->
  tf_vu (vec n v) (tab n m (sf s)) (tab n m (sL s)) = Some (tab n m (fun x u => cadd (sL s x u) (v (sf s x u)))).
Proof. intros Hs. unfold tf_vu. rewrite gather_tab by exact Hs. apply add_tab. Qed.

(** ** sequential passes *)
Fixpoint bres ss post lt : list (list K * list nat) :=
  match ss with [] => [] | s :: ss' => (vec n (Vf m (s :: ss' ++ post) lt), vec n (pol m s (Vf m (ss' ++ post) lt))) :: bres ss' post lt end.
Lemma bres_snoc ss s post lt :
  bres (ss ++ [s]) post lt = bres ss (s :: post) lt ++ [(vec n (Vf m (s :: post) lt), vec n (pol m s (Vf m post lt)))].
Proof.
  induction ss as [|t ss IH]; [reflexivity|]. cbn [app bres]. rewrite IH. rewrite <- !app_assoc. reflexivity.
Qed.
Lemma bres_bus ss lt : map snd (bres ss [] lt) = bus K n m ss lt.
Proof. induction ss as [|s ss IH]; [reflexivity|]. cbn [bres map bus snd]. rewrite IH, app_nil_r. reflexivity. Qed.
Lemma bres_bVs ss lt : map fst (bres ss [] lt) ++ [vec n lt] = bVs K n m ss lt.
Proof. induction ss as [|s ss IH]; [reflexivity|]. cbn [bres map fst app bVs]. rewrite IH, app_nil_r. reflexivity. Qed.

Lemma tf_seqBackward_mkP ss lt : Forall (sok n m) ss -> ss <> [] ->
  fsc_seq_backwardpass (fst_ ss) (Lst_ ss) (vec n lt) = Some (bus K n m ss lt, bVs K n m ss lt).
Proof.
  intros Hok Hne. unfold fsc_seq_backwardpass.
  assert (exists f0, nth_error (fst_ ss) 0 = Some f0) as [f0 ->] by (destruct ss; [easy|eexists; reflexivity]).
  unfold tf_scan_reverse.
  set (body := fun c f L => _).
  assert (H : forall ss post u, Forall (sok n m) ss ->
     tf_scan body (vec n (Vf m post lt), u) (rev (fst_ ss)) (rev (Lst_ ss)) = Some (rev (bres ss post lt))).
  { clear - Hn Hm. intros ss0. induction ss0 as [|s ss IH] using rev_ind; intros post u Hok; [reflexivity|].
    apply Forall_app in Hok as [Hok Hs]. pose proof (Forall_inv Hs) as Hs'. cbv beta in Hs'.
    rewrite !map_app. cbn [map]. rewrite !rev_app_distr. cbn [rev app tf_scan].
    unfold body at 1. cbn [fst]. rewrite tf_vu_tab by exact Hs'. rewrite (argmin_tab K n m Hm), (vmin_tab K n m Hm).
    change (vec n (fun x => minv m (fun u0 => cadd (sL s x u0) (Vf m post lt (sf s x u0))))) with (vec n (Vf m (s :: post) lt)).
    rewrite (IH (s :: post)) by exact Hok. rewrite bres_snoc, rev_app_distr. reflexivity. }
  change (vec n lt) with (vec n (Vf m [] lt)) at 1. rewrite H by exact Hok. rewrite rev_involutive.
  rewrite bres_bus, bres_bVs. reflexivity.
Qed.

Lemma tf_seqForward_mkP ss mus x0 : Forall (sok n m) ss -> ss <> [] -> Forall (law_ok n m) mus -> length mus = length ss -> x0 < n ->
  fsc_seq_forwardpass x0 (fst_ ss) (map (vec n) mus) = Some (sts K ss x0 (fus K ss mus x0), fus K ss mus x0).
Proof.
  intros Hok Hne Hmu Hl Hx. unfold fsc_seq_forwardpass.
  assert (exists f0, nth_error (fst_ ss) 0 = Some f0) as [f0 ->] by (destruct ss; [easy|eexists; reflexivity]).
  set (body := fun c f u => _).
  assert (H : forall ss, Forall (sok n m) ss -> forall mus x u0, Forall (law_ok n m) mus -> length mus = length ss -> x < n ->
    exists r, tf_scan body (x, u0) (fst_ ss) (map (vec n) mus) = Some r /\
      x :: map fst r = sts K ss x (fus K ss mus x) /\ map snd r = fus K ss mus x).
  { clear - Hn Hm. induction 1 as [|s ss Hs Hok IH]; intros [|mu mus] x u0 Hmu Hl Hx; try discriminate.
    - exists []. auto.
    - pose proof (Forall_inv Hmu x Hx) as H1. cbn [map tf_scan]. unfold body at 1. cbn [fst].
      rewrite vec_nth by exact Hx. rewrite get2_tab by assumption.
      destruct (IH mus (sf s x (mu x)) (mu x)) as (r & E & E1 & E2);
        [exact (Forall_inv_tail Hmu)|now injection Hl|now apply Hs|].
      rewrite E. eexists. split; [reflexivity|]. cbn [map fst snd]. rewrite E1, E2. cbn. auto. }
  destruct (H ss Hok mus x0 0 Hmu Hl Hx) as (r & E & E1 & E2). rewrite E, E1, E2. reflexivity.
Qed.

(** ** stage elements *)
Definition le_infty s := forall x u, x < n -> u < m -> cleb (sL s x u) infty = true.
Lemma E_min s i j : le_infty s -> i < n -> minv m (fun u => if j =? sf s i u then sL s i u else infty) = E m infty s i j.
Proof.
  intros Hi hi. apply minv_eq; [exact Hm| |].
  - intros u hu. destruct (Nat.eqb_spec j (sf s i u)) as [->|ne]; [now apply (E_le K n m Hn Hm)|apply E_infty].
  - destruct (E_cases K n m Hn Hm infty s i j) as [e|(u & hu & hf & e)].
    + (* no control is better than the constant: any control will do *)
      exists 0. split; [exact Hm|]. rewrite e. destruct (j =? sf s i 0); [now apply Hi|apply cle_refl].
    + exists u. split; [exact hu|]. rewrite e, <- hf, Nat.eqb_refl. apply cle_refl.
Qed.
Lemma tf_elem_tab s : sok n m s -> le_infty s -> tf_elem infty n (tab n m (sf s)) (tab n m (sL s)) = Some (tab n n (E m infty s)).
Proof.
  intros Hs Hi. unfold tf_elem. unfold tab at 1 2 3. apply map2M_vec. intros x Hx.
  rewrite (map2M_vec _ _ _ (fun u => vec n (fun j => if j =? sf s x u then sL s x u else infty))).
  2:{ intros u Hu. rewrite repeat_vec. apply upd_vec. now apply Hs. }
  change (vec m (fun u => vec n (fun j => if j =? sf s x u then sL s x u else infty))) with (tab m n (fun u j => if j =? sf s x u then sL s x u else infty)).
  apply mapM_seq. intros j Hj. rewrite column_tab by exact Hj. rewrite vmin_vec by exact Hm. now rewrite E_min.
Qed.
Lemma init_most_mkP ss : Forall (sok n m) ss -> ss <> [] -> Forall le_infty ss ->
  init_most infty (fst_ ss) (Lst_ ss) = Some (map (fun s => tab n n (E m infty s)) ss).
Proof.
  intros Hok Hne Hi. unfold init_most.
  assert (exists f0, nth_error (fst_ ss) 0 = Some f0 /\ length f0 = n) as (f0 & -> & ->).
  { destruct ss; [easy|]. eexists. split; [reflexivity|apply tab_length]. }
  apply map2M_map. intros s Hs. rewrite Forall_forall in Hok, Hi. apply tf_elem_tab; auto.
Qed.
Lemma init_last_vec lt : init_last (vec n lt) = lastE K n lt.
Proof. unfold init_last, lastE, tab. rewrite vec_length. unfold vec at 1. rewrite map_map. apply map_ext. intros x. apply repeat_vec. Qed.

(** ** parallel backward *)
Lemma elems_isV ss lt : Forall (isV K n) (map (fun s => tab n n (E m infty s)) ss ++ [lastE K n lt]).
Proof.
  apply Forall_app. split; [|constructor; [eexists; reflexivity|constructor]].
  apply Forall_map, Forall_forall. intros; eexists; reflexivity.
Qed.
Lemma tf_parBackward_mkP ss lt mp : Forall (sok n m) ss -> ss <> [] -> Forall le_infty ss -> 2 <= mp ->
  S (length ss) < 2 ^ (levels mp + 1) ->
  fsc_par_backwardpass infty (fst_ ss) (Lst_ ss) (vec n lt) mp = parBackwardPass infty (mkP K n m ss lt).
Proof.
  intros Hok Hne Hi Hmp Hl. unfold fsc_par_backwardpass, parBackwardPass.
  rewrite init_most_mkP, init_mkP by assumption. rewrite init_last_vec.
  destruct (tfp_bwd (isV K n) combine_V (combine_V_closed K n Hn) (combine_V_assoc K n Hn) (levels mp)
              (map (fun s => tab n n (E m infty s)) ss ++ [lastE K n lt])) as (r & E1 & E2).
  { now apply levels_pos. } { destruct ss; discriminate. } { apply elems_isV. }
  { rewrite app_length, map_length. cbn [length]. lia. }
  rewrite E1. rewrite (bscan_mkP K n m Hn Hm).
  pose proof (bscan_mkP K n m Hn Hm infty ss lt) as E3. unfold par_backward_pass_scan in E3. rewrite E2 in E3. injection E3 as ->.
  rewrite (extract_mkP K n m Hn Hm ss lt (fun k x => Jv n m infty (skipn k ss) lt x)) by exact Hok.
  set (V := fun k x => Jv n m infty (skipn k ss) lt x).
  rewrite (mapM_vec _ _ (fun k => vec n (V k))) by (intros k _; now apply column_tab).
  rewrite tl_vec. set (d := Stg (fun _ _ => 0) (fun _ _ => czero)).
  rewrite (map_vec_nth _ ss d), (map_vec_nth (fun s => tab n m (sL s)) ss d).
  assert (Hd : forall k, k < length ss -> sok n m (nth k ss d)).
  { intros k hk. rewrite Forall_forall in Hok. apply Hok, nth_In. exact hk. }
  rewrite (map2M_vec _ _ _ (fun k => tab n m (fun x u => V (S k) (sf (nth k ss d) x u)))).
  2:{ intros k hk. apply gather_tab. auto. }
  rewrite (map2M_vec _ _ _ (fun k => tab n m (fun x u => cadd (sL (nth k ss d) x u) (V (S k) (sf (nth k ss d) x u))))).
  2:{ intros k hk. apply add_tab. }
  rewrite (mapM_vec _ _ (fun k => vec n (fun x => amin m (fun u => cadd (sL (nth k ss d) x u) (V (S k) (sf (nth k ss d) x u)))))).
  2:{ intros k hk. apply argmin_tab. exact Hm. }
  f_equal. f_equal. apply map_ext. intros k. replace (k + 1) with (S k) by lia. reflexivity.
Qed.

(** ** parallel forward *)
Lemma pick_vec mus (xk : nat -> nat) : (forall k, k < length mus -> xk k < n) ->
  pick_controls (map (vec n) mus) (vec (S (length mus)) xk) = Some (vec (length mus) (fun k => nth k mus (fun _ => 0) (xk k))).
Proof.
  intros H. unfold pick_controls. rewrite removelast_vec, (map_vec_nth _ mus (fun _ => 0)).
  apply map2M_vec. intros k hk. apply vec_nth. auto.
Qed.
Lemma fwd_init_most_mkP ss mus : Forall (sok n m) ss -> ss <> [] -> Forall (law_ok n m) mus -> length mus = length ss ->
  fwd_init_most (fst_ ss) (map (vec n) mus) = Some (map (vec n) (fel K ss mus)).
Proof.
  intros Hok Hne Hmu Hl. unfold fwd_init_most.
  assert (exists f0, nth_error (fst_ ss) 0 = Some f0 /\ length f0 = n) as (f0 & -> & ->).
  { destruct ss; [easy|]. eexists. split; [reflexivity|apply tab_length]. }
  clear Hne. revert mus Hmu Hl. induction Hok as [|s ss Hs Hok IH]; intros [|mu mus] Hmu Hl; try discriminate; [reflexivity|].
  cbn [map map2M fel combine].
  rewrite (mapM_seq _ (cl K s mu)).
  2:{ intros x Hx. rewrite vec_nth by exact Hx. rewrite get2_tab; [reflexivity|exact Hx|]. now apply (Forall_inv Hmu). }
  rewrite (IH mus (Forall_inv_tail Hmu)) by now injection Hl. reflexivity.
Qed.
Lemma fold_lt (gs : list (nat -> nat)) : forall y, Forall (fun g => forall i, i < n -> g i < n) gs -> y < n ->
  fold_left (fun x g => g x) gs y < n.
Proof.
  induction gs as [|g gs IHg]; intros y HF Hy; simpl; [exact Hy|]. apply IHg; [exact (Forall_inv_tail HF)|].
  apply (Forall_inv HF). exact Hy.
Qed.
Lemma tf_parForward_mkP ss lt mus x0 mp : Forall (sok n m) ss -> ss <> [] -> Forall (law_ok n m) mus -> length mus = length ss -> x0 < n ->
  2 <= mp -> S (length ss) < 2 ^ (levels mp + 1) ->
  fsc_par_forwardpass x0 (fst_ ss) (map (vec n) mus) mp = parForwardPass (mkP K n m ss lt) x0 (map (vec n) mus).
Proof.
  intros Hok Hne Hmu Hl Hx Hmp HL. rewrite parForward_mkP by assumption. unfold fsc_par_forwardpass.
  assert (exists f0, nth_error (fst_ ss) 0 = Some f0 /\ length f0 = n) as (f0 & -> & ->).
  { destruct ss; [easy|]. eexists. split; [reflexivity|apply tab_length]. }
  rewrite fwd_init_most_mkP by assumption. unfold fwd_init_first. rewrite repeat_vec.
  pose proof (fel_ok K n m ss Hok mus Hmu) as Hf. pose proof (fel_length K n m Hn Hm ss mus Hl) as Hfl.
  change (vec n (fun _ => x0) :: map (vec n) (fel K ss mus)) with (map (vec n) ((fun _ => x0) :: fel K ss mus)).
  set (xk := fun k => fold_left (fun x g => g x) (firstn k (fel K ss mus)) x0).
  assert (HF : Forall (isF n) (map (vec n) ((fun _ => x0) :: fel K ss mus))).
  { apply Forall_map. constructor; [exists (fun _ => x0); auto|]. eapply Forall_impl; [|exact Hf]. intros g Hg. exists g. auto. }
  rewrite (tfp_fwd (isF n) combine_f (combine_f_closed n) (combine_f_assoc n)).
  2: now apply levels_pos. 2: discriminate. 2: exact HF. 2:{ rewrite map_length. cbn [length]. lia. }
  rewrite (scan_known (isF n) combine_f _ false (fun k => vec n (fun _ => xk k))).
  2: exact (combine_f_closed n). 2: exact (combine_f_assoc n). 2: discriminate. 2: exact HF.
  2:{ intros k Hk. rewrite map_length in Hk. simpl in Hk. rewrite firstn_map.
      simpl firstn. apply (total_prefix_f n (firstn k (fel K ss mus)) (Forall_firstn _ k _ Hf) (fun _ => x0)). auto. }
  rewrite (mapM_vec _ _ xk) by (intros k _; apply (vec_nth n (fun _ => xk k) 0 Hn)).
  rewrite map_length. cbn [length]. rewrite Hfl, <- Hl. rewrite pick_vec.
  2:{ intros k _. apply fold_lt; [apply Forall_firstn; exact Hf|exact Hx]. }
  f_equal. f_equal.
  - apply nth_error_ext. intros i. destruct (Nat.lt_ge_cases i (length ss)) as [H|H].
    + rewrite vec_nth by lia. symmetry. apply fus_nth; [exact Hl|]. apply nth_error_nth'. lia.
    + transitivity (@None nat); [|symmetry]; apply nth_error_None.
      * rewrite vec_length. lia.
      * destruct (fus_ctl K n m ss Hok mus x0 Hmu Hl Hx) as [-> _]. exact H.
  - apply nth_error_ext. intros i. destruct (Nat.le_gt_cases i (length ss)) as [H|H].
    + rewrite vec_nth by lia. symmetry. apply (fold_sts K n m); assumption.
    + transitivity (@None nat); [|symmetry]; apply nth_error_None.
      * rewrite vec_length. lia.
      * destruct (fus_ctl K n m ss Hok mus x0 Hmu Hl Hx) as [Hc _]. rewrite sts_length by exact Hc. lia.
Qed.

(** ** forward-backward, with any law and any values *)
Definition fbk ss x0 (W : nat -> nat -> K) (k : nat) : nat :=
  amin n (fun j => cadd (fold_left (step n m infty) (firstn k ss) (d0 K infty x0) j) (W k j)).
Lemma np_fb ss lt x0 mus W : Forall (sok n m) ss -> ss <> [] -> length mus = length ss -> x0 < n ->
  parFwdBwdPass infty (mkP K n m ss lt) x0 (map (vec n) mus) (vec (S (length ss)) (fun k => vec n (W k))) =
  Some (vec (length mus) (fun k => nth k mus (fun _ => 0) (fbk ss x0 W k)), vec (S (length ss)) (fbk ss x0 W)).
Proof.
  intros Hok Hne Hl Hx. unfold parFwdBwdPass. rewrite fb_init by assumption. rewrite (fb_scan K n m Hn).
  unfold parFwdBwdPass_extract. rewrite vec_length, map_length, Hl.
  rewrite (for_append (fun k => if (k <? length ss)%nat then [nth k mus (fun _ => 0) (fbk ss x0 W k)] else []) (fun k => [fbk ss x0 W k])).
  - rewrite flat_map_single, !app_nil_l. apply (f_equal Some). apply f_equal2; [|reflexivity].
    rewrite seq_S, flat_map_app. simpl. rewrite Nat.ltb_irrefl, app_nil_r.
    rewrite flat_map_if by (intros i Hi'; apply in_seq in Hi'; lia). reflexivity.
  - intros k us xs Hk. apply in_seq in Hk. rewrite vec_nth by lia. unfold tab. rewrite vec_nth by exact Hn.
    rewrite vec_nth by lia. rewrite vadd_vec. rewrite argmin_vec by exact Hn. fold (fbk ss x0 W k).
    destruct (Nat.ltb_spec k (length ss)) as [H|H]; [|rewrite app_nil_r; reflexivity].
    rewrite nth_error_map, (nth_error_nth' mus (fun _ => 0)) by lia. cbn [option_map].
    rewrite vec_nth by (apply amin_lt; exact Hn). reflexivity.
Qed.
Lemma tf_fb ss lt x0 mus W mp : Forall (sok n m) ss -> ss <> [] -> Forall le_infty ss -> length mus = length ss -> x0 < n ->
  2 <= mp -> S (length ss) < 2 ^ (levels mp + 1) ->
  fsc_par_fwdbwdpass infty x0 (fst_ ss) (Lst_ ss) (map (vec n) mus) (vec (S (length ss)) (fun k => vec n (W k))) mp =
  parFwdBwdPass infty (mkP K n m ss lt) x0 (map (vec n) mus) (vec (S (length ss)) (fun k => vec n (W k))).
Proof.
  intros Hok Hne Hi Hl Hx Hmp HL. rewrite np_fb by assumption. unfold fsc_par_fwdbwdpass.
  assert (exists L0, nth_error (Lst_ ss) 0 = Some L0 /\ length L0 = n) as (L0 & -> & HL0).
  { destruct ss; [easy|]. eexists. split; [reflexivity|apply tab_length]. }
  unfold fb_init_first. rewrite HL0.
  rewrite (mapM_seq _ (fun _ => vec n (d0 K infty x0))).
  2:{ intros i _. rewrite repeat_vec, upd_vec by exact Hx. reflexivity. }
  rewrite init_most_mkP by assumption.
  replace (vec n (fun _ => vec n (d0 K infty x0)) :: map (fun s => tab n n (E m infty s)) ss)
    with (map (fun B => tab n n B) ((fun _ => d0 K infty x0) :: map (E m infty) ss)).
  2:{ cbn [map]. rewrite map_map. reflexivity. }
  rewrite (tfp_fwd (isV K n) combine_V (combine_V_closed K n Hn) (combine_V_assoc K n Hn)).
  2: now apply levels_pos. 2: discriminate.
  2:{ apply Forall_map, Forall_forall. intros; eexists; reflexivity. }
  2:{ cbn [map length]. rewrite !map_length. lia. }
  pose proof (fb_scan K n m Hn infty ss (fun _ => d0 K infty x0)) as E3. unfold par_fwdbwd_pass_scan in E3. rewrite E3.
  rewrite (mapM_vec _ _ (fun k => vec n (fun j => fold_left (step n m infty) (firstn k ss) (d0 K infty x0) j))).
  2:{ intros k _. unfold tab. now rewrite vec_nth. }
  rewrite (map2M_vec _ _ _ (fun k => vec n (fun j => cadd (fold_left (step n m infty) (firstn k ss) (d0 K infty x0) j) (W k j)))).
  2:{ intros k _. apply vadd_vec. }
  rewrite (mapM_vec _ _ (fbk ss x0 W)).
  2:{ intros k _. now apply argmin_vec. }
  rewrite <- Hl at 1. rewrite pick_vec; [reflexivity|]. intros k _. apply amin_lt. exact Hn.
Qed.
End P.
