(** The FSC model computes the functional core; sequential passes and cost. *)
From Coq Require Import List Arith Lia Bool.
From Verif Require Import ScanModel ScanSpec ScanProofs Ord FscModel FscSpec FscCore.
Import ListNotations.

(** * Generic lemmas *)
Lemma mapM_map {A B} (g : A -> option B) (h : A -> B) l :
  (forall a, In a l -> g a = Some (h a)) -> mapM g l = Some (map h l).
Proof.
  induction l as [|a l IH]; intros H; simpl; [reflexivity|].
  rewrite H by (left; reflexivity). rewrite IH by (intros; apply H; right; assumption). reflexivity.
Qed.
Lemma mapM_seq {B} (g : nat -> option B) (h : nat -> B) n :
  (forall i, i < n -> g i = Some (h i)) -> mapM g (seq 0 n) = Some (vec n h).
Proof. intros H. apply mapM_map. intros i Hi. apply in_seq in Hi. apply H. lia. Qed.
Lemma mapM_vec {A B} (g : A -> option B) (a : nat -> A) (h : nat -> B) n :
  (forall i, i < n -> g (a i) = Some (h i)) -> mapM g (vec n a) = Some (vec n h).
Proof.
  intros H. unfold vec. revert H. generalize (seq 0 n) (fun i => proj1 (in_seq n 0 i)). intros l Hl H.
  assert (forall i, In i l -> g (a i) = Some (h i)) as H' by (intros i Hi; apply H; apply Hl in Hi; lia).
  clear Hl H. induction l as [|i l IH]; simpl; [reflexivity|].
  rewrite H' by (left; reflexivity). rewrite IH by (intros; apply H'; right; assumption). reflexivity.
Qed.
Lemma mapM_length {A B} (g : A -> option B) l r : mapM g l = Some r -> length r = length l.
Proof.
  revert r; induction l as [|a l IH]; intros r; simpl; [intros [= <-]; reflexivity|].
  destruct (g a); [|discriminate]. destruct (mapM g l) eqn:E; [|discriminate]. intros [= <-]. simpl. f_equal. auto.
Qed.

Lemma get2_tab {X} n m (g : nat -> nat -> X) i j : i < n -> j < m -> get2 (tab n m g) i j = Some (g i j).
Proof. intros Hi Hj. unfold get2, tab. rewrite vec_nth by exact Hi. apply vec_nth; exact Hj. Qed.
Lemma upd_vec {X} n (g : nat -> X) i v : i < n ->
  upd (vec n g) i v = Some (vec n (fun j => if j =? i then v else g j)).
Proof.
  revert g i; induction n as [|n IH]; intros g i Hi; [lia|].
  rewrite !vec_S. destruct i as [|i]; simpl; [reflexivity|].
  rewrite IH by lia. reflexivity.
Qed.
Lemma upd2_tab {X} n m (g : nat -> nat -> X) i j v : i < n -> j < m ->
  upd2 (tab n m g) i j v = Some (tab n m (fun i' j' => if (i' =? i) && (j' =? j) then v else g i' j')).
Proof.
  intros Hi Hj. unfold upd2, tab at 1. rewrite vec_nth by exact Hi. rewrite upd_vec by exact Hj.
  unfold tab. rewrite upd_vec by exact Hi. f_equal. apply vec_ext. intros i' Hi'.
  destruct (Nat.eqb_spec i' i) as [->|Hne]; simpl; reflexivity.
Qed.
Lemma ncols_tab {X} n m (g : nat -> nat -> X) : 0 < n -> ncols (tab n m g) = m.
Proof. intros H. unfold tab. destruct n; [lia|]. rewrite vec_S. simpl. apply vec_length. Qed.
Lemma tab_length {X} n m (g : nat -> nat -> X) : length (tab n m g) = n.
Proof. apply vec_length. Qed.
Lemma column_tab {X} n m (g : nat -> nat -> X) k : k < m -> column (tab n m g) k = Some (vec n (fun i => g i k)).
Proof. intros H. unfold column, tab. apply mapM_vec. intros i _. apply vec_nth; exact H. Qed.
Lemma repeat_vec {X} n (v : X) : repeat v n = vec n (fun _ => v).
Proof. induction n; [reflexivity|]. rewrite vec_S. simpl. f_equal. exact IHn. Qed.

Lemma for_shift {S} n (body : nat -> S -> option S) s :
  for_ (seq 0 (Datatypes.S n)) body s = match body 0 s with None => None | Some s' => for_ (seq 0 n) (fun k => body (Datatypes.S k)) s' end.
Proof. simpl. destruct (body 0 s); [|reflexivity]. rewrite <- seq_shift. apply for_map. Qed.

Lemma for_append {A B} (h : nat -> list A) (g : nat -> list B) body l : forall us xs,
  (forall k us xs, In k l -> body k (us, xs) = Some (us ++ h k, xs ++ g k)) ->
  for_ l body (us, xs) = Some (us ++ flat_map h l, xs ++ flat_map g l).
Proof.
  induction l as [|k l IH]; intros us xs H; simpl; [rewrite !app_nil_r; reflexivity|].
  rewrite H by (left; reflexivity). rewrite IH by (intros; apply H; right; assumption).
  rewrite !app_assoc. reflexivity.
Qed.
Lemma flat_map_single {A} (g : nat -> A) l : flat_map (fun k => [g k]) l = map g l.
Proof. induction l; simpl; congruence. Qed.

(** scan whose combinations are known *)
Lemma scan_known {A} (P : A -> Prop) op (a : list A) (reverse : bool) (g : nat -> A) :
  closed_on P op -> assoc_on P op -> a <> [] -> Forall P a ->
  (forall k, k < length a -> total_of op (if reverse then skipn k a else firstn (S k) a) = Some (g k)) ->
  my_assoc_scan op a reverse = Some (vec (length a) g).
Proof.
  intros Hc Ha Hne HP Hg. destruct (my_assoc_scan_spec P op a reverse Hc Ha Hne HP) as (r & E & Hl & _ & Hk).
  rewrite E. f_equal. apply nth_error_ext. intros i.
  destruct (Nat.lt_ge_cases i (length a)) as [Hi|Hi].
  - destruct (Hk i Hi) as [-> _]. rewrite Hg by exact Hi. symmetry. apply vec_nth; exact Hi.
  - rewrite vec_nth_none by exact Hi. apply nth_error_None. lia.
Qed.

Lemma skipn_nth {A} (l : list A) d k : k < length l -> skipn k l = nth k l d :: skipn (S k) l.
Proof. revert l; induction k as [|k IH]; intros [|a l] H; simpl in *; try lia; [reflexivity|]. apply IH. lia. Qed.

Section P.
Variable K : ordcost.
Variables n m : nat.
Hypothesis Hn : 0 < n.
Hypothesis Hm : 0 < m.

(** the problem given by functions *)
Definition mkP (ss : list (stg K)) (lt : nat -> K) : fsc K :=
  FSC (map (fun s => tab n m (sf s)) ss) (map (fun s => tab n m (sL s)) ss) (vec n lt).

Lemma table_tab {X} (d : X) (Q : X -> Prop) M : table n m Q M ->
  M = tab n m (fun i j => nth j (nth i M []) d) /\ forall i j, i < n -> j < m -> Q (nth j (nth i M []) d).
Proof.
  intros [HL HF]. rewrite Forall_forall in HF. split.
  - rewrite (list_vec [] M) at 1. rewrite HL. apply vec_ext. intros i Hi.
    destruct (HF (nth i M [])) as [H1 _]; [apply nth_In; lia|].
    rewrite (list_vec d (nth i M [])) at 1. rewrite H1. reflexivity.
  - intros i j Hi Hj. destruct (HF (nth i M [])) as [H1 H2]; [apply nth_In; lia|].
    rewrite Forall_forall in H2. apply H2. apply nth_In. lia.
Qed.

Lemma tab_table {X} (Q : X -> Prop) (g : nat -> nat -> X) :
  (forall i j, i < n -> j < m -> Q (g i j)) -> table n m Q (tab n m g).
Proof.
  intros H. split; [apply tab_length|]. apply Forall_forall. intros r Hr. apply vec_in in Hr as (i & Hi & ->).
  split; [apply vec_length|]. apply Forall_forall. intros y Hy. apply vec_in in Hy as (j & Hj & ->). auto.
Qed.

Lemma valid_repr P : valid n m P ->
  exists ss lt, P = mkP ss lt /\ Forall (sok n m) ss.
Proof.
  intros [_ _ Vff VL Vl Vt]. destruct P as [fs Ls LT]. simpl in *.
  assert (exists ss, fs = map (fun s : stg K => tab n m (sf s)) ss /\ Ls = map (fun s => tab n m (sL s)) ss /\ Forall (sok n m) ss)
    as (ss & -> & -> & Hok).
  { revert Ls VL Vl; induction Vff as [|f fs Hf Hfs IH]; intros Ls VL Vl; destruct Ls as [|L Ls]; try discriminate.
    - exists []. repeat split. constructor.
    - pose proof (Forall_inv VL) as VL1. pose proof (Forall_inv_tail VL) as VL2.
      destruct (IH Ls VL2) as (ss & E1 & E2 & Hok). { simpl in Vl. congruence. }
      destruct (table_tab 0 _ _ Hf) as [F1 F2]. destruct (table_tab (@czero K) _ _ VL1) as [G1 _].
      exists (Stg (fun i j => nth j (nth i f []) 0) (fun i j => nth j (nth i L []) czero) :: ss).
      simpl. rewrite <- E1, <- E2. repeat split; [f_equal; exact F1|f_equal; exact G1|].
      constructor; [intros x u Hx Hu; apply F2; assumption|assumption]. }
  exists ss, (fun x => nth x LT czero). split; [|exact Hok].
  unfold mkP. f_equal. rewrite (list_vec czero LT) at 1. rewrite Vt. reflexivity.
Qed.

Lemma mkP_valid ss lt : Forall (sok n m) ss -> valid n m (mkP ss lt).
Proof.
  intros H. constructor; simpl; auto.
  - apply Forall_map. eapply Forall_impl; [|exact H]. intros s Hs. apply tab_table. exact Hs.
  - apply Forall_map. apply Forall_forall. intros s _. apply tab_table. auto.
  - rewrite !map_length. reflexivity.
  - apply vec_length.
Qed.

(** ** specification side *)
Lemma run_cost_mkP ss lt : Forall (sok n m) ss -> forall x us, x < n -> ctl m (length ss) us ->
  run_cost (ff (mkP ss lt)) (fL (mkP ss lt)) (fLT (mkP ss lt)) x us = Some (rc ss lt x us).
Proof.
  simpl. induction 1 as [|s ss Hs Hss IH]; intros x us Hx [Hl Hu]; destruct us as [|u us]; try discriminate; simpl.
  - apply vec_nth; exact Hx.
  - pose proof (Forall_inv Hu) as Hu1. pose proof (Forall_inv_tail Hu) as Hu2. simpl in Hl.
    rewrite !get2_tab by assumption. rewrite IH; [reflexivity|apply Hs; assumption|].
    split; [congruence|assumption].
Qed.

(** states visited *)
Fixpoint sts (ss : list (stg K)) (x : nat) (us : list nat) : list nat :=
  match ss, us with
  | s :: ss', u :: us' => x :: sts ss' (sf s x u) us'
  | _, _ => [x]
  end.
Lemma sts_length ss : forall x us, length us = length ss -> length (sts ss x us) = S (length ss).
Proof. induction ss as [|s ss IH]; intros x [|u us] H; try discriminate; simpl; auto. Qed.
Lemma sts_last ss : forall x us, length us = length ss -> nth_error (sts ss x us) (length ss) = Some (endst ss x us).
Proof. induction ss as [|s ss IH]; intros x [|u us] H; try discriminate; simpl; auto. Qed.
Lemma sts_app ss1 ss2 us1 us2 : forall x, length us1 = length ss1 ->
  nth_error (sts (ss1 ++ ss2) x (us1 ++ us2)) (length ss1) = Some (endst ss1 x us1).
Proof.
  revert us1; induction ss1 as [|s ss1 IH]; intros us1 x H; destruct us1 as [|u us1]; try discriminate; simpl; auto.
  destruct ss2, us2; reflexivity.
Qed.
Lemma run_states_mkP ss lt : Forall (sok n m) ss -> forall x us, x < n -> ctl m (length ss) us ->
  run_states (ff (mkP ss lt)) x us = Some (sts ss x us).
Proof.
  simpl. induction 1 as [|s ss Hs Hss IH]; intros x us Hx [Hl Hu]; destruct us as [|u us]; try discriminate; simpl.
  - reflexivity.
  - pose proof (Forall_inv Hu) as Hu1. pose proof (Forall_inv_tail Hu) as Hu2. simpl in Hl.
    rewrite !get2_tab by assumption. rewrite IH; [reflexivity|apply Hs; assumption|].
    split; [congruence|assumption].
Qed.

Lemma skipn_map' {A B} (g : A -> B) k l : skipn k (map g l) = map g (skipn k l).
Proof. revert l; induction k; intros [|a l]; simpl; auto. Qed.

Lemma Forall_skipn {A} (Q : A -> Prop) k l : Forall Q l -> Forall Q (skipn k l).
Proof. intros H. rewrite <- (firstn_skipn k l) in H. apply Forall_app in H. tauto. Qed.
Lemma Forall_firstn {A} (Q : A -> Prop) k l : Forall Q l -> Forall Q (firstn k l).
Proof. intros H. rewrite <- (firstn_skipn k l) in H. apply Forall_app in H. tauto. Qed.

Lemma least_mkP ss lt k x : Forall (sok n m) ss -> x < n ->
  forall v, least_cost m (mkP ss lt) k x v <-> v = Vf m (skipn k ss) lt x.
Proof.
  intros Hok Hx v. unfold least_cost. simpl. rewrite !skipn_map', map_length.
  assert (Hok' : Forall (sok n m) (skipn k ss)) by (apply Forall_skipn; exact Hok).
  pose proof (fun us => run_cost_mkP (skipn k ss) lt Hok' x us Hx) as R. simpl in R.
  split.
  - intros [H1 (us & Hus & H2)]. rewrite R in H2 by exact Hus. injection H2 as H2.
    apply cle_antisym.
    + destruct (H1 (pus m (skipn k ss) lt x)) as (c & Hc & Hle); [apply pus_ctl; exact Hm|].
      rewrite R in Hc by (apply pus_ctl; exact Hm). rewrite pus_cost in Hc by exact Hm. congruence.
    + rewrite <- H2. apply (Vf_lb K n m); assumption.
  - intros ->. split.
    + intros us Hus. exists (rc (skipn k ss) lt x us). split; [apply R; exact Hus|].
      apply (Vf_lb K n m); assumption.
    + exists (pus m (skipn k ss) lt x). split; [apply pus_ctl; exact Hm|].
      rewrite R by (apply pus_ctl; exact Hm). rewrite pus_cost by exact Hm. reflexivity.
Qed.

Lemma optimal_mkP ss lt x us : Forall (sok n m) ss -> x < n ->
  (optimal m (mkP ss lt) x us <-> ctl m (length ss) us /\ rc ss lt x us = Vf m ss lt x).
Proof.
  intros Hok Hx. unfold optimal. simpl ff at 1. rewrite map_length. split.
  - intros [Hus (c & Hc & Hl)]. split; [exact Hus|].
    rewrite run_cost_mkP in Hc by assumption. apply least_mkP in Hl; [|assumption..]. simpl in Hl. congruence.
  - intros [Hus Hr]. split; [exact Hus|]. exists (rc ss lt x us).
    split; [apply run_cost_mkP; assumption|]. apply least_mkP; assumption.
Qed.

(** ** sequential backward pass *)
Fixpoint bus (ss : list (stg K)) lt : list (list nat) :=
  match ss with [] => [] | s :: ss' => vec n (pol m s (Vf m ss' lt)) :: bus ss' lt end.
Fixpoint bVs (ss : list (stg K)) lt : list (list K) :=
  vec n (Vf m ss lt) :: match ss with [] => [] | s :: ss' => bVs ss' lt end.

Lemma vu_table_tab (s : stg K) v : sok n m s ->
  vu_table (tab n m (sL s)) (tab n m (sf s)) (vec n v) =
  Some (tab n m (fun x u => cadd (sL s x u) (v (sf s x u)))).
Proof.
  intros Hs. unfold vu_table. rewrite ncols_tab, tab_length by exact Hn. unfold tab at 3.
  apply mapM_seq. intros x Hx. apply mapM_seq. intros u Hu.
  rewrite !get2_tab by assumption. rewrite vec_nth by (apply Hs; assumption). reflexivity.
Qed.
Lemma argmin_tab (g : nat -> nat -> K) : mapM argmin (tab n m g) = Some (vec n (fun x => amin m (g x))).
Proof. unfold tab. apply mapM_vec. intros i _. apply argmin_vec; exact Hm. Qed.
Lemma vmin_tab (g : nat -> nat -> K) : mapM vmin (tab n m g) = Some (vec n (fun x => minv m (g x))).
Proof. unfold tab. apply mapM_vec. intros i _. apply vmin_vec; exact Hm. Qed.

Lemma nth_error_mid {A} (l1 : list A) a l2 : nth_error (l1 ++ a :: l2) (length l1) = Some a.
Proof. induction l1; simpl; auto. Qed.

Lemma nth_error_map_mid {A B} (g : A -> B) (l1 : list A) a l2 : nth_error (map g (l1 ++ a :: l2)) (length l1) = Some (g a).
Proof. rewrite nth_error_map, nth_error_mid. reflexivity. Qed.

Lemma seqBackward_mkP ss lt : Forall (sok n m) ss -> seqBackwardPass (mkP ss lt) = Some (bus ss lt, bVs ss lt).
Proof.
  intros Hok. unfold seqBackwardPass.
  assert (H : forall pre post, ss = pre ++ post ->
     for_ (rev (seq 0 (length pre))) (seq_bwd_body (mkP ss lt)) (vec n (Vf m post lt), bus post lt, bVs post lt)
     = Some (vec n (Vf m ss lt), bus ss lt, bVs ss lt)).
  { intros pre. induction pre as [|s pre IH] using rev_ind; intros post E.
    - simpl in *. subst. reflexivity.
    - rewrite app_length. simpl length. rewrite Nat.add_1_r, seq_S, rev_app_distr. simpl rev. simpl app.
      rewrite <- app_assoc in E. simpl in E. simpl for_. unfold seq_bwd_body at 1. simpl fL; simpl ff. 
      assert (EL : nth_error (map (fun s => tab n m (sL s)) ss) (length pre) = Some (tab n m (sL s)))
        by (rewrite E; apply (nth_error_map_mid (fun s => tab n m (sL s)))).
      assert (Ef : nth_error (map (fun s => tab n m (sf s)) ss) (length pre) = Some (tab n m (sf s)))
        by (rewrite E; apply (nth_error_map_mid (fun s => tab n m (sf s)))).
      rewrite EL, Ef.
      assert (Hs : sok n m s). { rewrite E in Hok. apply Forall_app in Hok as [_ Hok]. exact (Forall_inv Hok). }
      rewrite vu_table_tab by exact Hs. rewrite argmin_tab, vmin_tab. apply (IH (s :: post)). exact E. }
  simpl ff. rewrite map_length.
  specialize (H ss [] (eq_sym (app_nil_r ss))). 
  change (for_ (rev (seq 0 (length ss))) (seq_bwd_body (mkP ss lt)) (vec n lt, [], [vec n lt]) =
    Some (vec n (Vf m ss lt), bus ss lt, bVs ss lt)) in H. change (fLT (mkP ss lt)) with (vec n lt).
  rewrite H. reflexivity.
Qed.

Lemma bus_length ss lt : length (bus ss lt) = length ss.
Proof. induction ss; simpl; auto. Qed.
Lemma bVs_length ss lt : length (bVs ss lt) = S (length ss).
Proof. induction ss; simpl; auto. Qed.
Lemma bVs_nth ss lt : forall k, k <= length ss -> nth_error (bVs ss lt) k = Some (vec n (Vf m (skipn k ss) lt)).
Proof. induction ss as [|s ss IH]; intros [|k] H; simpl in *; try reflexivity; [lia|]. apply IH. lia. Qed.
Lemma bus_nth ss lt : forall k s ss', skipn k ss = s :: ss' -> nth_error (bus ss lt) k = Some (vec n (pol m s (Vf m ss' lt))).
Proof. induction ss as [|s0 ss IH]; intros [|k] s ss' H; simpl in *; try discriminate; [congruence|]. apply IH. exact H. Qed.
Lemma bVs_vec ss lt : bVs ss lt = vec (S (length ss)) (fun k => vec n (Vf m (skipn k ss) lt)).
Proof.
  apply nth_error_ext. intros i. destruct (Nat.le_gt_cases i (length ss)) as [H|H].
  - rewrite bVs_nth, vec_nth by lia. reflexivity.
  - rewrite vec_nth_none by lia. apply nth_error_None. rewrite bVs_length. lia.
Qed.

(** ** forward passes with any feedback law *)
Definition law_ok (mu : nat -> nat) := forall x, x < n -> mu x < m.
Fixpoint fus (ss : list (stg K)) (mus : list (nat -> nat)) (x : nat) : list nat :=
  match ss, mus with
  | s :: ss', mu :: mus' => mu x :: fus ss' mus' (sf s x (mu x))
  | _, _ => []
  end.
Lemma fus_ctl ss : Forall (sok n m) ss -> forall mus x, Forall law_ok mus -> length mus = length ss -> x < n ->
  ctl m (length ss) (fus ss mus x).
Proof.
  induction 1 as [|s ss Hs Hss IH]; intros [|mu mus] x Hmu Hl Hx; try discriminate; simpl.
  - split; constructor.
  - pose proof (Forall_inv Hmu x Hx) as H1. destruct (IH mus (sf s x (mu x))) as [A B];
      [exact (Forall_inv_tail Hmu)|simpl in Hl; congruence|apply Hs; assumption|].
    split; [simpl; congruence|constructor; assumption].
Qed.

Lemma seqForward_mkP ss lt mus x0 : Forall (sok n m) ss -> Forall law_ok mus -> length mus = length ss -> x0 < n ->
  seqForwardPass (mkP ss lt) x0 (map (vec n) mus) = Some (fus ss mus x0, sts ss x0 (fus ss mus x0)).
Proof.
  intros Hok Hmu Hl Hx. unfold seqForwardPass.
  set (body := fun (fs : list (list (list nat))) (ul : list (list nat)) (k : nat) (s : nat * list nat * list nat) =>
     let '(x, us, xs) := s in
         do uk <- nth_error ul k; do u <- nth_error uk x;
         do f <- nth_error fs k; do x' <- get2 f x u;
         Some (x', us ++ [u], xs ++ [x'])).
  assert (H : forall x us xs, x < n ->
    for_ (seq 0 (length (map (vec n) mus))) (body (map (fun s => tab n m (sf s)) ss) (map (vec n) mus)) (x, us, xs)
    = Some (endst ss x (fus ss mus x), us ++ fus ss mus x, xs ++ tl (sts ss x (fus ss mus x)))).
  { clear Hx x0. revert mus Hmu Hl. induction Hok as [|s ss Hs Hss IH]; intros [|mu mus] Hmu Hl x us xs Hx; try discriminate.
    - simpl. rewrite !app_nil_r. reflexivity.
    - pose proof (Forall_inv Hmu x Hx) as H1. cbn [map length]. rewrite for_shift. unfold body at 1. cbn [map nth_error sts].
      rewrite vec_nth by exact Hx. rewrite get2_tab by assumption.
      assert (H2 : sf s x (mu x) < n) by (apply Hs; assumption).
      specialize (IH mus (Forall_inv_tail Hmu) ltac:(simpl in Hl; congruence) (sf s x (mu x)) (us ++ [mu x]) (xs ++ [sf s x (mu x)]) H2).
      etransitivity; [exact IH|]. simpl.
      f_equal. f_equal; [f_equal|]; rewrite <- app_assoc; [reflexivity|]. f_equal.
      destruct ss, mus; simpl; reflexivity. }
  fold (body (ff (mkP ss lt)) (map (vec n) mus)). simpl ff. rewrite H by exact Hx.
  f_equal. f_equal. simpl. destruct ss, mus; simpl; reflexivity.
Qed.

Lemma bus_map ss lt : exists mus, bus ss lt = map (vec n) mus /\ Forall law_ok mus /\ length mus = length ss /\
  forall x, fus ss mus x = pus m ss lt x.
Proof.
  induction ss as [|s ss (mus & E & H1 & H2 & H3)].
  - exists []. repeat split. constructor.
  - exists (pol m s (Vf m ss lt) :: mus). simpl. rewrite E. repeat split; auto.
    + constructor; [intros x _; apply pol_lt; exact Hm|exact H1].
    + intros x. rewrite H3. reflexivity.
Qed.

Lemma seqSimulation_mkP ss lt x0 us : Forall (sok n m) ss -> x0 < n -> ctl m (length ss) us ->
  seqSimulation (mkP ss lt) x0 us = Some (sts ss x0 us).
Proof.
  intros Hok Hx Hus. unfold seqSimulation.
  set (body := fun (fs : list (list (list nat))) (ul : list nat) (k : nat) (s : nat * list nat) =>
     let '(x, xs) := s in
         do u <- nth_error ul k; do f <- nth_error fs k; do x' <- get2 f x u; Some (x', xs ++ [x'])).
  assert (H : forall x xs, x < n ->
    for_ (seq 0 (length us)) (body (map (fun s => tab n m (sf s)) ss) us) (x, xs)
    = Some (endst ss x us, xs ++ tl (sts ss x us))).
  { clear Hx x0. revert us Hus. induction Hok as [|s ss Hs Hss IH]; intros [|u us] [Hl Hu] x xs Hx; try discriminate.
    - simpl. rewrite !app_nil_r. reflexivity.
    - pose proof (Forall_inv Hu) as H1. simpl in H1. cbn [map length]. rewrite for_shift. unfold body at 1. cbn [map nth_error sts].
      rewrite get2_tab by assumption.
      assert (H2 : sf s x u < n) by (apply Hs; assumption).
      specialize (IH us (conj (f_equal pred Hl) (Forall_inv_tail Hu)) (sf s x u) (xs ++ [sf s x u]) H2).
      etransitivity; [exact IH|]. simpl. rewrite <- app_assoc. f_equal. f_equal. f_equal.
      destruct ss, us; simpl; reflexivity. }
  fold (body (ff (mkP ss lt)) us). simpl ff. rewrite H by exact Hx.
  simpl. f_equal. destruct ss, us; simpl; reflexivity.
Qed.

(** ** cost *)
Lemma cost_mkP ss lt x us : Forall (sok n m) ss -> x < n -> ctl m (length ss) us ->
  fsc_cost (mkP ss lt) (sts ss x us) us = Some (rc ss lt x us).
Proof.
  intros Hok Hx [Hl Hu]. unfold fsc_cost. rewrite sts_length by exact Hl.
  simpl Nat.sub. rewrite Nat.sub_0_r. rewrite sts_last by exact Hl. simpl fLT.
  rewrite vec_nth by (apply (endst_lt K n m); [exact Hok|exact Hx|split; assumption]).
  set (body := fun (Ls : list (list (list K))) (xl ul : list nat) (k : nat) (res : K) =>
      do M <- nth_error Ls k; do x <- nth_error xl k; do u <- nth_error ul k;
                  do l <- get2 M x u; Some (cadd res l)).
  fold (body (fL (mkP ss lt)) (sts ss x us) us). simpl fL.
  rewrite rc_end by exact Hl. rewrite cadd_comm. generalize (lt (endst ss x us)) as r.
  revert x us Hx Hl Hu. induction Hok as [|s ss Hs Hss IH]; intros x us Hx Hl Hu r; destruct us as [|u us]; try discriminate.
  - simpl. rewrite cadd_0_r. reflexivity.
  - pose proof (Forall_inv Hu) as H1. simpl in H1. cbn [map length]. rewrite for_shift. unfold body at 1. cbn [map nth_error sts].
    rewrite get2_tab by assumption.
    etransitivity; [apply (IH (sf s x u) us); [apply Hs; assumption|simpl in Hl; congruence|exact (Forall_inv_tail Hu)]|].
    simpl. rewrite cadd_assoc. reflexivity.
Qed.
End P.
