(** Lemmas on the text model: counts, tables, conversion and noise (C58). *)
From Coq Require Import List Arith Bool Reals Lra Lia.
From Verif Require Import ScanModel Ord FscModel FscSpec FscCore FscProofs VitSpec VitModel VitProofs MarkovModel MarkovSpec MarkovFm MarkovGe MarkovText.
Import ListNotations.

(** ** sums *)
Lemma total_vec_ext N (g h : nat -> R) : (forall i, i < N -> g i = h i) -> total (vec N g) = total (vec N h).
Proof. intros H. f_equal. apply vec_ext, H. Qed.
Lemma total_vec_S N (g : nat -> R) : total (vec (S N) g) = (total (vec N g) + g N)%R.
Proof. rewrite vec_snoc, total_app. simpl. lra. Qed.
Lemma total_vec_pos N (g : nat -> R) : 0 < N -> (forall i, i < N -> (0 < g i)%R) -> (0 < total (vec N g))%R.
Proof.
  intros HN H. destruct N as [|N]; [lia|]. clear HN. induction N as [|N IH].
  - rewrite total_vec_S. simpl. pose proof (H 0 ltac:(lia)). lra.
  - rewrite total_vec_S. pose proof (H (S N) ltac:(lia)). pose proof (IH (fun i Hi => H i ltac:(lia))). lra.
Qed.
Lemma total_vec_nonneg N (g : nat -> R) : (forall i, i < N -> (0 <= g i)%R) -> (0 <= total (vec N g))%R.
Proof. intros H. apply total_nonneg, Forall_forall. intros e He. apply vec_in in He as (i & Hi & ->). auto. Qed.
Lemma total_scale l c : total (map (fun e => e / c)%R l) = (total l / c)%R.
Proof. unfold total. induction l as [|a l IH]; simpl; [unfold Rdiv; lra|]. rewrite IH. unfold Rdiv. lra. Qed.
Lemma total_const N c : total (vec N (fun _ => c)) = (INR N * c)%R.
Proof. induction N as [|N IH]; [simpl; lra|]. rewrite total_vec_S, IH, S_INR. lra. Qed.
Lemma total_vec_plus a b (g : nat -> R) : total (vec (a + b) g) = (total (vec a g) + total (vec b (fun i => g (a + i)%nat)))%R.
Proof.
  induction b as [|b IH]; [rewrite Nat.add_0_r; simpl; lra|].
  replace (a + S b) with (S (a + b)) by lia. rewrite !total_vec_S, IH. lra.
Qed.
Lemma total_vec_mul m n (g : nat -> R) :
  total (vec (m * n) g) = total (vec m (fun q => total (vec n (fun c => g (q * n + c))))).
Proof.
  induction m as [|m IH]; [reflexivity|]. replace (S m * n) with (m * n + n) by lia.
  rewrite total_vec_plus, total_vec_S, IH. reflexivity.
Qed.
Lemma total_vec_ge N (g : nat -> R) i : (forall i, i < N -> (0 <= g i)%R) -> i < N -> (g i <= total (vec N g))%R.
Proof.
  intros H Hi. replace N with (S i + (N - S i)) by lia. rewrite total_vec_plus, total_vec_S.
  pose proof (total_vec_nonneg i g (fun k Hk => H k ltac:(lia))).
  pose proof (total_vec_nonneg (N - S i) (fun k => g (S i + k)) (fun k Hk => H (S i + k) ltac:(lia))). lra.
Qed.
Lemma total_single m q (v : R) : q < m -> total (vec m (fun i => if i =? q then v else 0%R)) = v.
Proof.
  intros H. replace m with (S q + (m - S q)) by lia. rewrite total_vec_plus, total_vec_S.
  rewrite (total_vec_ext q _ (fun _ => 0%R)); [|intros i Hi; destruct (Nat.eqb_spec i q); [lia|reflexivity]].
  rewrite (total_vec_ext (m - S q) _ (fun _ => 0%R)); [|intros i Hi; destruct (Nat.eqb_spec (S q + i) q); [lia|reflexivity]].
  rewrite !total_const, Nat.eqb_refl. lra.
Qed.
Lemma total_vec_le N (g h : nat -> R) : (forall i, i < N -> (g i <= h i)%R) -> (total (vec N g) <= total (vec N h))%R.
Proof.
  intros H. induction N as [|N IH]; [simpl; lra|]. rewrite !total_vec_S.
  pose proof (H N ltac:(lia)). pose proof (IH (fun i Hi => H i ltac:(lia))). lra.
Qed.

(** ** normalisation *)
Lemma normalise_vec N (g : nat -> R) : normalise (vec N g) = vec N (fun i => g i / total (vec N g))%R.
Proof. unfold normalise, vec. rewrite map_map. reflexivity. Qed.
Lemma normalise_proportional N (g w : nat -> R) : (forall i, i < N -> g i = w i) -> (forall i, i < N -> (0 < w i)%R) ->
  0 < N -> proportional N w (normalise (vec N g)).
Proof.
  intros E Hw HN. rewrite (vec_ext N g w E). pose proof (total_vec_pos N w HN Hw) as HS.
  assert (HP : Forall (fun p => (0 < p)%R) (normalise (vec N w))).
  { rewrite normalise_vec. apply Forall_forall. intros p Hp. apply vec_in in Hp as (i & Hi & ->).
    apply Rdiv_lt_0_compat; [apply Hw, Hi|exact HS]. }
  split; [rewrite normalise_vec; apply vec_length|]. split; [exact HP|]. split.
  - split; [eapply Forall_impl; [|exact HP]; intros; lra|]. unfold normalise. change (Rsum (vec N w)) with (total (vec N w)). rewrite total_scale. field. lra.
  - intros i Hi. rewrite normalise_vec, vec_nth by exact Hi. reflexivity.
Qed.
Lemma normalise_rows N m (g w : nat -> nat -> R) : (forall i j, i < N -> j < m -> g i j = w i j) ->
  (forall i j, i < N -> j < m -> (0 < w i j)%R) -> 0 < m -> rows_proportional N m w (map normalise (tab N m g)).
Proof.
  intros E Hw Hm.
  assert (R : forall r, In r (map normalise (tab N m g)) -> exists i, i < N /\ proportional m (w i) r).
  { intros r Hr. apply in_map_iff in Hr as (r' & <- & Hr). apply vec_in in Hr as (i & Hi & ->). exists i. split; [exact Hi|].
    apply normalise_proportional; auto. }
  split; [|split].
  - split; [rewrite map_length; apply tab_length|]. apply Forall_forall. intros r Hr. destruct (R r Hr) as (i & _ & L & P & _). auto.
  - apply Forall_forall. intros r Hr. destruct (R r Hr) as (i & _ & _ & _ & D & _). exact D.
  - intros i j Hi Hj. unfold get2, tab, vec. rewrite map_map.
    change (map (fun x => normalise (map (g x) (seq 0 m))) (seq 0 N)) with (vec N (fun x => normalise (vec m (g x)))).
    rewrite vec_nth by exact Hi.
    destruct (normalise_proportional m (g i) (w i)) as (_ & _ & _ & H); auto.
Qed.

(** ** counting *)
Lemma add1_vec N (g : nat -> R) i v : i < N -> add1 (vec N g) i v = Some (vec N (fun j => if j =? i then (g j + v)%R else g j)).
Proof.
  intros H. unfold add1. rewrite vec_nth by exact H. rewrite upd_vec by exact H. f_equal. apply vec_ext. intros j _.
  destruct (Nat.eqb_spec j i) as [->|]; reflexivity.
Qed.
Lemma add2_tab n m (g : nat -> nat -> R) i j v : i < n -> j < m ->
  add2 (tab n m g) i j v = Some (tab n m (fun a b => if (a =? i) && (b =? j) then (g a b + v)%R else g a b)).
Proof.
  intros Hi Hj. unfold add2. rewrite get2_tab by assumption. rewrite upd2_tab by assumption. f_equal. apply tab_ext. intros a b _ _.
  destruct (Nat.eqb_spec a i) as [->|], (Nat.eqb_spec b j) as [->|]; reflexivity.
Qed.

Definition hits (p : nat -> bool) (K : nat) : nat := length (filter p (seq 0 K)).
Lemma hits_S p K : hits p (S K) = (hits p K + if p K then 1 else 0).
Proof. unfold hits. rewrite seq_S, filter_app, app_length. simpl. destruct (p K); reflexivity. Qed.
Lemma hits_ext p q K : (forall t, t < K -> p t = q t) -> hits p K = hits q K.
Proof. induction K as [|K IH]; intros H; [reflexivity|]. rewrite !hits_S, IH, H; auto. Qed.

Lemma count1 N (w : nat -> R) (ix : nat -> nat) body K :
  (forall t, t < K -> ix t < N /\ forall p, body t p = add1 p (ix t) 1%R) ->
  for_ (seq 0 K) body (vec N w) = Some (vec N (fun i => w i + INR (hits (fun t => ix t =? i) K))%R).
Proof.
  intros H. destruct (for_inv (fun k p => p = vec N (fun i => w i + INR (hits (fun t => ix t =? i) k))%R) body K 0 (vec N w)) as (s & E & Hs).
  - apply vec_ext. intros i _. simpl. lra.
  - intros k p Hk ->. destruct (H k ltac:(lia)) as [Hi Hb]. rewrite Hb, add1_vec by exact Hi. eexists. split; [reflexivity|].
    apply vec_ext. intros i _. rewrite hits_S, plus_INR. rewrite (Nat.eqb_sym (ix k) i). destruct (i =? ix k); simpl; lra.
  - rewrite E. f_equal. exact Hs.
Qed.

Lemma count2 {C} N (w : nat -> nat -> R) (ix : nat -> nat) (st : nat -> C) body a K :
  (forall t, t < K -> ix t < N /\ ix (S t) < N /\
     forall P, body (a + t) (st t, P) = do P' <- add2 P (ix t) (ix (S t)) 1%R; Some (st (S t), P')) ->
  for_ (seq a K) body (st 0, tab N N w) =
  Some (st K, tab N N (fun i j => w i j + INR (hits (fun t => (ix t =? i) && (ix (S t) =? j)) K))%R).
Proof.
  intros H.
  destruct (for_inv (fun k s => s = (st (k - a), tab N N (fun i j => w i j + INR (hits (fun t => (ix t =? i) && (ix (S t) =? j)) (k - a)))%R))
     body K a (st 0, tab N N w)) as (s & E & Hs).
  - rewrite Nat.sub_diag. f_equal. apply tab_ext. intros i j _ _. simpl. lra.
  - intros k s Hk ->. destruct (H (k - a) ltac:(lia)) as (H0 & H1 & Hb). replace (a + (k - a)) with k in Hb by lia.
    rewrite Hb, add2_tab by assumption. eexists. split; [reflexivity|]. replace (S k - a) with (S (k - a)) by lia. f_equal.
    apply tab_ext. intros i j _ _. rewrite hits_S, plus_INR. rewrite (Nat.eqb_sym (ix (k - a)) i), (Nat.eqb_sym (ix (S (k - a))) j).
    destruct ((i =? ix (k - a)) && (j =? ix (S (k - a)))); simpl; lra.
  - rewrite E, Hs. replace (a + K - a) with K by lia. reflexivity.
Qed.

(** ** windows *)
Section Win.
Variable text : str.
Definition win (L t : nat) : str := firstn L (skipn t text).
Lemma win_length L t : t + L <= length text -> length (win L t) = L.
Proof. intros H. unfold win. rewrite firstn_length, skipn_length. lia. Qed.
Lemma skipn_cons t : t < length text -> skipn t text = nth t text 0 :: skipn (S t) text.
Proof. intros H. apply (skipn_nth text 0 t H). Qed.
Lemma win_S L t : t < length text -> win (S L) t = nth t text 0 :: win L (S t).
Proof. intros H. unfold win. rewrite skipn_cons by exact H. reflexivity. Qed.
Lemma win_snoc L t : t + L < length text -> win (S L) t = win L t ++ [nth (t + L) text 0].
Proof.
  revert t; induction L as [|L IH]; intros t H.
  - rewrite win_S by lia. unfold win. simpl. rewrite Nat.add_0_r. reflexivity.
  - rewrite win_S, IH by lia. rewrite (win_S L t) by lia.
    replace (t + S L) with (S t + L) by lia. reflexivity.
Qed.
Lemma win_next L t : t + S L < length text -> win (S L) (S t) = tl (win (S L) t) ++ [nth (t + S L) text 0].
Proof.
  intros H. rewrite (win_S L t) by lia. simpl tl. rewrite win_snoc by lia.
  replace (t + S L) with (S t + L) by lia. reflexivity.
Qed.
Lemma win_over al L t : over al text -> over al (win L t).
Proof. intros H. unfold win. apply Forall_firstn, Forall_skipn, H. Qed.
Lemma occ_hits s : occurrences s text =
  hits (fun t => if list_eq_dec Nat.eq_dec (win (length s) t) s then true else false) (length text + 1 - length s).
Proof. reflexivity. Qed.
End Win.
