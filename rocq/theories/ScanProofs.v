(** Proofs about my_assoc_scan. *)
From Coq Require Import List Arith Lia Permutation.
From Verif Require Import ScanModel ScanSpec.
Import ListNotations.

(** * Generic facts on for_ and upd *)
Section Generic.
Context {S : Type}.
Implicit Types (l : list nat) (body : nat -> S -> option S).

Lemma for_app l1 l2 body (s : S) :
  for_ (l1 ++ l2) body s = match for_ l1 body s with None => None | Some s' => for_ l2 body s' end.
Proof. revert s; induction l1 as [|i l1 IH]; intros s; simpl; [reflexivity|]. destruct (body i s); auto. Qed.

Lemma for_ext l body body' (s : S) :
  (forall i s, In i l -> body i s = body' i s) -> for_ l body s = for_ l body' s.
Proof.
  revert s; induction l as [|i l IH]; intros s H; simpl; [reflexivity|].
  rewrite H by (left; reflexivity). destruct (body' i s); [|reflexivity].
  apply IH. intros; apply H; right; assumption.
Qed.

Lemma for_map (f : nat -> nat) l body (s : S) : for_ (map f l) body s = for_ l (fun i => body (f i)) s.
Proof. revert s; induction l as [|i l IH]; intros s; simpl; [reflexivity|]. destruct (body (f i) s); auto. Qed.

(** Actions that commute pairwise can be run in any order. *)
Lemma for_perm l l' body :
  Permutation l l' -> NoDup l ->
  (forall i j s, In i l -> In j l -> i <> j ->
     match body i s with None => None | Some s' => body j s' end =
     match body j s with None => None | Some s' => body i s' end) ->
  forall s : S, for_ l body s = for_ l' body s.
Proof.
  intros HP; induction HP as [|x l l' HP IH|x y l|l l' l'' HP1 IH1 HP2 IH2]; intros ND HC s.
  - reflexivity.
  - inversion ND as [|? ? Hx ND']; subst. simpl. destruct (body x s); [|reflexivity].
    apply IH; [assumption|]. intros; apply HC; try right; assumption.
  - inversion ND as [|? ? Hx ND']; subst. simpl.
    assert (Hyx : y <> x) by (intros ->; apply Hx; left; reflexivity).
    pose proof (HC y x s (or_introl eq_refl) (or_intror (or_introl eq_refl)) Hyx) as E.
    destruct (body y s) as [s1|], (body x s) as [s2|]; try reflexivity.
    + rewrite E. reflexivity.
    + rewrite E. reflexivity.
    + rewrite <- E. reflexivity.
  - transitivity (for_ l' body s).
    + apply IH1; assumption.
    + apply IH2.
      * eapply Permutation_NoDup; eassumption.
      * intros i j s' Hi Hj; apply HC; eapply Permutation_in; try apply Permutation_sym; eassumption.
Qed.
End Generic.

Section Upd.
Context {X : Type}.
Implicit Types (a b : list X).

Lemma upd_some a i v : i < length a -> exists b, upd a i v = Some b.
Proof.
  revert i; induction a as [|x a IH]; intros [|i] H; simpl in *; try lia; [eexists; reflexivity|].
  destruct (IH i) as [b Hb]; [lia|]. rewrite Hb. eexists; reflexivity.
Qed.

Lemma upd_none a i v : length a <= i -> upd a i v = None.
Proof.
  revert i; induction a as [|x a IH]; intros [|i] H; simpl in *; try lia; try reflexivity.
  rewrite IH by lia. reflexivity.
Qed.

Lemma upd_length a i v b : upd a i v = Some b -> length b = length a.
Proof.
  revert i b; induction a as [|x a IH]; intros [|i] b H; simpl in *; try discriminate.
  - injection H as <-. reflexivity.
  - destruct (upd a i v) eqn:E; [|discriminate]. injection H as <-. simpl. f_equal. eapply IH; eassumption.
Qed.

Lemma upd_nth_same a i v b : upd a i v = Some b -> nth_error b i = Some v.
Proof.
  revert i b; induction a as [|x a IH]; intros [|i] b H; simpl in *; try discriminate.
  - injection H as <-. reflexivity.
  - destruct (upd a i v) eqn:E; [|discriminate]. injection H as <-. simpl. eapply IH; eassumption.
Qed.

Lemma upd_nth_other a i j v b : upd a i v = Some b -> i <> j -> nth_error b j = nth_error a j.
Proof.
  revert i j b; induction a as [|x a IH]; intros [|i] j b H Hij; simpl in *; try discriminate.
  - injection H as <-. destruct j; [congruence|reflexivity].
  - destruct (upd a i v) eqn:E; [|discriminate]. injection H as <-.
    destruct j as [|j]; [reflexivity|]. simpl. eapply IH; eauto.
Qed.

Lemma nth_error_ext a b : (forall i, nth_error a i = nth_error b i) -> a = b.
Proof.
  revert b; induction a as [|x a IH]; intros [|y b] H.
  - reflexivity.
  - specialize (H 0); discriminate.
  - specialize (H 0); discriminate.
  - pose proof (H 0) as H0; simpl in H0; injection H0 as ->. f_equal. apply IH. intros i; apply (H (S i)).
Qed.

Lemma upd_app_l a b i v : i < length a ->
  upd (a ++ b) i v = match upd a i v with None => None | Some a' => Some (a' ++ b) end.
Proof.
  revert i; induction a as [|x a IH]; intros [|i] H; simpl in *; try lia; try reflexivity.
  rewrite IH by lia. destruct (upd a i v); reflexivity.
Qed.

Lemma upd_app_r a b i v :
  upd (a ++ b) (length a + i) v = match upd b i v with None => None | Some b' => Some (a ++ b') end.
Proof.
  induction a as [|x a IH]; simpl; [destruct (upd b i v); reflexivity|].
  rewrite IH. destruct (upd b i v); reflexivity.
Qed.
End Upd.

(** * The scan on a closed set *)
Section Correct.
Context {A : Type}.
Variable P : A -> Prop.
Variable op : A -> A -> option A.
Hypothesis Hcl : closed_on P op.
Hypothesis Has : assoc_on P op.

Definition oP (x : option A) : Prop := match x with None => True | Some v => P v end.

(** total version of comb *)
Definition m (x y : option A) : option A := match comb op x y with None => x | Some z => z end.

Lemma comb_m x y : oP x -> oP y -> comb op x y = Some (m x y) /\ oP (m x y).
Proof.
  unfold m, comb. destruct y as [y|]; [|intros; split; [reflexivity|assumption]].
  destruct x as [x|]; simpl; [|intros; split; auto].
  intros Hx Hy. destruct (Hcl x y Hx Hy) as (z & E & Hz). rewrite E. simpl. auto.
Qed.

Lemma comb_Some x y : oP x -> oP y -> comb op x y = Some (m x y).
Proof. intros; apply comb_m; assumption. Qed.
Lemma oP_m x y : oP x -> oP y -> oP (m x y).
Proof. intros; apply comb_m; assumption. Qed.

Lemma m_None_l y : m None y = y.  Proof. destruct y; reflexivity. Qed.
Lemma m_None_r x : m x None = x.  Proof. reflexivity. Qed.

Lemma m_assoc x y z : oP x -> oP y -> oP z -> m (m x y) z = m x (m y z).
Proof.
  destruct x as [x|]; [|rewrite !m_None_l; reflexivity].
  destruct z as [z|]; [|rewrite !m_None_r; reflexivity].
  destruct y as [y|]; [|rewrite m_None_r, m_None_l; reflexivity].
  simpl; intros Hx Hy Hz.
  destruct (Hcl x y Hx Hy) as (xy & E1 & H1). destruct (Hcl y z Hy Hz) as (yz & E2 & H2).
  pose proof (Has x y z xy yz Hx Hy Hz E1 E2) as E3.
  unfold m, comb. rewrite E1, E2. simpl. rewrite E3.
  destruct (Hcl x yz Hx H2) as (w & E4 & _). rewrite E4. reflexivity.
Qed.

Notation oPs := (Forall oP).

(** sum of a list of cells *)
Fixpoint ssum (l : list (option A)) : option A := match l with [] => None | x :: t => m x (ssum t) end.

Lemma ssum_oP l : oPs l -> oP (ssum l).
Proof. induction 1; simpl; [exact I|]. apply oP_m; assumption. Qed.

Lemma ssum_app l1 l2 : oPs l1 -> oPs l2 -> ssum (l1 ++ l2) = m (ssum l1) (ssum l2).
Proof.
  induction 1 as [|x l Hx Hl IH]; intros H2; simpl; [rewrite m_None_l; reflexivity|].
  rewrite IH by assumption. rewrite m_assoc; auto using ssum_oP.
Qed.

(** all exclusive prefixes with a starting value *)
Fixpoint excl (v : option A) (l : list (option A)) : list (option A) :=
  match l with [] => [] | x :: t => v :: excl (m v x) t end.

Lemma excl_length v l : length (excl v l) = length l.
Proof. revert v; induction l; intros; simpl; auto. Qed.

Lemma excl_app v l1 l2 : oP v -> oPs l1 -> excl v (l1 ++ l2) = excl v l1 ++ excl (m v (ssum l1)) l2.
Proof.
  intros Hv H1; revert v Hv; induction H1 as [|x l Hx Hl IH]; intros v Hv; simpl; [reflexivity|].
  rewrite IH by (apply oP_m; assumption). rewrite m_assoc; auto using ssum_oP.
Qed.

(** ** Recursive form of the passes on lists of length 2^L *)
Definition last_ (l : list (option A)) : option A := last l None.
Definition set_last (l : list (option A)) (v : option A) : list (option A) := removelast l ++ [v].

Fixpoint upR (L : nat) (l : list (option A)) : list (option A) :=
  match L with
  | 0 => l
  | S L' => let u1 := upR L' (firstn (2 ^ L') l) in
            let u2 := upR L' (skipn (2 ^ L') l) in
            u1 ++ set_last u2 (m (last_ u1) (last_ u2))
  end.

Fixpoint downR (L : nat) (l : list (option A)) : list (option A) :=
  match L with
  | 0 => l
  | S L' => let l1 := firstn (2 ^ L') l in
            let l2 := skipn (2 ^ L') l in
            downR L' (set_last l1 (last_ l2)) ++ downR L' (set_last l2 (m (last_ l2) (last_ l1)))
  end.

Lemma pow_pos d : 1 <= 2 ^ d.
Proof. induction d; simpl; lia. Qed.

Lemma set_last_length l v : l <> [] -> length (set_last l v) = length l.
Proof.
  intros H. unfold set_last. rewrite app_length. simpl.
  pose proof (app_removelast_last None H) as E.
  rewrite E at 2. rewrite app_length. reflexivity.
Qed.

Lemma last_set_last l v : last_ (set_last l v) = v.
Proof. unfold last_, set_last. apply last_last. Qed.

Lemma set_last_twice l v w : set_last (set_last l v) w = set_last l w.
Proof. unfold set_last. rewrite removelast_last. reflexivity. Qed.

Lemma set_last_app l1 l2 v : l2 <> [] -> set_last (l1 ++ l2) v = l1 ++ set_last l2 v.
Proof. intros. unfold set_last. rewrite removelast_app by assumption. rewrite app_assoc. reflexivity. Qed.

Lemma last_app l1 l2 : l2 <> [] -> last_ (l1 ++ l2) = last_ l2.
Proof.
  intros H. unfold last_. rewrite (app_removelast_last None H). rewrite app_assoc, !last_last. reflexivity.
Qed.

Lemma len_ne (l : list (option A)) d : length l = 2 ^ d -> l <> [].
Proof. intros H ->. pose proof (pow_pos d). simpl in H. lia. Qed.

Lemma oPs_set_last l v : oPs l -> oP v -> oPs (set_last l v).
Proof.
  intros Hl Hv. unfold set_last. apply Forall_app; split; [|constructor; auto].
  destruct l as [|x l]; [constructor|].
  rewrite (app_removelast_last (l := x :: l) None) in Hl by discriminate.
  apply Forall_app in Hl. tauto.
Qed.

Lemma oP_last l : oPs l -> oP (last_ l).
Proof.
  intros Hl. destruct l as [|x l]; [exact I|].
  rewrite (app_removelast_last (l := x :: l) None) in Hl by discriminate.
  apply Forall_app in Hl as [_ H]. inversion H; assumption.
Qed.

Lemma firstn_oPs k l : oPs l -> oPs (firstn k l).
Proof. intros H. rewrite <- (firstn_skipn k l) in H. apply Forall_app in H; tauto. Qed.
Lemma skipn_oPs k l : oPs l -> oPs (skipn k l).
Proof. intros H. rewrite <- (firstn_skipn k l) in H. apply Forall_app in H; tauto. Qed.

Lemma firstn_exact (a b : list (option A)) k : length a = k -> firstn k (a ++ b) = a.
Proof. intros <-. rewrite firstn_app, Nat.sub_diag, firstn_all. simpl. apply app_nil_r. Qed.
Lemma skipn_exact (a b : list (option A)) k : length a = k -> skipn k (a ++ b) = b.
Proof. intros <-. rewrite skipn_app, Nat.sub_diag, skipn_all. reflexivity. Qed.

Lemma half_len L (l : list (option A)) :
  length l = 2 ^ S L -> length (firstn (2 ^ L) l) = 2 ^ L /\ length (skipn (2 ^ L) l) = 2 ^ L.
Proof. intros H. simpl in H. rewrite firstn_length, skipn_length. lia. Qed.

Lemma upR_length L l : length l = 2 ^ L -> length (upR L l) = 2 ^ L.
Proof.
  revert l; induction L as [|L IH]; intros l H; simpl; [exact H|].
  destruct (half_len L l H) as [H1 H2].
  rewrite app_length, set_last_length, !IH by (eauto using len_ne). simpl. lia.
Qed.

Lemma upR_oPs L l : oPs l -> oPs (upR L l).
Proof.
  revert l; induction L as [|L IH]; intros l H; simpl; [exact H|].
  pose proof (IH _ (firstn_oPs (2 ^ L) l H)). pose proof (IH _ (skipn_oPs (2 ^ L) l H)).
  apply Forall_app; split; [assumption|]. apply oPs_set_last; [assumption|].
  apply oP_m; apply oP_last; assumption.
Qed.

Lemma upR_last L l : length l = 2 ^ L -> oPs l -> last_ (upR L l) = ssum l.
Proof.
  revert l; induction L as [|L IH]; intros l H HP; simpl.
  - destruct l as [|x [|]]; simpl in *; try lia. reflexivity.
  - destruct (half_len L l H) as [H1 H2].
    rewrite last_app by (eapply (len_ne _ L); rewrite set_last_length; eauto using len_ne, upR_length).
    rewrite last_set_last, !IH by (auto using firstn_oPs, skipn_oPs).
    rewrite <- ssum_app by auto using firstn_oPs, skipn_oPs.
    rewrite firstn_skipn. reflexivity.
Qed.

Lemma downR_spec L : forall l v, length l = 2 ^ L -> oPs l -> oP v ->
  downR L (set_last (upR L l) v) = excl v l.
Proof.
  induction L as [|L IH]; intros l v H HP Hv.
  - destruct l as [|x [|]]; simpl in *; try lia. reflexivity.
  - destruct (half_len L l H) as [H1 H2].
    pose proof (firstn_oPs (2 ^ L) l HP) as P1. pose proof (skipn_oPs (2 ^ L) l HP) as P2.
    cbn [upR downR].
    set (l1 := firstn (2 ^ L) l) in *. set (l2 := skipn (2 ^ L) l) in *.
    pose proof (upR_length L l1 H1) as U1. pose proof (upR_length L l2 H2) as U2.
    assert (N2 : upR L l2 <> []) by eauto using len_ne.
    rewrite set_last_app by (eapply (len_ne _ L); rewrite set_last_length; assumption).
    rewrite set_last_twice.
    rewrite (firstn_exact _ _ _ U1), (skipn_exact _ _ _ U1).
    rewrite last_set_last, set_last_twice, upR_last by assumption.
    rewrite !IH by (try assumption; apply oP_m; auto using ssum_oP).
    rewrite <- excl_app by assumption. subst l1 l2. rewrite firstn_skipn. reflexivity.
Qed.

(** ** The loops compute the recursive form *)


Lemma seq_add c st n : seq (c + st) n = map (fun i => c + i) (seq st n).
Proof.
  revert st; induction n as [|n IH]; intros st; simpl; [reflexivity|].
  f_equal. rewrite <- IH. f_equal. lia.
Qed.

Lemma range_step_mul s q : 0 < s -> range_step (s * q) s = map (fun j => j * s) (seq 0 q).
Proof.
  intros Hs. unfold range_step. do 2 f_equal.
  replace (s * q + s - 1) with (q * s + (s - 1)) by lia.
  rewrite Nat.div_add_l by lia. rewrite Nat.div_small by lia. lia.
Qed.

Lemma range_step_double s k : 0 < s ->
  range_step (s * k + s * k) s = range_step (s * k) s ++ map (fun i => s * k + i) (range_step (s * k) s).
Proof.
  intros Hs. replace (s * k + s * k) with (s * (k + k)) by lia.
  rewrite !range_step_mul by assumption.
  rewrite seq_app, map_app. f_equal. replace (0 + k) with (k + 0) by lia.
  rewrite seq_add, !map_map. apply map_ext. intros; lia.
Qed.

(** a body working at level d on cells [i, i + 2^(d+1)) *)
Definition local (body : nat -> nat -> list (option A) -> option (list (option A))) : Prop :=
  (forall d i l1 l2, i + 2 ^ (d + 1) <= length l1 ->
     body d i (l1 ++ l2) = match body d i l1 with None => None | Some r => Some (r ++ l2) end) /\
  (forall d i l1 l2, body d (length l1 + i) (l1 ++ l2) =
     match body d i l2 with None => None | Some r => Some (l1 ++ r) end) /\
  (forall d i l r, body d i l = Some r -> length r = length l).

Lemma up_local : local (up_body op).
Proof.
  split; [|split]; intros d i.
  - intros l1 l2 H. unfold up_body. pose proof (pow_pos d).
    assert (2 ^ (d + 1) = 2 ^ d + 2 ^ d) by (rewrite Nat.add_1_r; simpl; lia).
    rewrite !nth_error_app1 by lia.
    destruct (nth_error l1 _) as [x|]; [|reflexivity].
    destruct (nth_error l1 _) as [y|]; [|reflexivity].
    destruct (comb op x y); [|reflexivity]. rewrite upd_app_l by lia. reflexivity.
  - intros l1 l2. unfold up_body. pose proof (pow_pos d). pose proof (pow_pos (d + 1)).
    rewrite <- !Nat.add_assoc.
    replace (length l1 + (i + 2 ^ d) - 1) with (length l1 + (i + 2 ^ d - 1)) by lia.
    replace (length l1 + (i + 2 ^ (d + 1)) - 1) with (length l1 + (i + 2 ^ (d + 1) - 1)) by lia.
    rewrite !nth_error_app2 by lia.
    replace (length l1 + (i + 2 ^ d - 1) - length l1) with (i + 2 ^ d - 1) by lia.
    replace (length l1 + (i + 2 ^ (d + 1) - 1) - length l1) with (i + 2 ^ (d + 1) - 1) by lia.
    destruct (nth_error l2 _) as [x|]; [|reflexivity].
    destruct (nth_error l2 _) as [y|]; [|reflexivity].
    destruct (comb op x y); [|reflexivity]. rewrite upd_app_r. reflexivity.
  - intros l r. unfold up_body.
    destruct (nth_error l _) as [x|]; [|discriminate].
    destruct (nth_error l _) as [y|]; [|discriminate].
    destruct (comb op x y); [|discriminate]. apply upd_length.
Qed.

Lemma down_local : local (down_body op).
Proof.
  split; [|split]; intros d i.
  - intros l1 l2 H. unfold down_body. pose proof (pow_pos d).
    assert (2 ^ (d + 1) = 2 ^ d + 2 ^ d) by (rewrite Nat.add_1_r; simpl; lia).
    rewrite !nth_error_app1 by lia.
    destruct (nth_error l1 _) as [x|]; [|reflexivity].
    destruct (nth_error l1 _) as [y|]; [|reflexivity].
    rewrite upd_app_l by lia. destruct (upd l1 _ y) as [l1'|] eqn:E; [|reflexivity].
    destruct (comb op y x); [|reflexivity]. apply upd_length in E. rewrite upd_app_l by lia. reflexivity.
  - intros l1 l2. unfold down_body. pose proof (pow_pos d). pose proof (pow_pos (d + 1)).
    rewrite <- !Nat.add_assoc.
    replace (length l1 + (i + 2 ^ d) - 1) with (length l1 + (i + 2 ^ d - 1)) by lia.
    replace (length l1 + (i + 2 ^ (d + 1)) - 1) with (length l1 + (i + 2 ^ (d + 1) - 1)) by lia.
    rewrite !nth_error_app2 by lia.
    replace (length l1 + (i + 2 ^ d - 1) - length l1) with (i + 2 ^ d - 1) by lia.
    replace (length l1 + (i + 2 ^ (d + 1) - 1) - length l1) with (i + 2 ^ (d + 1) - 1) by lia.
    destruct (nth_error l2 _) as [x|]; [|reflexivity].
    destruct (nth_error l2 _) as [y|]; [|reflexivity].
    rewrite upd_app_r. destruct (upd l2 _ y) as [l2'|]; [|reflexivity].
    destruct (comb op y x); [|reflexivity]. rewrite upd_app_r. reflexivity.
  - intros l r. unfold down_body.
    destruct (nth_error l _) as [x|]; [|discriminate].
    destruct (nth_error l _) as [y|]; [|discriminate].
    destruct (upd l _ y) as [l'|] eqn:E; [|discriminate]. apply upd_length in E.
    destruct (comb op y x); [|discriminate]. intros H; apply upd_length in H. lia.
Qed.

Section Local.
Variable body : nat -> nat -> list (option A) -> option (list (option A)).
Hypothesis HB : local body.
Definition level (n d : nat) (a : list (option A)) := for_ (range_step n (2 ^ (d + 1))) (body d) a.

Lemma local_for_len d is : forall a r, for_ is (body d) a = Some r -> length r = length a.
Proof.
  destruct HB as (_ & _ & HL).
  induction is as [|i is IH]; intros a r; simpl; [intros [= <-]; reflexivity|].
  destruct (body d i a) as [a'|] eqn:E; [|discriminate].
  intros H. apply IH in H. apply HL in E. lia.
Qed.

Lemma local_for_l d is l2 : forall l1, (forall i, In i is -> i + 2 ^ (d + 1) <= length l1) ->
  for_ is (body d) (l1 ++ l2) = match for_ is (body d) l1 with None => None | Some r => Some (r ++ l2) end.
Proof.
  destruct HB as (H1 & _ & HL).
  induction is as [|i is IH]; intros l1 H; simpl; [reflexivity|].
  rewrite H1 by (apply H; left; reflexivity).
  destruct (body d i l1) as [l1'|] eqn:E; [|reflexivity].
  apply HL in E. rewrite IH; [reflexivity|]. intros j Hj. rewrite E. apply H. right; assumption.
Qed.

Lemma local_for_r d is l1 : forall l2,
  for_ is (fun i => body d (length l1 + i)) (l1 ++ l2) =
  match for_ is (body d) l2 with None => None | Some r => Some (l1 ++ r) end.
Proof.
  destruct HB as (_ & H2 & _).
  induction is as [|i is IH]; intros l2; simpl; [reflexivity|].
  rewrite H2. destruct (body d i l2) as [l2'|]; [|reflexivity]. apply IH.
Qed.

Lemma level_app L d l1 l2 r1 r2 : d < L -> length l1 = 2 ^ L -> length l2 = 2 ^ L ->
  level (2 ^ L) d l1 = Some r1 -> level (2 ^ L) d l2 = Some r2 ->
  level (2 ^ S L) d (l1 ++ l2) = Some (r1 ++ r2) /\ length r1 = 2 ^ L /\ length r2 = 2 ^ L.
Proof.
  intros Hd L1 L2 E1 E2. unfold level in *.
  assert (EP : 2 ^ L = 2 ^ (d + 1) * 2 ^ (L - (d + 1))) by (rewrite <- Nat.pow_add_r; f_equal; lia).
  assert (ES : 2 ^ S L = 2 ^ (d + 1) * 2 ^ (L - (d + 1)) + 2 ^ (d + 1) * 2 ^ (L - (d + 1)))
    by (rewrite <- EP; simpl; lia).
  pose proof (pow_pos (d + 1)) as HP.
  rewrite ES, range_step_double by lia. rewrite <- EP.
  rewrite for_app, local_for_l.
  2:{ intros i Hi. rewrite L1. rewrite EP in Hi. rewrite range_step_mul in Hi by lia.
      apply in_map_iff in Hi as (j & <- & Hj). apply in_seq in Hj. rewrite EP. nia. }
  rewrite E1. pose proof (local_for_len _ _ _ _ E1) as R1. pose proof (local_for_len _ _ _ _ E2) as R2.
  rewrite for_map.
  assert (ER : length r1 = 2 ^ L) by lia.
  pose proof (local_for_r d (range_step (2 ^ L) (2 ^ (d + 1))) r1 l2) as ELR. rewrite ER in ELR.
  rewrite ELR, E2. repeat split; lia.
Qed.

Lemma levels_app L ds : (forall d, In d ds -> d < L) -> forall l1 l2 r1 r2,
  length l1 = 2 ^ L -> length l2 = 2 ^ L ->
  for_ ds (level (2 ^ L)) l1 = Some r1 -> for_ ds (level (2 ^ L)) l2 = Some r2 ->
  for_ ds (level (2 ^ S L)) (l1 ++ l2) = Some (r1 ++ r2).
Proof.
  induction ds as [|d ds IH]; intros Hds l1 l2 r1 r2 L1 L2; cbn [for_].
  - intros [= <-] [= <-]. reflexivity.
  - destruct (level (2 ^ L) d l1) as [s1|] eqn:E1; [|discriminate].
    destruct (level (2 ^ L) d l2) as [s2|] eqn:E2; [|discriminate].
    intros F1 F2.
    destruct (level_app L d l1 l2 s1 s2) as (E & S1 & S2); auto with datatypes.
    rewrite E. apply IH; auto with datatypes.
Qed.

Lemma level_top L a : level (2 ^ S L) L a = body L 0 a.
Proof.
  unfold level. rewrite Nat.add_1_r.
  replace (range_step (2 ^ S L) (2 ^ S L)) with [0]; [simpl; destruct (body L 0 a); reflexivity|].
  pose proof (pow_pos (S L)).
  rewrite <- (Nat.mul_1_r (2 ^ S L)) at 1. rewrite range_step_mul by lia. reflexivity.
Qed.
End Local.

Lemma nth_error_last (l : list (option A)) n : length l = S n -> nth_error l n = Some (last_ l).
Proof.
  intros H. assert (l <> []) by (intros ->; discriminate).
  rewrite (app_removelast_last None H0) at 1.
  assert (length (removelast l) = n).
  { rewrite (app_removelast_last None H0), app_length in H. simpl in H. lia. }
  rewrite nth_error_app2 by lia. replace (n - length (removelast l)) with 0 by lia. reflexivity.
Qed.

Lemma upd_last (l : list (option A)) n v : length l = S n -> upd l n v = Some (set_last l v).
Proof.
  intros H. assert (l <> []) by (intros ->; discriminate).
  rewrite (app_removelast_last None H0) at 1.
  assert (E : length (removelast l) = n).
  { rewrite (app_removelast_last None H0), app_length in H. simpl in H. lia. }
  rewrite <- E at 1. rewrite <- (Nat.add_0_r (length (removelast l))). rewrite upd_app_r. reflexivity.
Qed.

Lemma up_top L l1 l2 : length l1 = 2 ^ L -> length l2 = 2 ^ L -> oPs l1 -> oPs l2 ->
  up_body op L 0 (l1 ++ l2) = Some (l1 ++ set_last l2 (m (last_ l1) (last_ l2))).
Proof.
  intros L1 L2 P1 P2. unfold up_body. pose proof (pow_pos L).
  assert (2 ^ (L + 1) = 2 ^ L + 2 ^ L) by (rewrite Nat.add_1_r; simpl; lia).
  replace (0 + 2 ^ L - 1) with (2 ^ L - 1) by lia.
  replace (0 + 2 ^ (L + 1) - 1) with (length l1 + (2 ^ L - 1)) by lia.
  rewrite nth_error_app1 by lia. rewrite nth_error_app2 by lia.
  replace (length l1 + (2 ^ L - 1) - length l1) with (2 ^ L - 1) by lia.
  rewrite !nth_error_last by lia.
  rewrite comb_Some by (apply oP_last; assumption).
  rewrite upd_app_r, upd_last by lia. reflexivity.
Qed.

Lemma down_top L l1 l2 : length l1 = 2 ^ L -> length l2 = 2 ^ L -> oPs l1 -> oPs l2 ->
  down_body op L 0 (l1 ++ l2) = Some (set_last l1 (last_ l2) ++ set_last l2 (m (last_ l2) (last_ l1))).
Proof.
  intros L1 L2 P1 P2. unfold down_body. pose proof (pow_pos L).
  assert (2 ^ (L + 1) = 2 ^ L + 2 ^ L) by (rewrite Nat.add_1_r; simpl; lia).
  replace (0 + 2 ^ L - 1) with (2 ^ L - 1) by lia.
  replace (0 + 2 ^ (L + 1) - 1) with (length l1 + (2 ^ L - 1)) by lia.
  rewrite nth_error_app1 by lia. rewrite nth_error_app2 by lia.
  replace (length l1 + (2 ^ L - 1) - length l1) with (2 ^ L - 1) by lia.
  rewrite !nth_error_last by lia.
  rewrite upd_app_l, upd_last by lia.
  rewrite comb_Some by (apply oP_last; assumption).
  assert (E : length (set_last l1 (last_ l2)) = length l1) by (apply set_last_length; eauto using len_ne).
  rewrite <- E. rewrite upd_app_r, upd_last by lia. reflexivity.
Qed.

Lemma up_loop L : forall l, length l = 2 ^ L -> oPs l ->
  for_ (seq 0 L) (up_level op (2 ^ L)) l = Some (upR L l).
Proof.
  induction L as [|L IH]; intros l H HP; [reflexivity|].
  destruct (half_len L l H) as [H1 H2].
  rewrite seq_S. simpl Nat.add. rewrite for_app.
  rewrite <- (firstn_skipn (2 ^ L) l) at 1.
  change (up_level op) with (level (up_body op)).
  rewrite (levels_app _ up_local L (seq 0 L)) with (r1 := upR L (firstn (2 ^ L) l)) (r2 := upR L (skipn (2 ^ L) l));
    [ | intros d Hd; apply in_seq in Hd; lia | exact H1 | exact H2
      | apply IH; auto using firstn_oPs | apply IH; auto using skipn_oPs ].
  cbn [for_]. rewrite level_top.
  rewrite up_top by (auto using upR_length, upR_oPs, firstn_oPs, skipn_oPs). reflexivity.
Qed.

Lemma down_loop L : forall l, length l = 2 ^ L -> oPs l ->
  for_ (rev (seq 0 L)) (down_level op (2 ^ L)) l = Some (downR L l).
Proof.
  induction L as [|L IH]; intros l H HP; [reflexivity|].
  destruct (half_len L l H) as [H1 H2].
  rewrite seq_S. simpl Nat.add. rewrite rev_app_distr. cbn [rev app for_].
  change (down_level op) with (level (down_body op)).
  rewrite level_top. rewrite <- (firstn_skipn (2 ^ L) l) at 1.
  pose proof (firstn_oPs (2 ^ L) l HP) as P1. pose proof (skipn_oPs (2 ^ L) l HP) as P2.
  rewrite down_top by assumption. cbn [downR].
  apply (levels_app _ down_local L).
  - intros d Hd. apply in_rev, in_seq in Hd. lia.
  - rewrite set_last_length; eauto using len_ne.
  - rewrite set_last_length; eauto using len_ne.
  - apply IH; [rewrite set_last_length; eauto using len_ne | apply oPs_set_last; auto using oP_last].
  - apply IH; [rewrite set_last_length; eauto using len_ne
              | apply oPs_set_last; auto using oP_m, oP_last].
Qed.

Fixpoint zipm (a b : list (option A)) : list (option A) :=
  match a, b with x :: a', y :: b' => m x y :: zipm a' b' | _, _ => [] end.

Lemma extra_loop_gen a0 : oPs a0 -> forall pre b a0pre, oPs b -> length pre = length a0pre -> length b = length a0 ->
  for_ (seq (length pre) (length a0)) (extra_body op (a0pre ++ a0)) (pre ++ b) = Some (pre ++ zipm b a0).
Proof.
  induction 1 as [|y a0 Hy Ha IH]; intros pre b a0pre Hb HL Hlen.
  - destruct b; [reflexivity|discriminate].
  - destruct b as [|x b]; [discriminate|]. inversion Hb as [|? ? Hx Hb']; subst.
    cbn [length seq for_]. unfold extra_body at 1.
    rewrite nth_error_app2, Nat.sub_diag by lia.
    rewrite nth_error_app2 by lia. rewrite HL, Nat.sub_diag. cbn [nth_error].
    rewrite comb_Some by assumption.
    rewrite <- HL. rewrite <- (Nat.add_0_r (length pre)) at 1. rewrite upd_app_r. cbn [upd].
    specialize (IH (pre ++ [m x y]) b (a0pre ++ [y]) Hb').
    rewrite !app_length, <- !app_assoc in IH. simpl in IH. rewrite Nat.add_1_r in IH.
    rewrite IH by (simpl in Hlen; lia). reflexivity.
Qed.

Lemma extra_loop a0 b : oPs a0 -> oPs b -> length b = length a0 ->
  extra_level op (length a0) a0 b = Some (zipm b a0).
Proof. intros. apply (extra_loop_gen a0 H [] b []); auto. Qed.

Lemma excl_oPs v l : oP v -> oPs l -> oPs (excl v l).
Proof.
  intros Hv Hl; revert v Hv; induction Hl as [|x l Hx Hl IH]; intros v Hv; simpl; constructor; auto using oP_m.
Qed.

(** inclusive prefixes *)
Fixpoint incl_ (v : option A) (l : list (option A)) : list (option A) :=
  match l with [] => [] | x :: t => m v x :: incl_ (m v x) t end.

Lemma zipm_excl v l : zipm (excl v l) l = incl_ v l.
Proof. revert v; induction l as [|x l IH]; intros v; simpl; [reflexivity|]. rewrite IH. reflexivity. Qed.

(** inclusive prefixes of total elements *)
Fixpoint pref (x : A) (l : list A) : option (list A) :=
  match l with
  | [] => Some [x]
  | y :: t => match op x y with None => None
              | Some z => match pref z t with None => None | Some r => Some (x :: r) end end
  end.

Fixpoint unwrap (l : list (option A)) : option (list A) :=
  match l with
  | [] => Some []
  | None :: _ => None
  | Some x :: l' => match unwrap l' with None => None | Some r => Some (x :: r) end
  end.

Lemma incl_pref l : forall x pad, P x -> Forall P l ->
  exists r, pref x l = Some (x :: r) /\
   unwrap (firstn (length l) (incl_ (Some x) (map Some l ++ pad))) = Some r /\ length r = length l.
Proof.
  induction l as [|y l IH]; intros x pad Hx Hl.
  - exists []. auto.
  - inversion Hl as [|? ? Hy Hl']; subst.
    destruct (Hcl x y Hx Hy) as (z & E & Hz).
    destruct (IH z pad Hz Hl') as (r & E1 & E2 & E3).
    exists (z :: r). split; [|split].
    + cbn [pref]. rewrite E, E1. reflexivity.
    + cbn [map app incl_ length firstn]. replace (m (Some x) (Some y)) with (Some z).
      * cbn [unwrap]. rewrite E2. reflexivity.
      * unfold m, comb. rewrite E. reflexivity.
    + simpl. lia.
Qed.

Lemma log2_up_le n : 1 <= n -> n <= 2 ^ Nat.log2_up n.
Proof.
  intros H. destruct (Nat.eq_dec n 1) as [->|Hn]; [simpl; lia|].
  apply Nat.log2_up_spec. lia.
Qed.

Theorem scan_fwd_pref x l : P x -> Forall P l -> scan_fwd op (x :: l) = pref x l.
Proof.
  intros Hx Hl. unfold scan_fwd. cbn [length].
  set (n0 := S (length l)). set (L := Nat.log2_up n0).
  assert (Hn : n0 <= 2 ^ L) by (apply log2_up_le; unfold n0; lia).
  set (a0 := map Some (x :: l) ++ repeat None (2 ^ L - n0)).
  assert (La0 : length a0 = 2 ^ L).
  { unfold a0. rewrite app_length, map_length, repeat_length. simpl. fold n0. lia. }
  assert (Pa0 : oPs a0).
  { unfold a0. apply Forall_app; split.
    - apply Forall_map. constructor; [exact Hx|]. eapply Forall_impl; [|exact Hl]. intros; assumption.
    - apply Forall_forall. intros y Hy. apply repeat_spec in Hy. subst. exact I. }
  rewrite up_loop by assumption. pose proof (pow_pos L) as HpL.
  rewrite upd_last by (rewrite upR_length by assumption; lia).
  rewrite down_loop.
  2:{ rewrite set_last_length; [apply upR_length; assumption|]. eapply (len_ne _ L), upR_length; assumption. }
  2:{ apply oPs_set_last; [apply upR_oPs; assumption|exact I]. }
  rewrite downR_spec by (try assumption; exact I).
  rewrite <- La0 at 1. rewrite extra_loop by (try assumption; try apply excl_oPs; simpl; auto using excl_length).
  rewrite zipm_excl.
  destruct (incl_pref l x (repeat None (2 ^ L - n0)) Hx Hl) as (r & E1 & E2 & E3).
  rewrite E1. unfold a0, n0. cbn [map app incl_ firstn]. rewrite m_None_l.
  fold n0. change (match unwrap (firstn (length l) (incl_ (Some x) (map Some l ++ repeat None (2 ^ L - n0)))) with
     | None => None | Some r0 => Some (x :: r0) end = Some (x :: r)).
  rewrite E2. reflexivity.
Qed.

Lemma pref_total l : forall x r, pref x l = Some r ->
  length r = S (length l) /\
  forall k, k < S (length l) -> nth_error r k = fold1 op x (firstn k l) /\ nth_error r k <> None.
Proof.
  induction l as [|y l IH]; intros x r H; simpl in H.
  - injection H as <-. split; [reflexivity|]. intros [|k] Hk; simpl in *; [split; [reflexivity|discriminate]|lia].
  - destruct (op x y) as [z|] eqn:E; [|discriminate].
    destruct (pref z l) as [r'|] eqn:E'; [|discriminate]. injection H as <-.
    destruct (IH _ _ E') as [H1 H2]. split; [simpl; lia|].
    intros [|k] Hk; simpl; [split; [reflexivity|discriminate]|].
    rewrite E. apply H2. simpl in Hk. lia.
Qed.

Lemma pref_defined l : forall x, P x -> Forall P l -> exists r, pref x l = Some r /\ Forall P r.
Proof.
  induction l as [|y l IH]; intros x Hx Hl; simpl.
  - eexists; split; [reflexivity|]. constructor; auto.
  - inversion Hl as [|? ? Hy Hl']; subst. destruct (Hcl x y Hx Hy) as (z & E & Hz). rewrite E.
    destruct (IH z Hz Hl') as (r & -> & Hr). eexists; split; [reflexivity|]. constructor; assumption.
Qed.

Theorem scan_fwd_spec (a : list A) : a <> [] -> Forall P a ->
  exists r, scan_fwd op a = Some r /\ length r = length a /\ Forall P r /\
    forall k, k < length a -> nth_error r k = total_of op (firstn (S k) a) /\ nth_error r k <> None.
Proof.
  destruct a as [|x l]; [congruence|]. intros _ H. inversion H as [|? ? Hx Hl]; subst.
  rewrite scan_fwd_pref by assumption.
  destruct (pref_defined l x Hx Hl) as (r & E & Hr). exists r.
  destruct (pref_total l x r E) as [H1 H2]. repeat split; auto; apply H2; assumption.
Qed.
End Correct.

(** * Reverse *)
Lemma closed_on_flip {A} (P : A -> Prop) op : closed_on P op -> closed_on P (fun x y => op y x).
Proof. intros H x y Hx Hy. apply H; assumption. Qed.
Lemma assoc_on_flip {A} (P : A -> Prop) op : assoc_on P op -> assoc_on P (fun x y => op y x).
Proof. intros H x y z xy yz Hx Hy Hz E1 E2. symmetry. exact (H z y x yz xy Hz Hy Hx E2 E1). Qed.

Lemma total_snoc {A} (P : A -> Prop) op : closed_on P op -> assoc_on P op ->
  forall l (x y : A), P x -> Forall P l -> P y ->
  fold1 op x (l ++ [y]) = match fold1 op x l with None => None | Some z => op z y end.
Proof.
  intros Hcl Has. induction l as [|w l IH]; intros x y Hx Hl Hy; simpl; [destruct (op x y); reflexivity|].
  inversion Hl; subst. destruct (Hcl x w Hx) as (z & E & Hz); [assumption|]. rewrite E. apply IH; assumption.
Qed.

Lemma fold1_P {A} (P : A -> Prop) op : closed_on P op ->
  forall l (x : A), P x -> Forall P l -> exists z, fold1 op x l = Some z /\ P z.
Proof.
  intros Hcl. induction l as [|w l IH]; intros x Hx Hl; simpl; [eauto|].
  inversion Hl; subst. destruct (Hcl x w Hx) as (z & E & Hz); [assumption|]. rewrite E. apply IH; assumption.
Qed.

Lemma fold1_cons {A} (P : A -> Prop) op : closed_on P op -> assoc_on P op ->
  forall l (x y : A), P x -> P y -> Forall P l ->
  exists t, fold1 op y l = Some t /\ fold1 op x (y :: l) = op x t.
Proof.
  intros Hcl Has. induction l as [|w l IH]; intros x y Hx Hy Hl.
  - exists y. split; [reflexivity|]. simpl. destruct (op x y); reflexivity.
  - inversion Hl as [|? ? Hw Hl']; subst.
    destruct (Hcl y w Hy Hw) as (yw & E & Hyw).
    destruct (IH x yw Hx Hyw Hl') as (t & E1 & E2). exists t. split; [simpl; rewrite E; exact E1|].
    rewrite <- E2. cbn [fold1].
    destruct (Hcl x y Hx Hy) as (xy & E3 & Hxy). rewrite E3.
    rewrite (Has x y w xy yw) by assumption. reflexivity.
Qed.

(** evaluation of the reversed list with swapped operands is the same combination *)
Lemma total_rev {A} (P : A -> Prop) op : closed_on P op -> assoc_on P op ->
  forall l, Forall P l -> total_of (fun x y => op y x) (rev l) = total_of op l.
Proof.
  intros Hcl Has l. induction l as [|x l IH]; intros Hl; [reflexivity|].
  inversion Hl as [|? ? Hx Hl']; subst. specialize (IH Hl').
  destruct l as [|y l]; [reflexivity|]. inversion Hl' as [|? ? Hy Hl'']; subst.
  cbn [total_of].
  destruct (fold1_cons P op Hcl Has l x y Hx Hy Hl'') as (t & E1 & E2).
  rewrite E2. cbn [total_of] in IH. rewrite E1 in IH.
  cbn [rev] in *.
  assert (Hq : Forall P (rev l ++ [y])).
  { apply Forall_app; split; [apply Forall_rev; assumption|constructor; auto]. }
  destruct (rev l ++ [y]) as [|z q]; [discriminate|]. inversion Hq as [|? ? Hz Hq']; subst.
  cbn [app total_of] in *.
  rewrite (total_snoc P (fun a b => op b a)) by (auto using closed_on_flip, assoc_on_flip).
  rewrite IH. reflexivity.
Qed.

Lemma nth_error_rev_lt {A} (r : list A) k : k < length r -> nth_error (rev r) k = nth_error r (length r - S k).
Proof.
  destruct r as [|d r']; [simpl; lia|]. set (r := d :: r'). intros H.
  rewrite (nth_error_nth' (rev r) d) by (rewrite rev_length; exact H).
  rewrite rev_nth by exact H. symmetry. apply nth_error_nth'. lia.
Qed.

Theorem my_assoc_scan_spec {A} (P : A -> Prop) op (a : list A) (reverse : bool) :
  closed_on P op -> assoc_on P op -> a <> [] -> Forall P a ->
  exists r, my_assoc_scan op a reverse = Some r /\ length r = length a /\ Forall P r /\
    forall k, k < length a ->
      nth_error r k = total_of op (if reverse then skipn k a else firstn (S k) a) /\
      nth_error r k <> None.
Proof.
  intros Hcl Has Hne HP. unfold my_assoc_scan. destruct reverse.
  - destruct (scan_fwd_spec P (fun x y => op y x) (closed_on_flip P op Hcl) (assoc_on_flip P op Has) (rev a))
      as (r & E & Hlen & Hr & Hk).
    + intros E. apply Hne. rewrite <- (rev_involutive a), E. reflexivity.
    + apply Forall_rev; assumption.
    + rewrite E. exists (rev r). rewrite rev_length in Hlen. repeat split.
      * rewrite rev_length. exact Hlen.
      * apply Forall_rev; assumption.
      * rename k into k'. assert (Hk' : length a - S k' < length (rev a)) by (rewrite rev_length; lia).
        specialize (Hk _ Hk'). destruct Hk as [Hk _].
        replace (S (length a - S k')) with (length a - k') in Hk by lia.
        rewrite firstn_rev in Hk. replace (length a - (length a - k')) with k' in Hk by lia.
        rewrite (total_rev P op Hcl Has) in Hk.
        2:{ rewrite <- (firstn_skipn k' a) in HP. apply Forall_app in HP. tauto. }
        rewrite <- Hk, <- Hlen.
        rewrite nth_error_rev_lt by lia. reflexivity.
      * apply nth_error_Some. rewrite rev_length. lia.
  - destruct (scan_fwd_spec P op Hcl Has a Hne HP) as (r & E & Hlen & Hr & Hk). exists r. auto.
Qed.

Lemma my_assoc_scan_empty {A} (op : A -> A -> option A) b : my_assoc_scan op [] b = None.
Proof. destruct b; reflexivity. Qed.

(** * Total operators *)
Lemma fold1_total {A} (op : A -> A -> A) l : forall x, fold1 (fun x y => Some (op x y)) x l = Some (fold_left op l x).
Proof. induction l as [|y l IH]; intros x; simpl; auto. Qed.

Lemma total_scan {A} (op : A -> A -> A) (a : list A) reverse :
  (forall x y z, op (op x y) z = op x (op y z)) -> a <> [] ->
  exists r, my_assoc_scan (fun x y => Some (op x y)) a reverse = Some r /\ length r = length a /\
    forall k x t, k < length a -> (if reverse then skipn k a else firstn (S k) a) = x :: t ->
      nth_error r k = Some (fold_left op t x).
Proof.
  intros Has Hne.
  destruct (my_assoc_scan_spec (fun _ => True) (fun x y => Some (op x y)) a reverse) as (r & E & Hl & _ & Hk).
  - intros x y _ _. eauto.
  - intros x y z xy yz _ _ _ [= <-] [= <-]. rewrite Has. reflexivity.
  - exact Hne.
  - apply Forall_forall. auto.
  - exists r. repeat split; auto. intros k x t Hlt Ex. destruct (Hk k Hlt) as [-> _].
    rewrite Ex. apply fold1_total.
Qed.

Lemma scan_total_prefix {A} (op : A -> A -> A) (a : list A) :
  (forall x y z, op (op x y) z = op x (op y z)) -> a <> [] ->
  exists r, my_assoc_scan (fun x y => Some (op x y)) a false = Some r /\ length r = length a /\
    forall k x t, k < length a -> firstn (S k) a = x :: t -> nth_error r k = Some (fold_left op t x).
Proof. apply (total_scan op a false). Qed.

Lemma scan_total_suffix {A} (op : A -> A -> A) (a : list A) :
  (forall x y z, op (op x y) z = op x (op y z)) -> a <> [] ->
  exists r, my_assoc_scan (fun x y => Some (op x y)) a true = Some r /\ length r = length a /\
    forall k x t, k < length a -> skipn k a = x :: t -> nth_error r k = Some (fold_left op t x).
Proof. apply (total_scan op a true). Qed.
