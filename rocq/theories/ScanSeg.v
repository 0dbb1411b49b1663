(** The scan combines only adjacent segments: an invariant indexed by segments, for an operator that may raise elsewhere. *)
From Coq Require Import List Arith Lia.
From Verif Require Import ScanModel ScanSpec ScanProofs.
Import ListNotations.

Section Seg.
Context {A : Type}.
Variable op : A -> A -> option A.
Variable Inv : nat -> nat -> A -> Prop.
Variable n : nat.
Hypothesis Hop : forall i j k x y, i < j -> j < k -> k <= n -> Inv i j x -> Inv j k y -> exists z, op x y = Some z /\ Inv i k z.

(** an empty segment is a missing cell *)
Definition seg (i j : nat) (c : option A) : Prop := match c with None => i = j | Some x => i < j /\ j <= n /\ Inv i j x end.
Lemma comb_seg i j k x y : seg i j x -> seg j k y -> exists v, comb op x y = Some v /\ seg i k v.
Proof.
  destruct y as [y|]; cbn.
  - intros hx (h1 & h2 & h3). destruct x as [x|]; cbn in hx.
    + destruct hx as (h4 & h5 & h6). destruct (Hop i j k x y) as (z & E & hz); auto. rewrite E. eexists; split; [reflexivity|]. cbn. repeat split; auto; lia.
    + subst j. eexists; split; [reflexivity|]. cbn. auto.
  - intros hx <-. eexists; split; [reflexivity|]. exact hx.
Qed.
Definition bd (t : nat) : nat := Nat.min t n.
Fixpoint UP (L s : nat) (u : list (option A)) : Prop :=
  match L with
  | 0 => exists c, u = [c] /\ seg (bd s) (bd (s + 1)) c
  | S L' => exists u1 u2 v, u = u1 ++ set_last u2 v /\ UP L' s u1 /\ UP L' (s + 2 ^ L') u2 /\ seg (bd s) (bd (s + 2 ^ S L')) v
  end.
Lemma UP_len L : forall s u, UP L s u -> length u = 2 ^ L.
Proof.
  induction L as [|L IH]; intros s u; cbn [UP].
  - intros (c & -> & _). reflexivity.
  - intros (u1 & u2 & v & -> & h1 & h2 & _). apply IH in h1. apply IH in h2.
    rewrite app_length, set_last_length by eauto using len_ne. cbn. lia.
Qed.
Lemma UP_last L s u : UP L s u -> seg (bd s) (bd (s + 2 ^ L)) (last_ u).
Proof.
  destruct L as [|L]; cbn [UP].
  - intros (c & -> & h). exact h.
  - intros (u1 & u2 & v & -> & h1 & h2 & h3). rewrite last_app; [rewrite last_set_last; exact h3|].
    apply (len_ne _ L). apply UP_len in h2. rewrite set_last_length; eauto using len_ne.
Qed.
Lemma up_top_seg L s l1 l2 : UP L s l1 -> UP L (s + 2 ^ L) l2 ->
  exists u, up_body op L 0 (l1 ++ l2) = Some u /\ UP (S L) s u.
Proof.
  intros h1 h2. pose proof (UP_len _ _ _ h1) as L1. pose proof (UP_len _ _ _ h2) as L2.
  destruct (comb_seg _ _ _ _ _ (UP_last _ _ _ h1) (UP_last _ _ _ h2)) as (v & E & hv).
  exists (l1 ++ set_last l2 v). split.
  - unfold up_body. pose proof (pow_pos L).
    assert (2 ^ (L + 1) = 2 ^ L + 2 ^ L) by (rewrite Nat.add_1_r; simpl; lia).
    replace (0 + 2 ^ L - 1) with (2 ^ L - 1) by lia.
    replace (0 + 2 ^ (L + 1) - 1) with (length l1 + (2 ^ L - 1)) by lia.
    rewrite nth_error_app1 by lia. rewrite nth_error_app2 by lia.
    replace (length l1 + (2 ^ L - 1) - length l1) with (2 ^ L - 1) by lia.
    rewrite !nth_error_last by lia. rewrite E. rewrite upd_app_r, upd_last by lia. reflexivity.
  - cbn [UP]. exists l1, l2, v. repeat split; auto.
    replace (s + 2 ^ S L) with (s + 2 ^ L + 2 ^ L) by (cbn; lia). exact hv.
Qed.
Definition init (L s : nat) (l : list (option A)) : Prop :=
  length l = 2 ^ L /\ forall t c, nth_error l t = Some c -> seg (bd (s + t)) (bd (s + t + 1)) c.
Lemma init_half L s l : init (S L) s l -> init L s (firstn (2 ^ L) l) /\ init L (s + 2 ^ L) (skipn (2 ^ L) l).
Proof.
  intros [h1 h2]. destruct (half_len L l h1) as [H1 H2]. split; (split; [assumption|]); intros t c E.
  - apply h2. rewrite <- (firstn_skipn (2 ^ L) l). rewrite nth_error_app1; [exact E|].
    apply nth_error_Some. rewrite E. discriminate.
  - replace (s + 2 ^ L + t) with (s + (2 ^ L + t)) by lia. apply h2. rewrite <- (firstn_skipn (2 ^ L) l).
    rewrite nth_error_app2 by lia. rewrite H1. replace (2 ^ L + t - 2 ^ L) with t by lia. exact E.
Qed.
Lemma up_loop_seg L : forall s l, init L s l -> exists u, for_ (seq 0 L) (up_level op (2 ^ L)) l = Some u /\ UP L s u.
Proof.
  induction L as [|L IH]; intros s l H.
  - destruct H as [h1 h2]. destruct l as [|c [|]]; cbn in h1; try lia. exists [c]. split; [reflexivity|].
    exists c. split; [reflexivity|]. specialize (h2 0 c eq_refl). now rewrite Nat.add_0_r in h2.
  - destruct (init_half _ _ _ H) as [I1 I2]. destruct (IH _ _ I1) as (u1 & E1 & U1). destruct (IH _ _ I2) as (u2 & E2 & U2).
    destruct (up_top_seg _ _ _ _ U1 U2) as (u & E & HU). exists u. split; [|exact HU].
    rewrite seq_S. simpl Nat.add. rewrite for_app. rewrite <- (firstn_skipn (2 ^ L) l) at 1.
    change (up_level op) with (level (up_body op)).
    rewrite (levels_app _ (up_local op) L (seq 0 L)) with (r1 := u1) (r2 := u2);
      [ | intros d Hd; apply in_seq in Hd; lia | exact (proj1 I1) | exact (proj1 I2) | exact E1 | exact E2 ].
    cbn [for_]. rewrite level_top. rewrite E. reflexivity.
Qed.
Lemma down_loop_seg L : forall s u p, UP L s u -> seg 0 (bd s) p ->
  exists r, for_ (rev (seq 0 L)) (down_level op (2 ^ L)) (set_last u p) = Some r /\ length r = 2 ^ L /\
    forall t c, nth_error r t = Some c -> seg 0 (bd (s + t)) c.
Proof.
  induction L as [|L IH]; intros s u p HU Hp.
  - destruct HU as (c & -> & _). exists [p]. split; [reflexivity|]. split; [reflexivity|].
    intros [|[|t]] c'; cbn; try discriminate. intros [= <-]. now rewrite Nat.add_0_r.
  - destruct HU as (u1 & u2 & v & -> & U1 & U2 & _).
    pose proof (UP_len _ _ _ U1) as L1. pose proof (UP_len _ _ _ U2) as L2. pose proof (pow_pos L) as HpL.
    assert (N1 : u1 <> []) by eauto using len_ne. assert (N2 : u2 <> []) by eauto using len_ne.
    rewrite set_last_app by (eapply (len_ne _ L); rewrite set_last_length; assumption). rewrite set_last_twice.
    destruct (comb_seg _ _ _ _ _ Hp (UP_last _ _ _ U1)) as (w & E & hw).
    destruct (IH _ _ _ U1 Hp) as (r1 & E1 & R1 & H1). destruct (IH _ _ _ U2 hw) as (r2 & E2 & R2 & H2).
    exists (r1 ++ r2). split; [|split].
    + rewrite seq_S. simpl Nat.add. rewrite rev_app_distr. cbn [rev app for_].
      change (down_level op) with (level (down_body op)). rewrite level_top.
      assert (ED : down_body op L 0 (u1 ++ set_last u2 p) = Some (set_last u1 p ++ set_last u2 w)).
      { unfold down_body.
        assert (2 ^ (L + 1) = 2 ^ L + 2 ^ L) by (rewrite Nat.add_1_r; simpl; lia).
        assert (LS : length (set_last u2 p) = length u2) by (apply set_last_length; assumption).
        assert (LS1 : length (set_last u1 p) = length u1) by (apply set_last_length; assumption).
        replace (0 + 2 ^ L - 1) with (2 ^ L - 1) by lia.
        replace (0 + 2 ^ (L + 1) - 1) with (length u1 + (2 ^ L - 1)) by lia.
        rewrite nth_error_app1 by lia. rewrite nth_error_app2 by lia.
        replace (length u1 + (2 ^ L - 1) - length u1) with (2 ^ L - 1) by lia.
        rewrite !nth_error_last by lia. rewrite last_set_last.
        rewrite upd_app_l, upd_last by lia. rewrite E.
        rewrite <- LS1. rewrite upd_app_r, upd_last by lia. rewrite set_last_twice. reflexivity. }
      rewrite ED. apply (levels_app _ (down_local op) L).
      * intros d Hd. apply in_rev, in_seq in Hd. lia.
      * rewrite set_last_length; assumption.
      * rewrite set_last_length; assumption.
      * exact E1.
      * exact E2.
    + rewrite app_length. cbn. lia.
    + intros t c. destruct (Nat.lt_ge_cases t (2 ^ L)) as [lt|ge].
      * rewrite nth_error_app1 by lia. apply H1.
      * rewrite nth_error_app2 by lia. rewrite R1. intros e. apply H2 in e.
        now replace (s + 2 ^ L + (t - 2 ^ L)) with (s + t) in e by lia.
Qed.
Lemma extra_seg a0 : forall pre b a0pre, length pre = length a0pre -> length b = length a0 ->
  (forall t x y, nth_error b t = Some x -> nth_error a0 t = Some y -> seg 0 (bd (length pre + t)) x /\ seg (bd (length pre + t)) (bd (length pre + t + 1)) y) ->
  exists r, for_ (seq (length pre) (length a0)) (extra_body op (a0pre ++ a0)) (pre ++ b) = Some (pre ++ r) /\ length r = length a0 /\
    forall t c, nth_error r t = Some c -> seg 0 (bd (length pre + t + 1)) c.
Proof.
  induction a0 as [|y a0 IH]; intros pre b a0pre HL Hlen H.
  - destruct b; [|discriminate]. exists []. repeat split. intros [|t] c; discriminate.
  - destruct b as [|x b]; [discriminate|]. destruct (H 0 x y eq_refl eq_refl) as [hx hy].
    destruct (comb_seg _ _ _ _ _ hx hy) as (v & E & hv).
    destruct (IH (pre ++ [v]) b (a0pre ++ [y])) as (r & Er & Lr & Hr).
    + rewrite !app_length. cbn. lia.
    + cbn in Hlen. lia.
    + intros t x' y' e1 e2. rewrite app_length. cbn [length]. replace (length pre + 1 + t) with (length pre + S t) by lia. now apply H.
    + exists (v :: r). split; [|split].
      * cbn [length seq for_]. unfold extra_body at 1. rewrite nth_error_app2, Nat.sub_diag by lia.
        rewrite nth_error_app2 by lia. rewrite HL, Nat.sub_diag. cbn [nth_error]. rewrite E.
        rewrite <- HL. rewrite <- (Nat.add_0_r (length pre)) at 1. rewrite upd_app_r. cbn [upd].
        rewrite !app_length, <- !app_assoc in Er. cbn in Er. rewrite Nat.add_1_r in Er. exact Er.
      * cbn. lia.
      * intros [|t] c; cbn [nth_error].
        -- intros [= <-]. replace (length pre + 0) with (length pre) in * by lia. exact hv.
        -- intros e. apply Hr in e. rewrite app_length in e. cbn [length] in e.
           now replace (length pre + S t + 1) with (length pre + 1 + t + 1) by lia.
Qed.
Theorem scan_fwd_seg (a : list A) : length a = n -> a <> [] -> (forall i x, nth_error a i = Some x -> Inv i (S i) x) ->
  exists r, scan_fwd op a = Some r /\ length r = n /\ forall k x, nth_error r k = Some x -> Inv 0 (S k) x.
Proof.
  intros Hn Hne Ha. unfold scan_fwd. rewrite Hn. assert (n0 : 1 <= n) by (destruct a; [congruence|cbn in Hn; lia]).
  destruct n as [|n'] eqn:En; [lia|]. rewrite <- En in *. 
  set (L := Nat.log2_up n). assert (HL : n <= 2 ^ L) by (apply log2_up_le; lia).
  set (a0 := map Some a ++ repeat None (2 ^ L - n)).
  assert (La0 : length a0 = 2 ^ L) by (unfold a0; rewrite app_length, map_length, repeat_length; lia).
  assert (I0 : init L 0 a0).
  { split; [exact La0|]. intros t c. cbn [Nat.add]. unfold a0. destruct (Nat.lt_ge_cases t n) as [lt|ge].
    - rewrite nth_error_app1 by (rewrite map_length; lia). intros e. rewrite nth_error_map in e.
      destruct (nth_error a t) as [x|] eqn:Ex; [|discriminate]. injection e as <-.
      unfold bd, seg. rewrite !Nat.min_l by lia. repeat split; try lia. replace (t + 1) with (S t) by lia. now apply Ha.
    - rewrite nth_error_app2 by (rewrite map_length; lia). intros e. apply nth_error_In, repeat_spec in e. subst c.
      unfold bd, seg. rewrite !Nat.min_r by lia. reflexivity. }
  destruct (up_loop_seg _ _ _ I0) as (u & Eu & HU). rewrite Eu. pose proof (pow_pos L) as HpL.
  rewrite upd_last by (rewrite (UP_len _ _ _ HU); lia).
  destruct (down_loop_seg _ _ _ None HU) as (d & Ed & Ld & Hd); [reflexivity|]. rewrite Ed.
  destruct (extra_seg a0 [] d [] eq_refl) as (r & Er & Lr & Hr).
  - lia.
  - intros t x y e1 e2. cbn [length Nat.add]. split; [exact (Hd t x e1)|exact (proj2 I0 t y e2)].
  - unfold extra_level. cbn [length app] in Er. rewrite La0 in Er. rewrite Er.
    assert (W : forall l : list (option A), (forall t c, nth_error l t = Some c -> exists x, c = Some x) ->
      exists q, unwrap l = Some q /\ length q = length l /\ forall t x, nth_error q t = Some x -> nth_error l t = Some (Some x)).
    { induction l as [|c l IH]; intros Hl.
      - exists []. repeat split. intros [|t] x; discriminate.
      - destruct (Hl 0 c eq_refl) as [x ->]. destruct IH as (q & Eq & Lq & Hq); [intros t c e; exact (Hl (S t) c e)|].
        exists (x :: q). cbn [unwrap]. rewrite Eq. repeat split; [cbn; lia|]. intros [|t] y; cbn [nth_error]; [intros [= <-]; reflexivity|apply Hq]. }
    assert (F : forall t c, nth_error (firstn n r) t = Some c -> t < n /\ nth_error r t = Some c).
    { intros t c e. assert (t < length (firstn n r)) by (apply nth_error_Some; rewrite e; discriminate).
      rewrite firstn_length in H. split; [lia|]. rewrite <- (firstn_skipn n r). rewrite nth_error_app1; [exact e|]. rewrite firstn_length. lia. }
    destruct (W (firstn n r)) as (q & Eq & Lq & Hq).
    + intros t c e. destruct (F t c e) as [lt e']. apply Hr in e'. cbn [length Nat.add] in e'. destruct c as [x|]; [eauto|].
      cbn in e'. unfold bd in e'. rewrite Nat.min_l in e' by lia. lia.
    + exists q. split; [exact Eq|]. split; [rewrite Lq, firstn_length; lia|].
      intros k x e. apply Hq in e. destruct (F _ _ e) as [lt e']. apply Hr in e'. cbn in e'. unfold bd in e'. rewrite Nat.min_l in e' by lia.
      destruct e' as (_ & _ & h). now replace (k + 1) with (S k) in h by lia.
Qed.
End Seg.

Theorem scan_seg {A} (op : A -> A -> option A) (Inv : nat -> nat -> A -> Prop) (a : list A) (reverse : bool) : a <> [] ->
  (forall i j k x y, i < j -> j < k -> k <= length a -> Inv i j x -> Inv j k y -> exists z, op x y = Some z /\ Inv i k z) ->
  (forall i x, nth_error a i = Some x -> Inv i (S i) x) ->
  exists r, my_assoc_scan op a reverse = Some r /\ length r = length a /\
    forall k x, nth_error r k = Some x -> if reverse then Inv k (length a) x else Inv 0 (S k) x.
Proof.
  intros Hne Hop Ha. destruct reverse; cbn [my_assoc_scan]; [|now apply scan_fwd_seg].
  set (n := length a) in *.
  destruct (scan_fwd_seg (fun x y => op y x) (fun i j x => Inv (n - j) (n - i) x) n) with (a := rev a) as (r & Er & Lr & Hr).
  - intros i j k x y h1 h2 h3 hx hy. apply (Hop (n - k) (n - j) (n - i)); auto; lia.
  - apply rev_length.
  - intros e. apply Hne. rewrite <- (rev_involutive a), e. reflexivity.
  - intros i x e. assert (lt : i < n) by (unfold n; rewrite <- rev_length; apply nth_error_Some; rewrite e; discriminate).
    replace (n - i) with (S (n - S i)) by lia. apply Ha.
    rewrite <- (rev_involutive a). rewrite nth_error_nth' with (d := x) by (rewrite rev_length, rev_length; fold n; lia).
    rewrite rev_nth by (rewrite rev_length; fold n; lia). rewrite rev_length. fold n.
    replace (n - S (n - S i)) with i by lia. f_equal. now apply nth_error_nth.
  - rewrite Er. exists (rev r). split; [reflexivity|]. split; [rewrite rev_length; exact Lr|].
    intros k x e. assert (lt : k < n) by (rewrite <- Lr, <- rev_length; apply nth_error_Some; rewrite e; discriminate).
    assert (e' : nth_error r (n - S k) = Some x).
    { rewrite nth_error_nth' with (d := x) by lia. rewrite <- (rev_involutive r) at 1. rewrite rev_nth by (rewrite rev_length; lia).
      rewrite rev_length, Lr. replace (n - S (n - S k)) with k by lia. f_equal. now apply nth_error_nth. }
    apply Hr in e'. replace (S (n - S k)) with (n - k) in e' by lia. replace (n - (n - k)) with k in e' by lia. now rewrite Nat.sub_0_r in e'.
Qed.
