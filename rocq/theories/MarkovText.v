(** Lemmas on the text model: contexts and dictionaries (C58). *)
From Coq Require Import List Arith Bool Reals Lra Lia.
From Verif Require Import ScanModel Ord FscModel FscSpec FscCore FscProofs MarkovModel MarkovSpec MarkovFm MarkovGe.
Import ListNotations.

Lemma for_some {S} (Inv : nat -> S -> Prop) (body : nat -> S -> option S) T : forall a s s',
  Inv a s -> (forall k s s', (a <= k < a + T)%nat -> Inv k s -> body k s = Some s' -> Inv (Datatypes.S k) s') ->
  for_ (seq a T) body s = Some s' -> Inv (a + T)%nat s'.
Proof.
  induction T as [|T IH]; intros a s s' H Hb; simpl.
  - intros [= <-]. rewrite Nat.add_0_r. exact H.
  - destruct (body a s) as [s1|] eqn:E; [|discriminate]. intros E'.
    replace (a + Datatypes.S T) with (Datatypes.S a + T) by lia. apply (IH (Datatypes.S a) s1); [|intros; eapply Hb; [lia| |]; eassumption|exact E'].
    apply (Hb a s); [lia|exact H|exact E].
Qed.

Lemma str_eqb_eq a b : str_eqb a b = true <-> a = b.
Proof.
  revert b; induction a as [|x a IH]; intros [|y b]; simpl; try (split; congruence).
  rewrite andb_true_iff, Nat.eqb_eq, IH. split; [intros [-> ->]; reflexivity|intros [= -> ->]; auto].
Qed.
Lemma str_eqb_refl a : str_eqb a a = true.
Proof. apply str_eqb_eq. reflexivity. Qed.

(** ** digits *)
Section Digits.
Variable n : nat.
Definition digits (o i : nat) : list nat := vec o (fun j => (i / n ^ (o - 1 - j)) mod n).

Lemma digits_length o i : length (digits o i) = o.
Proof. apply vec_length. Qed.

Lemma vec_snoc {X} k (g : nat -> X) : vec (S k) g = vec k g ++ [g k].
Proof. unfold vec. rewrite seq_S, map_app. reflexivity. Qed.

Hypothesis Hn : 0 < n.
Lemma pow_pos e : 0 < n ^ e.
Proof. apply Nat.neq_0_lt_0, Nat.pow_nonzero. lia. Qed.

Lemma digits_S o i : digits (S o) i = digits o (i / n) ++ [i mod n].
Proof.
  unfold digits. rewrite vec_snoc. f_equal.
  - apply vec_ext. intros j Hj. rewrite Nat.div_div by (try (pose proof (pow_pos (o - 1 - j))); lia).
    f_equal. f_equal. replace (S o - 1 - j) with (S (o - 1 - j)) by lia. simpl. lia.
  - replace (S o - 1 - o) with 0 by lia. rewrite Nat.pow_0_r, Nat.div_1_r. reflexivity.
Qed.
Lemma digits_inj o : forall i j, i < n ^ o -> j < n ^ o -> digits o i = digits o j -> i = j.
Proof.
  induction o as [|o IH]; intros i j Hi Hj; [simpl in *; lia|].
  rewrite !digits_S. intros E. apply app_inj_tail in E as [E1 E2].
  assert (i / n = j / n).
  { apply IH; [| |exact E1]; apply Nat.div_lt_upper_bound; try lia; simpl in Hi, Hj; lia. }
  rewrite (Nat.div_mod i n), (Nat.div_mod j n) by lia. congruence.
Qed.
Lemma digits_surj o : forall l, length l = o -> Forall (fun d => d < n) l -> exists i, i < n ^ o /\ digits o i = l.
Proof.
  induction o as [|o IH]; intros l Hl HF.
  - destruct l; [|discriminate]. exists 0. split; [simpl; lia|reflexivity].
  - destruct (exists_last (l := l)) as (l' & d & ->); [intros ->; discriminate|].
    rewrite app_length in Hl. simpl in Hl. apply Forall_app in HF as [F1 F2]. pose proof (Forall_inv F2) as Hd. cbv beta in Hd.
    destruct (IH l') as (i & Hi & E); [lia|exact F1|].
    exists (n * i + d). split; [pose proof (Nat.mul_le_mono_l (i + 1) (n ^ o) n ltac:(lia)) as Q; rewrite Nat.mul_add_distr_l in Q; simpl; lia|]. rewrite digits_S. f_equal.
    + rewrite (Nat.mul_comm n), Nat.div_add_l by lia. rewrite Nat.div_small by exact Hd. rewrite Nat.add_0_r. exact E.
    + f_equal. rewrite (Nat.mul_comm n), Nat.add_comm, Nat.mod_add by lia. apply Nat.mod_small, Hd.
Qed.
Lemma digits_lt o i : Forall (fun d => d < n) (digits o i).
Proof. apply Forall_forall. intros d Hd. apply vec_in in Hd as (j & _ & ->). apply Nat.mod_upper_bound. lia. Qed.

(** ** the odometer *)
Lemma pred_div q : 0 < q -> (q - 1) / n = (if (n <=? (q - 1) mod n + 1) then q / n - 1 else q / n) /\
  q mod n = (if (n <=? (q - 1) mod n + 1) then 0 else (q - 1) mod n + 1).
Proof.
  intros Hq. pose proof (Nat.div_mod (q - 1) n ltac:(lia)) as E. pose proof (Nat.mod_upper_bound (q - 1) n ltac:(lia)) as B.
  set (a := (q - 1) / n) in *. set (r := (q - 1) mod n) in *.
  destruct (Nat.leb_spec n (r + 1)) as [L|L].
  - assert (Eq : q = (a + 1) * n) by nia. rewrite Eq. rewrite Nat.div_mul, Nat.mod_mul by lia. lia.
  - assert (Eq : q = (r + 1) + a * n) by nia. rewrite Eq. rewrite Nat.div_add, Nat.mod_add by lia.
    rewrite Nat.div_small, Nat.mod_small by lia. lia.
Qed.

Lemma odometer_digits o i : forall j, j <= o -> (i + 1) mod n ^ (o - j) = 0 ->
  odometer n (vec o (fun t => if t <? j then (i / n ^ (o - 1 - t)) mod n else 0)) j = Some (digits o (i + 1)).
Proof.
  assert (Zero : forall j t, j <= t -> t < o -> (i + 1) mod n ^ (o - j) = 0 -> ((i + 1) / n ^ (o - 1 - t)) mod n = 0).
  { intros j t Hj Ht Hm. pose proof (pow_pos (o - 1 - t)) as P.
    apply Nat.mod_divides in Hm as [c Hc]; [|pose proof (pow_pos (o - j)); lia].
    assert (E : n ^ (o - j) = n ^ (o - 1 - t) * (n * n ^ (t - j))).
    { rewrite <- Nat.pow_succ_r', <- Nat.pow_add_r. f_equal. lia. }
    rewrite E in Hc. replace (i + 1) with ((n ^ (t - j) * c * n) * n ^ (o - 1 - t)) by (rewrite Hc; ring).
    rewrite Nat.div_mul by lia. apply Nat.mod_mul. lia. }
  induction j as [|j IH]; intros Hj Hm; simpl odometer.
  - f_equal. apply vec_ext. intros t Ht. simpl. symmetry. apply (Zero 0); [lia|exact Ht|exact Hm].
  - rewrite vec_nth by lia. rewrite (proj2 (Nat.ltb_lt j (S j))) by lia.
    set (e := o - 1 - j) in *. replace (o - S j) with e in Hm by (subst e; lia).
    pose proof (pow_pos e) as Pe.
    apply Nat.mod_divides in Hm as [q Hq]; [|lia].
    assert (Q : 0 < q) by (destruct q; lia).
    assert (Ei : i / n ^ e = q - 1).
    { symmetry. apply (Nat.div_unique i (n ^ e) (q - 1) (n ^ e - 1)); [lia|]. destruct q; [lia|]. simpl. nia. }
    assert (Ei1 : (i + 1) / n ^ e = q) by (rewrite Hq, Nat.mul_comm; apply Nat.div_mul; lia).
    rewrite Ei. destruct (pred_div q Q) as [D1 D2].
    destruct (n <=? (q - 1) mod n + 1) eqn:El.
    + rewrite upd_vec by lia. rewrite <- IH; [|lia|].
      * f_equal. apply vec_ext. intros t Ht. destruct (Nat.eqb_spec t j) as [->|].
        -- rewrite (proj2 (Nat.ltb_ge j j)) by lia. reflexivity.
        -- destruct (Nat.ltb_spec t (S j)), (Nat.ltb_spec t j); try lia; reflexivity.
      * replace (o - j) with (S e) by (subst e; lia). apply Nat.mod_divides in D2 as [c Hc]; [|lia].
        rewrite Hq, Hc. replace (n ^ e * (n * c)) with (c * n ^ S e) by (simpl; ring). apply Nat.mod_mul.
        pose proof (pow_pos (S e)). lia.
    + rewrite upd_vec by lia. f_equal. apply vec_ext. intros t Ht. destruct (Nat.eqb_spec t j) as [->|Hne].
      * fold e. rewrite Ei1. symmetry. exact D2.
      * destruct (Nat.ltb_spec t (S j)) as [Hlt|Hge].
        -- assert (Et : n ^ (o - 1 - t) = n ^ e * (n * n ^ (j - t - 1))).
           { rewrite <- Nat.pow_succ_r', <- Nat.pow_add_r. f_equal. subst e. lia. }
           rewrite Et. pose proof (pow_pos (j - t - 1)). rewrite <- !Nat.div_div by lia. rewrite Ei, Ei1, D1. reflexivity.
        -- symmetry. apply (Zero (S j)); [lia|exact Ht|]. replace (o - S j) with e by (subst e; lia).
           rewrite Hq, Nat.mul_comm. apply Nat.mod_mul. lia.
Qed.
Lemma odometer_next o i : odometer n (digits o i) o = Some (digits o (i + 1)).
Proof.
  rewrite <- (odometer_digits o i o); [|lia|rewrite Nat.sub_diag; apply Nat.mod_1_r].
  f_equal. apply vec_ext. intros t Ht. rewrite (proj2 (Nat.ltb_lt t o)) by exact Ht. reflexivity.
Qed.
End Digits.

(** ** the constructor *)
Section Init.
Variable al : str.
Variable o : nat.
Let n := length al.

Lemma ith_string_digits i : ith_string al o i = map (fun d => nth d al 0) (digits n o i).
Proof. unfold ith_string, digits, vec. rewrite map_map. reflexivity. Qed.
Lemma ith_string_length i : length (ith_string al o i) = o.
Proof. unfold ith_string. rewrite map_length, seq_length. reflexivity. Qed.

Lemma nth_some i : i < n -> nth_error al i = Some (nth i al 0).
Proof. intros H. apply nth_error_nth'. exact H. Qed.

Lemma string_of_digits l : Forall (fun d => d < n) l -> mapM (fun ix => nth_error al ix) l = Some (map (fun d => nth d al 0) l).
Proof. intros H. apply mapM_map. intros d Hd. rewrite Forall_forall in H. apply nth_some, H, Hd. Qed.

Hypothesis ND : NoDup al.
Lemma nth_inj i j : i < n -> j < n -> nth i al 0 = nth j al 0 -> i = j.
Proof. intros. apply (proj1 (NoDup_nth al 0) ND); assumption. Qed.
Lemma map_nth_inj l l' : Forall (fun d => d < n) l -> Forall (fun d => d < n) l' ->
  map (fun d => nth d al 0) l = map (fun d => nth d al 0) l' -> l = l'.
Proof.
  revert l'; induction l as [|a l IH]; intros [|b l'] H H' E; try discriminate; [reflexivity|].
  simpl in E. injection E as E1 E2. f_equal; [apply nth_inj; [apply (Forall_inv H)|apply (Forall_inv H')|exact E1]|].
  apply IH; [apply (Forall_inv_tail H)|apply (Forall_inv_tail H')|exact E2].
Qed.
Lemma pow_n_pos i : i < n ^ o -> 0 < n \/ o = 0.
Proof. intros H. destruct o; [auto|]. left. destruct n; [simpl in H; lia|lia]. Qed.
Lemma ith_string_inj i j : i < n ^ o -> j < n ^ o -> ith_string al o i = ith_string al o j -> i = j.
Proof.
  intros Hi Hj. destruct (pow_n_pos i Hi) as [Hn|Ho].
  - rewrite !ith_string_digits. intros E. apply map_nth_inj in E; [|apply digits_lt; exact Hn|apply digits_lt; exact Hn].
    apply (digits_inj n Hn o); assumption.
  - intros _. rewrite Ho in Hi, Hj. simpl in *. lia.
Qed.
Lemma ith_string_in i : i < n ^ o -> Forall (fun c => In c al) (ith_string al o i).
Proof.
  intros Hi. destruct (pow_n_pos i Hi) as [Hn|Ho].
  - rewrite ith_string_digits. apply Forall_map. eapply Forall_impl; [|apply (digits_lt n Hn)].
    intros d Hd. apply nth_In. exact Hd.
  - unfold ith_string. rewrite Ho. constructor.
Qed.
Lemma ith_string_surj s : length s = o -> Forall (fun c => In c al) s -> exists i, i < n ^ o /\ ith_string al o i = s.
Proof.
  intros Hl HF. assert (exists l, length l = o /\ Forall (fun d => d < n) l /\ map (fun d => nth d al 0) l = s) as (l & L1 & L2 & <-).
  { clear ND. revert Hl. generalize o. induction HF as [|c s Hc HF IH]; intros k Hk; simpl in Hk.
    - exists []. repeat split; [exact Hk|constructor].
    - destruct (IH (length s) eq_refl) as (l & A & B & C). destruct (In_nth al c 0 Hc) as (d & Hd & E).
      exists (d :: l). simpl. split; [lia|]. split; [constructor; assumption|congruence]. }
  destruct l as [|d l].
  - exists 0. rewrite <- L1. simpl. split; [lia|]. unfold ith_string. reflexivity.
  - assert (Hn : 0 < n) by (pose proof (Forall_inv L2) as Q; cbv beta in Q; lia).
    destruct (digits_surj n Hn o (d :: l) L1 L2) as (i & Hi & E). exists i. split; [exact Hi|].
    rewrite ith_string_digits, E. reflexivity.
Qed.
End Init.

Definition text_facts (al : str) (e : R) (o : nat) (M : text_model) : Prop :=
  chars M = al /\ errp M = e /\ order M = o /\
  cond_chars M = vec (length al ^ o) (ith_string al o) /\
  (NoDup al -> (forall c i, char_index M c = Some i <-> nth_error al i = Some c) /\
               (forall s i, cond_index M s = Some i <-> i < length al ^ o /\ ith_string al o i = s)).

Lemma text_init_ok al e o : exists M, text_init al e o = Some M /\ text_facts al e o M.
Proof.
  unfold text_init. set (n := length al).
  destruct (for_inv (fun k d => NoDup al -> forall c i, lookup Nat.eqb d c = Some i <-> i < k /\ nth_error al i = Some c)
    (fun i d => do c <- nth_error al i; Some (put c i d)) n 0 []) as (cd & -> & Hcd).
  { intros _ c i. simpl. split; [discriminate|lia]. }
  { intros k d Hk H. rewrite (nth_some al k) by (unfold n in Hk; lia). eexists. split; [reflexivity|].
    intros ND c i. specialize (H ND c i). unfold put. simpl. destruct (Nat.eqb_spec c (nth k al 0)) as [->|Hc].
    - split.
      + intros [= <-]. split; [lia|]. apply nth_some. unfold n in Hk; lia.
      + intros [Hi E]. f_equal. assert (Hi' : i < n) by (unfold n; apply nth_error_Some; congruence).
        apply (nth_inj al ND); [unfold n in Hk; lia|exact Hi'|]. rewrite (nth_some al i Hi') in E. congruence.
    - rewrite H. split; [intros [? ?]; split; [lia|assumption]|]. intros [Hi E]. split; [|exact E].
      assert (i <> k); [|lia]. intros ->. rewrite (nth_some al k) in E by (unfold n in Hk; lia). congruence. }
  match goal with |- context[@for_ ?ty (seq 0 (n ^ o)) ?bd ?s0] =>
    destruct (@for_inv ty (fun k (s : ty) => let '(il, cc, d) := s in il = digits n o k /\ cc = vec k (ith_string al o) /\
        (NoDup al -> forall st i, lookup str_eqb d st = Some i <-> i < k /\ ith_string al o i = st)) bd (n ^ o) 0 s0)
      as ([[il cc] d] & -> & Hil & Hcc & Hd) end.
  { split; [|split; [reflexivity|intros _ st i; simpl; split; [discriminate|lia]]].
    rewrite repeat_vec. apply vec_ext. intros j Hj.
    destruct (Nat.eq_dec n 0) as [->|Hn0].
    - destruct (o - 1 - j); simpl; reflexivity.
    - rewrite Nat.div_0_l by (apply Nat.pow_nonzero; exact Hn0). rewrite Nat.mod_0_l by exact Hn0. reflexivity. }
  { intros k [[il cc] d] Hk (-> & -> & Hd). destruct (pow_n_pos al o k) as [Hn|Ho]; [fold n; lia| |].
    - rewrite (string_of_digits al) by (apply digits_lt; exact Hn). rewrite digits_length.
      rewrite odometer_next by exact Hn. eexists. split; [reflexivity|]. split; [f_equal; lia|].
      assert (Es : map (fun d => nth d al 0) (digits n o k) = ith_string al o k) by (symmetry; apply ith_string_digits).
      rewrite Es. split; [symmetry; apply vec_snoc|].
      intros ND st i. specialize (Hd ND st i). unfold put. simpl. destruct (str_eqb st (ith_string al o k)) eqn:E.
      + apply str_eqb_eq in E. subst st. split.
        * intros [= <-]. split; [lia|reflexivity].
        * intros [Hi E]. f_equal. symmetry. apply (ith_string_inj al o ND); [fold n; lia|fold n; lia|exact E].
      + rewrite Hd. split; [intros [? ?]; split; [lia|assumption]|]. intros [Hi E']. split; [|exact E'].
        assert (i <> k); [|lia]. intros ->. rewrite E', str_eqb_refl in E. discriminate.
    - subst o. simpl in Hk. assert (k = 0) by lia. subst k. eexists. split; [reflexivity|]. split; [reflexivity|]. split; [reflexivity|].
      intros ND st i. unfold put. simpl. destruct st as [|c st]; simpl.
      + split; [intros [= <-]; split; [lia|reflexivity]|]. intros [Hi _]. f_equal. lia.
      + rewrite (Hd ND). split; [lia|]. intros [_ E]. discriminate. }
  eexists. split; [reflexivity|]. split; [reflexivity|]. split; [reflexivity|]. split; [reflexivity|].
  split; [exact Hcc|]. intros ND. split.
  - intros c i. unfold char_index. simpl. rewrite (Hcd ND). split; [tauto|]. intros E. split; [|exact E].
    apply nth_error_Some. congruence.
  - intros s i. unfold cond_index. simpl. apply (Hd ND).
Qed.

Lemma C58_contexts_lemma al e o : exists M, text_init al e o = Some M /\ chars M = al /\ errp M = e /\ order M = o /\
  length (cond_chars M) = length al ^ o /\
  (forall i, i < length al ^ o -> nth_error (cond_chars M) i = Some (ith_string al o i)) /\
  (forall s, (exists i, nth_error (cond_chars M) i = Some s) <-> length s = o /\ Forall (fun c => In c al) s) /\
  (NoDup al -> (forall s i, cond_index M s = Some i <-> nth_error (cond_chars M) i = Some s) /\
               (forall c i, char_index M c = Some i <-> nth_error al i = Some c)).
Proof.
  destruct (text_init_ok al e o) as (M & E & E1 & E2 & E3 & E4 & HD). exists M.
  split; [exact E|]. split; [exact E1|]. split; [exact E2|]. split; [exact E3|]. rewrite E4. split; [apply vec_length|].
  split; [intros i Hi; apply vec_nth, Hi|].
  assert (V : forall i s, nth_error (vec (length al ^ o) (ith_string al o)) i = Some s <-> i < length al ^ o /\ ith_string al o i = s).
  { intros i s. split.
    - intros H. assert (Hi : i < length al ^ o) by (rewrite <- (vec_length (length al ^ o) (ith_string al o)); apply nth_error_Some; congruence).
      rewrite vec_nth in H by exact Hi. split; [exact Hi|congruence].
    - intros [Hi <-]. apply vec_nth, Hi. }
  split.
  - intros s. split.
    + intros [i H]. apply V in H as [Hi <-]. split; [apply ith_string_length|apply ith_string_in, Hi].
    + intros [Hl HF]. destruct (ith_string_surj al o s Hl HF) as (i & Hi & Es). exists i. apply V. auto.
  - intros ND. destruct (HD ND) as [H1 H2]. split; [|exact H1]. intros s i. rewrite H2. symmetry. apply V.
Qed.
