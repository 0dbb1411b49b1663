(** Lemmas on the text model: bounds, errors, conversion, noise and decoding (C58). *)
From Coq Require Import List Arith Bool Reals Lra Lia.
From Verif Require Import ScanModel Ord FscModel FscSpec FscCore FscProofs VitSpec VitModel VitProofs MarkovModel MarkovSpec MarkovFm MarkovGe MarkovText MarkovText2 MarkovText3.
Import ListNotations.

Section Tm4.
Variable al : str.
Variable e : R.
Variable o : nat.
Variable M : text_model.
Hypothesis HM : text_init al e o = Some M.
Let n := length al.

(** *** each context is followed by n contexts *)
Lemma mod_div i p t : 0 < n -> t < p -> ((i mod n ^ p) / n ^ t) mod n = (i / n ^ t) mod n.
Proof.
  intros Hn Ht. pose proof (pow_pos n Hn t) as P1. pose proof (pow_pos n Hn p) as P2.
  assert (E : n ^ p = n ^ t * (n * n ^ (p - t - 1))) by (rewrite <- Nat.pow_succ_r', <- Nat.pow_add_r; f_equal; lia).
  assert (Hi : i = (n ^ (p - t - 1) * (i / n ^ p) * n) * n ^ t + i mod n ^ p).
  { rewrite (Nat.div_mod i (n ^ p)) at 1 by lia. rewrite E at 1. ring. }
  assert (Hd : i / n ^ t = n ^ (p - t - 1) * (i / n ^ p) * n + (i mod n ^ p) / n ^ t).
  { rewrite Hi at 1. apply Nat.div_add_l. lia. }
  rewrite Hd, Nat.add_comm, Nat.mod_add by lia. reflexivity.
Qed.
Lemma succ_overlap p i j : 0 < n -> j / n = i mod n ^ p -> tl (ith_string al (S p) i) = removelast (ith_string al (S p) j).
Proof.
  intros Hn Hj. rewrite (ith_string_digits al (S p) j). fold n. rewrite digits_S by exact Hn. rewrite map_app. simpl map.
  rewrite removelast_last. unfold ith_string. fold n. rewrite <- cons_seq. simpl tl. rewrite <- seq_shift, map_map.
  unfold digits, vec. rewrite map_map. apply map_ext_in. intros t Ht. apply in_seq in Ht. f_equal.
  rewrite Hj, mod_div by lia. do 3 f_equal. lia.
Qed.

Lemma row_total_ge text i : 1 <= o -> i < n ^ o -> (INR n <= total (map (context_weight al text o i) (seq 0 (n ^ o))))%R.
Proof.
  intros Ho Hi. assert (Hn : 0 < n) by (destruct (pow_n_pos al o i Hi); [assumption|lia]).
  destruct o as [|p] eqn:Eo; [lia|]. change (map (context_weight al text (S p) i) (seq 0 (n ^ S p))) with (vec (n ^ S p) (context_weight al text (S p) i)).
  replace (n ^ S p) with (n ^ p * n) by (simpl; lia). rewrite total_vec_mul.
  assert (W : forall j, (0 <= context_weight al text (S p) i j)%R).
  { intros j. unfold context_weight. cbv zeta. pose proof floor_pos. destruct (list_eq_dec _ _ _); [|lra].
    pose proof (pos_INR (occurrences (ith_string al (S p) i ++ [last (ith_string al (S p) j) 0]) text)). lra. }
  assert (Hq : i mod n ^ p < n ^ p) by (apply Nat.mod_upper_bound; pose proof (pow_pos n Hn p); lia).
  eapply Rle_trans; [|apply (total_vec_ge (n ^ p) _ (i mod n ^ p))].
  - cbv beta. eapply Rle_trans; [|apply (total_vec_le n (fun _ => 1%R))].
    + rewrite total_const. lra.
    + intros c Hc. unfold context_weight. cbv zeta. pose proof floor_pos. destruct (list_eq_dec _ _ _) as [_|Nov].
      * pose proof (pos_INR (occurrences (ith_string al (S p) i ++ [last (ith_string al (S p) (i mod n ^ p * n + c)) 0]) text)). lra.
      * exfalso. apply Nov. apply succ_overlap; [exact Hn|]. rewrite Nat.div_add_l by lia. rewrite Nat.div_small by exact Hc. lia.
  - intros q _. apply total_vec_nonneg. intros c _. apply W.
  - exact Hq.
Qed.

Lemma last_ith i : 1 <= o -> 0 < n -> last (ith_string al o i) 0 = nth (i mod n) al 0.
Proof.
  intros Ho Hn. destruct o as [|p]; [lia|]. rewrite (ith_string_digits al (S p) i). fold n. rewrite digits_S by exact Hn.
  rewrite map_app. simpl map. apply last_last.
Qed.

Hypothesis ND : NoDup al.

(** *** conversion *)
Lemma toIndex_iff text ys : textToIndex M text = Some ys <-> Forall2 (fun c y => nth_error al y = Some c) text ys.
Proof.
  unfold textToIndex. revert ys; induction text as [|c text IH]; intros ys; simpl.
  - split; [intros [= <-]; constructor|]. intros H. inversion H. reflexivity.
  - split.
    + destruct (char_index M c) as [i|] eqn:E; [|discriminate]. destruct (mapM (char_index M) text) as [r|]; [|discriminate].
      intros [= <-]. constructor; [apply (ci al e o M HM ND), E|]. apply IH. reflexivity.
    + intros H. inversion H as [|? y ? ys' H1 H2]; subst. rewrite (proj2 (ci al e o M HM ND c y) H1).
      rewrite (proj2 (IH ys') H2). reflexivity.
Qed.
Lemma toIndex_some text : over al text -> exists ys, textToIndex M text = Some ys.
Proof.
  intros H. unfold textToIndex. induction H as [|c text Hc H [ys IH]]; simpl; [eauto|].
  destruct (ci_in al e o M HM ND c Hc) as (i & _ & -> & _). rewrite IH. eauto.
Qed.
Lemma toIndex_none text : textToIndex M text = None <-> ~ over al text.
Proof.
  split.
  - intros E H. destruct (toIndex_some text H) as [ys E']. congruence.
  - intros H. destruct (textToIndex M text) as [ys|] eqn:E; [|reflexivity]. exfalso. apply H. apply toIndex_iff in E.
    clear H. unfold over. induction E as [|c y text ys H E IH]; constructor; [eapply nth_error_In, H|exact IH].
Qed.
Lemma toIndex_symbols text ys : textToIndex M text = Some ys -> symbols n ys /\ length ys = length text.
Proof.
  intros E. apply toIndex_iff in E. split; [|clear -E; induction E; simpl; congruence].
  unfold symbols. induction E; constructor; [apply nth_error_Some; congruence|assumption].
Qed.
Lemma toText_toIndex text ys : textToIndex M text = Some ys -> indexToText M ys = Some text.
Proof.
  intros E. apply toIndex_iff in E. unfold indexToText. rewrite (M_chars al e o M HM). fold n.
  induction E as [|c y text ys H E IH]; [reflexivity|]. simpl.
  rewrite Nat.mod_small by (apply nth_error_Some; congruence). rewrite H, IH. reflexivity.
Qed.
Lemma toText_vec ys : 0 < n -> indexToText M ys = Some (map (fun y => nth (y mod n) al 0) ys).
Proof.
  intros Hn. unfold indexToText. rewrite (M_chars al e o M HM). fold n. apply mapM_map. intros y _. apply nth_error_nth'.
  apply Nat.mod_upper_bound. lia.
Qed.
Lemma toIndex_toText ys : 0 < n -> exists t, indexToText M ys = Some t /\ textToIndex M t = Some (map (fun y => y mod n) ys).
Proof.
  intros Hn. rewrite toText_vec by exact Hn. eexists. split; [reflexivity|]. apply toIndex_iff.
  induction ys; simpl; constructor; [|assumption]. apply nth_error_nth'. apply Nat.mod_upper_bound. lia.
Qed.
Lemma toText_context xs : 1 <= o -> 0 < n -> indexToText M xs = Some (map (fun i => last (ith_string al o i) 0) xs).
Proof. intros Ho Hn. rewrite toText_vec by exact Hn. f_equal. apply map_ext. intros i. symmetry. apply last_ith; assumption. Qed.

(** *** errors *)
Lemma for_none_inv {S} (body : nat -> S -> option S) a K s (Bad : Prop) :
  (forall s', for_ (seq a K) body s = Some s' -> Bad) -> ~ Bad -> for_ (seq a K) body s = None.
Proof. intros H NB. destruct (for_ (seq a K) body s) as [s'|]; [exfalso; eapply NB, H; reflexivity|reflexivity]. Qed.

Lemma over_nth text : (forall t, t < length text -> In (nth t text 0) al) -> over al text.
Proof. intros H. unfold over. apply Forall_forall. intros c Hc. apply (In_nth _ _ 0) in Hc as (t & Ht & <-). auto. Qed.

Lemma prior1_none text : ~ over al text -> get1stOrderPrior M text = None.
Proof.
  intros H. unfold get1stOrderPrior.
  rewrite (for_none_inv _ _ _ _ (over al text)); [reflexivity| |exact H].
  intros s' E. apply over_nth.
  apply (for_some (fun k (_ : list R) => True /\ forall t, t < k -> In (nth t text 0) al)) in E; [apply E|split; [exact I|intros; lia]|].
  intros k s s1 Hk [_ HI] Eb. split; [exact I|]. intros t Ht. destruct (Nat.eq_dec t k) as [->|]; [|apply HI; lia].
  rewrite (text_nth text k) in Eb by lia. destruct (char_index M (nth k text 0)) as [i|] eqn:Ei; [|discriminate].
  eapply ci_none; eassumption.
Qed.
Lemma Pi1_none text : text = [] \/ (2 <= length text /\ ~ over al text) -> get1stOrderPi M text = None.
Proof.
  intros [->|[Hl H]]; [reflexivity|]. unfold get1stOrderPi. rewrite (text_nth text 0) by lia.
  rewrite (for_none_inv _ _ _ _ (over al text)); [reflexivity| |exact H].
  intros s' E. apply over_nth. intros t Ht.
  apply (for_some (fun k (s : nat * list (list R)) => fst s = nth (k - 1) text 0 /\ 1 <= k /\ (2 <= k -> forall t, t < k -> In (nth t text 0) al))) in E.
  - destruct E as (_ & _ & E). apply E; lia.
  - split; [reflexivity|]. split; [lia|]. intros; lia.
  - intros k [c0 P] s1 Hk (Hc & Hk1 & HI) Eb. simpl in Hc. subst c0. rewrite (text_nth text k) in Eb by lia.
    destruct (char_index M (nth (k - 1) text 0)) as [i0|] eqn:E0; [|discriminate].
    destruct (char_index M (nth k text 0)) as [i1|] eqn:E1; [|discriminate].
    destruct (add2 P i0 i1 1%R); [|discriminate]. injection Eb as <-. simpl. rewrite Nat.sub_0_r. split; [reflexivity|]. split; [lia|].
    intros _ u Hu. destruct (Nat.eq_dec u k) as [->|]; [eapply ci_none; eassumption|].
    destruct (Nat.eq_dec u (k - 1)) as [->|]; [eapply ci_none; eassumption|]. apply HI; lia.
Qed.

Lemma win_nth_over text L t : over al (win text L t) -> t + L <= length text -> forall u, t <= u < t + L -> In (nth u text 0) al.
Proof.
  intros H Hl u Hu. unfold over in H. rewrite Forall_forall in H. apply H. unfold win.
  replace (nth u text 0) with (nth (u - t) (firstn L (skipn t text)) 0).
  - apply nth_In. rewrite firstn_length, skipn_length. lia.
  - rewrite <- (firstn_skipn t text) at 2. rewrite app_nth2 by (rewrite firstn_length; lia).
    rewrite firstn_length. replace (Nat.min t (length text)) with t by lia.
    rewrite <- (firstn_skipn L (skipn t text)) at 2. rewrite app_nth1; [reflexivity|]. rewrite firstn_length, skipn_length. lia.
Qed.
Lemma priorN_none text : 1 <= o -> o <= length text -> ~ over al text -> getNthOrderPrior M text = None.
Proof.
  intros Ho Hl H. unfold getNthOrderPrior. rewrite (M_order al e o M HM).
  rewrite (for_none_inv _ _ _ _ (over al text)); [reflexivity| |exact H].
  intros s' E. apply over_nth. intros t Ht.
  apply (for_some (fun k (_ : list R) => True /\ forall t, t < k -> over al (win text o t))) in E.
  - destruct E as [_ E]. destruct (Nat.lt_ge_cases t (length text - o)) as [A|A].
    + apply (win_nth_over text o t); [apply E; lia|lia|lia].
    + apply (win_nth_over text o (length text - o)); [apply E; lia|lia|lia].
  - split; [exact I|]. intros; lia.
  - intros k s s1 Hk [_ HI] Eb. split; [exact I|]. intros u Hu. destruct (Nat.eq_dec u k) as [->|]; [|apply HI; lia].
    fold (win text o k) in Eb. destruct (cond_index M (win text o k)) as [i|] eqn:Ei; [|discriminate].
    eapply (di_over al e o M HM ND), Ei.
Qed.
Lemma PiN_none text : 1 <= o -> o < length text -> ~ over al text -> getNthOrderPi M text = None.
Proof.
  intros Ho Hl H. unfold getNthOrderPi. rewrite (M_order al e o M HM), (M_chars al e o M HM). rewrite (base_tab al e o M HM text).
  rewrite (for_none_inv _ _ _ _ (over al text)); [reflexivity| |exact H].
  intros s' E. apply over_nth. intros t Ht.
  apply (for_some (fun k (s : str * list (list R)) => o <= k /\ fst s = win text o (k - o) /\
     (o < k -> forall t, t <= k - o -> over al (win text o t)))) in E.
  - destruct E as (_ & _ & E). replace (o + (length text - o) - o) with (length text - o) in E by lia.
    destruct (Nat.lt_ge_cases t (length text - o)) as [A|A].
    + apply (win_nth_over text o t); [apply E; lia|lia|lia].
    + apply (win_nth_over text o (length text - o)); [apply E; lia|lia|lia].
  - split; [lia|]. split; [rewrite Nat.sub_diag; reflexivity|]. intros; lia.
  - intros k [c0 P] s1 Hk (Hk1 & Hc & HI) Eb. simpl in Hc. subst c0. rewrite (text_nth text k) in Eb by lia.
    rewrite slice1 in Eb.
    assert (EW : tl (win text o (k - o)) ++ [nth k text 0] = win text o (S k - o)).
    { destruct o as [|o']; [lia|]. replace (S k - S o') with (S (k - S o')) by lia. rewrite win_next by lia. do 3 f_equal. lia. }
    rewrite EW in Eb.
    destruct (cond_index M (win text o (k - o))) as [i0|] eqn:E0; [|discriminate].
    destruct (cond_index M (win text o (S k - o))) as [i1|] eqn:E1; [|discriminate].
    destruct (add2 P i0 i1 1%R); [|discriminate]. injection Eb as <-. cbn [fst]. split; [lia|]. split; [reflexivity|].
    intros _ u Hu. destruct (Nat.eq_dec u (S k - o)) as [->|]; [eapply (di_over al e o M HM ND), E1|].
    destruct (Nat.eq_dec u (k - o)) as [->|]; [eapply (di_over al e o M HM ND), E0|]. apply HI; lia.
Qed.

(** *** noise *)
Lemma noisy u text : probability e -> over al text -> (forall i, unit_draw (u i)) ->
  exists t' ys ks, makeNoisyText M u text = Some t' /\ textToIndex M text = Some ys /\ textToIndex M t' = Some ks /\
    length t' = length text /\ over al t' /\
    forall i, i < length text -> exists row, nth_error (get1stOrderPo M) (nth i ys 0) = Some row /\ in_slot row (nth i ks 0) (u i).
Proof.
  intros He HO HU. destruct (toIndex_some text HO) as [ys Ey].
  pose proof (proj1 (toIndex_iff text ys) Ey) as F. destruct (toIndex_symbols text ys Ey) as [Sy Ly].
  destruct (for_inv (fun k t' => exists ks, textToIndex M t' = Some ks /\ length t' = k /\
      forall i, i < k -> exists row, nth_error (get1stOrderPo M) (nth i ys 0) = Some row /\ in_slot row (nth i ks 0) (u i))
    (fun i t => do c <- nth_error text i; do j <- char_index M c;
       do p <- nth_error (get1stOrderPo M) j; do k <- choice p (u i); do c' <- nth_error (chars M) k;
       Some (t ++ [c'])) (length text) 0 []) as (t' & E & ks & Ek & Lk & Hk).
  - exists []. split; [reflexivity|]. split; [reflexivity|]. intros; lia.
  - intros k t Hk (ks & Ek & Lk & Hs). rewrite (text_nth text k) by lia.
    assert (Hy : nth_error al (nth k ys 0) = Some (nth k text 0)).
    { assert (G : forall a b, Forall2 (fun c y => nth_error al y = Some c) a b -> forall k, k < length a -> nth_error al (nth k b 0) = Some (nth k a 0)).
      { clear. intros a b H. induction H as [|c y a b H1 H2 IH]; intros k Hk; simpl in Hk; [lia|].
        destruct k; [exact H1|]. simpl. apply IH. lia. }
      apply G; [exact F|lia]. }
    rewrite (proj2 (ci al e o M HM ND _ _) Hy).
    assert (Hyn : nth k ys 0 < n) by (apply nth_error_Some; congruence).
    assert (ER : nth_error (get1stOrderPo M) (nth k ys 0) = Some (vec n (po al e (nth k ys 0)))).
    { rewrite (Po1 al e o M HM). unfold tab. fold n. rewrite vec_nth by exact Hyn. reflexivity. }
    rewrite ER. destruct (choice_spec (vec n (po al e (nth k ys 0))) (u k)) as (j & -> & Hj & Sj).
    + apply po_distribution; assumption.
    + apply HU.
    + rewrite vec_length in Hj. rewrite (M_chars al e o M HM). rewrite (nth_error_nth' al 0) by exact Hj.
      eexists. split; [reflexivity|]. exists (ks ++ [j]).
      pose proof (proj2 (toIndex_symbols _ _ Ek)) as Lks.
      split; [|split].
      * apply toIndex_iff. apply Forall2_app; [apply toIndex_iff, Ek|]. constructor; [apply nth_error_nth'; exact Hj|constructor].
      * rewrite app_length. simpl. lia.
      * intros i Hi. destruct (Nat.eq_dec i k) as [->|].
        -- exists (vec n (po al e (nth k ys 0))). split; [exact ER|].
           rewrite app_nth2 by lia. replace (k - length ks) with 0 by lia. exact Sj.
        -- rewrite app_nth1 by lia. apply Hs. lia.
  - exists t', ys, ks. split; [exact E|]. split; [exact Ey|]. split; [exact Ek|]. split; [exact Lk|].
    assert (HO' : over al t').
    { destruct (Forall_dec (fun c => In c al) (fun c => in_dec Nat.eq_dec c al) t') as [Y|Nn]; [exact Y|].
      apply toIndex_none in Nn. congruence. }
    split; [exact HO'|]. intros i Hi. apply Hk. lia.
Qed.

Lemma no_noise u text : e = 0%R -> over al text -> (forall i, unit_draw (u i)) -> makeNoisyText M u text = Some text.
Proof.
  intros E0 HO HU. assert (He : probability e) by (unfold probability; lra).
  destruct (noisy u text He HO HU) as (t' & ys & ks & E & Ey & Ek & Lt & _ & H). rewrite E. f_equal.
  destruct (toIndex_symbols _ _ Ey) as [Sy Ly]. destruct (toIndex_symbols _ _ Ek) as [Sk Lk].
  assert (ks = ys).
  { apply (nth_ext ks ys 0 0); [lia|]. intros i Hi. destruct (H i ltac:(lia)) as (row & Er & Hs).
    rewrite (Po1 al e o M HM) in Er.
    assert (Hy : nth i ys 0 < n) by (unfold symbols in Sy; rewrite Forall_forall in Sy; apply Sy, nth_In; lia).
    assert (Hki : nth i ks 0 < n) by (unfold symbols in Sk; rewrite Forall_forall in Sk; apply Sk, nth_In; lia).
    unfold tab in Er. rewrite vec_nth in Er by exact Hy. injection Er as <-.
    apply slot_pos in Hs. rewrite (nth_error_nth _ _ 0%R (vec_nth n _ _ Hki)) in Hs. unfold po in Hs. rewrite E0 in Hs.
    destruct (Nat.eqb_spec (nth i ys 0) (nth i ks 0)) as [->|]; [reflexivity|]. exfalso. unfold Rdiv in Hs. lra. }
  subst ks. apply toText_toIndex in Ey. apply toText_toIndex in Ek. congruence.
Qed.

(** *** decoding *)
Lemma decode train test : (0 < e <= 1)%R -> 1 <= o -> over al train -> over al test -> test <> [] ->
  exists prior P ys est Vs, getNthOrderPrior M train = Some prior /\ getNthOrderPi M train = Some P /\
    textToIndex M test = Some ys /\
    seqViterbi prior P (getNthOrderPo M) ys = Some (est, Vs) /\ MAP (n ^ o) prior P (getNthOrderPo M) ys est /\
    indexToText M est = Some (map (fun i => last (ith_string al o i) 0) est).
Proof.
  intros He Ho HOt HO Hne.
  assert (Hn : 0 < n). { destruct test as [|c t]; [congruence|]. pose proof (Forall_inv HO) as Q. cbv beta in Q. unfold n. destruct (length al) eqn:E; [apply length_zero_iff_nil in E; rewrite E in Q; destruct Q|lia]. }
  destruct (priorN al e o M HM ND train (or_introl HOt) Hn) as (prior & E1 & Lp & Pp & _).
  destruct (PiN al e o M HM ND train Ho (or_introl HOt) Hn) as (P & E2 & TP & _).
  destruct (toIndex_some test HO) as [ys Ey]. destruct (toIndex_symbols _ _ Ey) as [Sy Ly].
  assert (MO : model_ok (fun x => (0 < x)%R) (n ^ o) n prior P (getNthOrderPo M)).
  { split; [pose proof (pow_pos n Hn o); lia|]. split; [exact Lp|]. split; [exact Pp|]. split; [exact TP|].
    rewrite (PoN al e o M HM Ho). apply tab_table'. intros i j Hi Hj. apply po_pos; [exact He|]. apply Nat.mod_upper_bound. fold n. lia. }
  destruct (C17_seq (n ^ o) n prior P (getNthOrderPo M) ys MO Sy) as (est & Vs & E3 & E4 & _).
  { intros ->. simpl in Ly. destruct test; [congruence|discriminate]. }
  exists prior, P, ys, est, Vs. split; [exact E1|]. split; [exact E2|]. split; [exact Ey|]. split; [exact E3|]. split; [exact E4|].
  apply toText_context; assumption.
Qed.
End Tm4.
