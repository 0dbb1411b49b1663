(** Lemmas on the text model: the tables and conversions in terms of occurrences (C58). *)
From Coq Require Import List Arith Bool Reals Lra Lia.
From Verif Require Import ScanModel Ord FscModel FscSpec FscCore FscProofs VitSpec VitModel VitProofs MarkovModel MarkovSpec MarkovFm MarkovGe MarkovText MarkovText2.
Import ListNotations.

Lemma eqb_dec_iff (b : bool) (P : Prop) (d : {P} + {~ P}) : (b = true <-> P) -> b = if d then true else false.
Proof. intros H. destruct d as [p|np]; [apply H, p|]. destruct b; [exfalso; apply np, H; reflexivity|reflexivity]. Qed.

Section Tm.
Variable al : str.
Variable e : R.
Variable o : nat.
Variable M : text_model.
Hypothesis HM : text_init al e o = Some M.
Let n := length al.

Lemma facts : text_facts al e o M.
Proof. destruct (text_init_ok al e o) as (M' & E & F). rewrite HM in E. injection E as ->. exact F. Qed.
Lemma M_chars : chars M = al. Proof. apply facts. Qed.
Lemma M_errp : errp M = e. Proof. apply facts. Qed.
Lemma M_order : order M = o. Proof. apply facts. Qed.
Lemma M_cond : cond_chars M = vec (n ^ o) (ith_string al o). Proof. apply facts. Qed.

Lemma in_pos c : In c al -> 0 < n.
Proof. unfold n. destruct al; [intros []|simpl; lia]. Qed.

(** *** output tables *)
Definition po (i j : nat) : R := ((if (i =? j) then 1 - e else 0) + e / INR n)%R.
Lemma Po1 : get1stOrderPo M = tab n n po.
Proof.
  unfold get1stOrderPo. rewrite M_chars, M_errp. fold n. apply tab_ext. intros i j Hi Hj. unfold po. f_equal.
  rewrite repeat_vec, normalise_vec, total_const.
  rewrite (nth_error_nth _ j 0%R (vec_nth n _ j Hj)). field. apply not_0_INR. lia.
Qed.
Lemma po_sum i : i < n -> total (vec n (po i)) = 1%R.
Proof.
  intros Hi. assert (Hn : INR n <> 0%R) by (apply not_0_INR; lia).
  assert (E : forall N, total (vec N (po i)) = (total (vec N (fun j => if j =? i then 1 - e else 0)) + total (vec N (fun _ => e / INR n)))%R).
  { induction N as [|N IH]; [simpl; lra|]. rewrite !total_vec_S, IH. unfold po. rewrite (Nat.eqb_sym i N). destruct (N =? i); lra. }
  rewrite E, total_single, total_const by exact Hi. field. exact Hn.
Qed.
Lemma concat_repeat {X} (P : list X) k i : i < k * length P -> nth_error (concat (repeat P k)) i = nth_error P (i mod length P).
Proof.
  intros H. assert (L : 0 < length P) by (destruct (length P); lia).
  revert i H; induction k as [|k IH]; intros i H; [lia|]. simpl.
  destruct (Nat.lt_ge_cases i (length P)) as [Hi|Hi].
  - rewrite nth_error_app1 by exact Hi. rewrite Nat.mod_small by exact Hi. reflexivity.
  - rewrite nth_error_app2 by exact Hi. rewrite IH by (simpl in H; lia). f_equal.
    replace i with ((i - length P) + 1 * length P) at 2 by lia. rewrite Nat.mod_add by lia. reflexivity.
Qed.
Lemma concat_length {X} (P : list X) k : length (concat (repeat P k)) = k * length P.
Proof. induction k; simpl; [reflexivity|]. rewrite app_length. lia. Qed.
Lemma tile_tab {X} k m (g : nat -> nat -> X) c : concat (repeat (tab k c g) m) = tab (m * k) c (fun i => g (i mod k)).
Proof.
  destruct (Nat.eq_dec k 0) as [->|Hk].
  { rewrite Nat.mul_0_r. unfold tab, vec. simpl. induction m; simpl; auto. }
  induction m as [|m IH]; [reflexivity|]. simpl. rewrite IH. clear IH.
  unfold tab, vec. rewrite seq_app, map_app. f_equal.
  - apply map_ext_in. intros i Hi. apply in_seq in Hi. rewrite Nat.mod_small by lia. reflexivity.
  - simpl. assert (G : forall a b, map (fun i => map (g (i mod k)) (seq 0 c)) (seq a b) = map (fun i => map (g (i mod k)) (seq 0 c)) (seq (k + a) b)).
    { intros a b. revert a; induction b as [|b IHb]; intros a; [reflexivity|]. simpl. f_equal.
      - replace (k + a) with (a + 1 * k) by lia. rewrite Nat.mod_add by lia. reflexivity.
      - rewrite IHb. do 2 f_equal. lia. }
    rewrite (G 0). rewrite Nat.add_0_r. reflexivity.
Qed.
Lemma PoN : 1 <= o -> getNthOrderPo M = tab (n ^ o) n (fun i => po (i mod n)).
Proof.
  intros Ho. unfold getNthOrderPo. rewrite M_order, M_chars, Po1. fold n. destruct (Nat.ltb_spec 1 o) as [H|H].
  - rewrite tile_tab. f_equal. rewrite <- (Nat.sub_add 1 o) at 2 by exact Ho. rewrite Nat.add_1_r. simpl. lia.
  - assert (o = 1) by lia. subst o. rewrite Nat.pow_1_r. apply tab_ext. intros i j Hi _. rewrite Nat.mod_small by exact Hi. reflexivity.
Qed.
Lemma po_distribution i : probability e -> i < n -> distribution (vec n (po i)).
Proof.
  intros He Hi. split; [|apply po_sum, Hi]. apply Forall_forall. intros p Hp. apply vec_in in Hp as (j & Hj & ->).
  unfold po, probability in *. assert (0 < INR n)%R by (apply lt_0_INR; lia).
  assert (0 <= e / INR n)%R by (apply Rmult_le_pos; [lra|left; apply Rinv_0_lt_compat; assumption]).
  destruct (i =? j); lra.
Qed.

Lemma po_pos i j : (0 < e <= 1)%R -> i < n -> (0 < po i j)%R.
Proof.
  intros He Hi. unfold po. assert (0 < INR n)%R by (apply lt_0_INR; lia).
  assert (0 < e / INR n)%R by (apply Rdiv_lt_0_compat; lra). destruct (i =? j); lra.
Qed.

Hypothesis ND : NoDup al.
Lemma ci c i : char_index M c = Some i <-> nth_error al i = Some c.
Proof. apply (proj2 (proj2 (proj2 (proj2 facts))) ND). Qed.
Lemma di s i : cond_index M s = Some i <-> i < n ^ o /\ ith_string al o i = s.
Proof. apply (proj2 (proj2 (proj2 (proj2 facts))) ND). Qed.
Lemma ci_in c : In c al -> exists i, i < n /\ char_index M c = Some i /\ nth i al 0 = c.
Proof.
  intros H. apply In_nth_error in H as [i Hi]. exists i. split; [apply nth_error_Some; congruence|].
  split; [apply ci, Hi|]. apply nth_error_nth with (d := 0) in Hi. exact Hi.
Qed.
Lemma ci_none c i : char_index M c = Some i -> In c al.
Proof. intros H. apply ci in H. eapply nth_error_In, H. Qed.
Lemma di_in s : length s = o -> over al s -> exists i, i < n ^ o /\ cond_index M s = Some i /\ ith_string al o i = s.
Proof.
  intros Hl HF. destruct (ith_string_surj al o s Hl HF) as (i & Hi & E). exists i. split; [exact Hi|]. split; [|exact E]. apply di. auto.
Qed.
Lemma di_over s i : cond_index M s = Some i -> length s = o /\ over al s.
Proof.
  intros H. apply di in H as [Hi <-]. split; [apply ith_string_length|apply ith_string_in, Hi].
Qed.

Section Train.
Variable text : str.
Let len := length text.

Definition cix (t : nat) : nat := match char_index M (nth t text 0) with Some i => i | None => 0 end.
Lemma cix_ok t : over al text -> t < len -> cix t < n /\ char_index M (nth t text 0) = Some (cix t) /\ nth (cix t) al 0 = nth t text 0.
Proof.
  intros HO Ht. unfold over in HO. rewrite Forall_forall in HO. destruct (ci_in (nth t text 0)) as (i & Hi & E & E').
  - apply HO, nth_In, Ht.
  - unfold cix. rewrite E. auto.
Qed.
Lemma cix_eq t i : over al text -> t < len -> i < n -> (cix t =? i) = true <-> nth t text 0 = nth i al 0.
Proof.
  intros HO Ht Hi. destruct (cix_ok t HO Ht) as (H1 & _ & H2). rewrite Nat.eqb_eq. split; [intros <-; symmetry; exact H2|].
  intros E. apply (nth_inj al ND); [exact H1|exact Hi|congruence].
Qed.
Lemma text_nth t : t < len -> nth_error text t = Some (nth t text 0).
Proof. intros H. apply nth_error_nth'. exact H. Qed.

(** *** first-order prior *)
Lemma prior1 : over al text -> 0 < n ->
  exists p, get1stOrderPrior M text = Some p /\ proportional n (fun i => 1 + INR (occurrences [nth i al 0%nat] text))%R p.
Proof.
  intros HO Hn. unfold get1stOrderPrior. rewrite M_chars. fold n len. rewrite repeat_vec.
  rewrite (count1 n (fun _ => 1%R) cix).
  - eexists. split; [reflexivity|]. apply normalise_proportional; [| |exact Hn].
    + intros i Hi. rewrite occ_hits. simpl length. f_equal. f_equal. replace (length text + 1 - 1) with len by (unfold len; lia).
      apply hits_ext. intros t Ht. apply eqb_dec_iff. rewrite cix_eq by assumption. rewrite win_S by exact Ht. unfold win. simpl.
      split; [intros ->; reflexivity|intros [= ->]; reflexivity].
    + intros i _. pose proof (pos_INR (occurrences [nth i al 0] text)). lra.
  - intros t Ht. destruct (cix_ok t HO Ht) as (H1 & H2 & _). split; [exact H1|]. intros p. rewrite text_nth by exact Ht. rewrite H2. reflexivity.
Qed.

(** *** first-order transitions *)
Lemma Pi1 : over al text -> 0 < len ->
  exists P, get1stOrderPi M text = Some P /\ rows_proportional n n (pair_weight al text) P.
Proof.
  intros HO Hl. unfold get1stOrderPi. rewrite M_chars. fold n len. rewrite text_nth by exact Hl.
  assert (Hn : 0 < n). { destruct (cix_ok 0 HO Hl) as [H _]. lia. }
  rewrite !repeat_vec. change (vec n (fun _ => vec n (fun _ => 1%R))) with (tab n n (fun _ _ => 1%R)).
  rewrite (count2 n (fun _ _ => 1%R) cix (fun t => nth t text 0)).
  - eexists. split; [reflexivity|]. cbn [snd]. apply normalise_rows; [| |exact Hn].
    + intros i j Hi Hj. unfold pair_weight. rewrite occ_hits. cbn [length]. f_equal. f_equal.
      replace (length text + 1 - 2) with (len - 1) by (unfold len; lia). apply hits_ext. intros t Ht. apply eqb_dec_iff.
      rewrite andb_true_iff, !cix_eq by (try assumption; lia). rewrite !win_S by (fold len; lia). unfold win. simpl.
      split; [intros [-> ->]; reflexivity|intros [= -> ->]; auto].
    + intros i j _ _. unfold pair_weight. pose proof (pos_INR (occurrences [nth i al 0; nth j al 0] text)). lra.
  - intros t Ht. destruct (cix_ok t HO ltac:(lia)) as (A1 & A2 & _). destruct (cix_ok (S t) HO ltac:(lia)) as (B1 & B2 & _).
    split; [exact A1|]. split; [exact B1|]. intros P. change (1 + t) with (S t). rewrite text_nth by lia. rewrite A2, B2. reflexivity.
Qed.

(** *** contexts *)
Definition dix (t : nat) : nat := match cond_index M (win text o t) with Some i => i | None => 0 end.
Lemma dix_ok t : over al text -> t + o <= len ->
  dix t < n ^ o /\ cond_index M (win text o t) = Some (dix t) /\ ith_string al o (dix t) = win text o t.
Proof.
  intros HO Ht. destruct (di_in (win text o t)) as (i & Hi & E & E').
  - apply win_length, Ht.
  - apply win_over, HO.
  - unfold dix. rewrite E. auto.
Qed.
Lemma dix_eq t i : over al text -> t + o <= len -> i < n ^ o -> (dix t =? i) = true <-> win text o t = ith_string al o i.
Proof.
  intros HO Ht Hi. destruct (dix_ok t HO Ht) as (H1 & _ & H2). rewrite Nat.eqb_eq. split; [intros <-; symmetry; exact H2|].
  intros E. apply (ith_string_inj al o ND); [exact H1|exact Hi|congruence].
Qed.

Lemma priorN : over al text \/ len < o -> 0 < n ->
  exists p, getNthOrderPrior M text = Some p /\ proportional (n ^ o) (fun i => 1 + INR (occurrences (ith_string al o i) text))%R p.
Proof.
  intros HO Hn. unfold getNthOrderPrior. rewrite M_chars, M_order. fold n len. rewrite repeat_vec.
  rewrite (count1 (n ^ o) (fun _ => 1%R) dix).
  - eexists. split; [reflexivity|]. apply normalise_proportional; [| |apply pow_pos; exact Hn].
    + intros i Hi. rewrite occ_hits, ith_string_length. f_equal. f_equal. fold len.
      apply hits_ext. intros t Ht. destruct HO as [HO|HO]; [|lia]. apply eqb_dec_iff. apply dix_eq; [exact HO|lia|exact Hi].
    + intros i _. pose proof (pos_INR (occurrences (ith_string al o i) text)). lra.
  - intros t Ht. destruct HO as [HO|HO]; [|lia]. destruct (dix_ok t HO ltac:(lia)) as (H1 & H2 & _). split; [exact H1|]. intros p.
    fold (win text o t). rewrite H2. reflexivity.
Qed.

Lemma slice1 s : slice_drop1 s = tl s. Proof. destruct s; reflexivity. Qed.
Lemma slice2 s : slice_droplast s = removelast s.
Proof. unfold slice_droplast. rewrite removelast_firstn_len. f_equal. lia. Qed.

Definition ovl (i j : nat) : bool := str_eqb (slice_drop1 (ith_string al o i)) (slice_droplast (ith_string al o j)).
Lemma ovl_iff i j : ovl i j = true <-> tl (ith_string al o i) = removelast (ith_string al o j).
Proof. unfold ovl. rewrite slice1, slice2. apply str_eqb_eq. Qed.

Lemma base_tab (c : R) :
  for_ (seq 0 (n ^ o)) (fun i => for_ (seq 0 (n ^ o)) (fun j Pi =>
        do c0 <- nth_error (cond_chars M) i; do c1 <- nth_error (cond_chars M) j;
        if str_eqb (slice_drop1 c0) (slice_droplast c1) then add2 Pi i j 1%R else Some Pi))
     (repeat (repeat c (n ^ o)) (n ^ o))
  = Some (tab (n ^ o) (n ^ o) (fun i j => c + if ovl i j then 1 else 0)%R).
Proof.
  rewrite M_cond. set (N := n ^ o). rewrite !repeat_vec. change (vec N (fun _ => vec N (fun _ => c))) with (tab N N (fun _ _ => c)).
  match goal with |- for_ (seq 0 N) ?b ?s = _ =>
    destruct (for_inv (fun k P => P = tab N N (fun i j => if i <? k then (c + if ovl i j then 1 else 0)%R else c)) b N 0 s) as (P & E & HP) end.
  - reflexivity.
  - intros k P Hk ->.
    match goal with |- exists s', for_ (seq 0 N) ?b ?s = _ /\ _ =>
      destruct (for_inv (fun l P => P = tab N N (fun i j => if (i <? k) || ((i =? k) && (j <? l)) then (c + if ovl i j then 1 else 0)%R else c)) b N 0 s) as (P & E & HP) end.
    + apply tab_ext. intros i j _ _. rewrite andb_false_r, orb_false_r. reflexivity.
    + intros l P Hl ->. rewrite !vec_nth by lia. fold (ovl k l).
      destruct (ovl k l) eqn:Eo.
      * rewrite add2_tab by lia. eexists. split; [reflexivity|]. apply tab_ext. intros i j _ _.
        destruct (Nat.eqb_spec i k) as [->|]; simpl.
        -- rewrite (proj2 (Nat.ltb_ge k k)) by lia. simpl. destruct (Nat.eqb_spec j l) as [->|].
           ++ rewrite (proj2 (Nat.ltb_ge l l)) by lia. rewrite (proj2 (Nat.ltb_lt l (S l))) by lia. rewrite Eo. reflexivity.
           ++ destruct (Nat.ltb_spec j l), (Nat.ltb_spec j (S l)); try lia; reflexivity.
        -- reflexivity.
      * eexists. split; [reflexivity|]. apply tab_ext. intros i j _ _.
        destruct (Nat.eqb_spec i k) as [->|]; simpl; [|reflexivity].
        destruct (Nat.ltb_spec j l), (Nat.ltb_spec j (S l)); try lia; try reflexivity.
        assert (j = l) by lia. subst j. rewrite Eo. destruct (k <? k); simpl; lra.
    + exists P. split; [exact E|]. rewrite HP. apply tab_ext. intros i j _ Hj. rewrite (proj2 (Nat.ltb_lt j (0 + N))) by lia.
      rewrite andb_true_r. destruct (Nat.ltb_spec i k), (Nat.eqb_spec i k), (Nat.ltb_spec i (S k)); try lia; reflexivity.
  - rewrite E. f_equal. rewrite HP. apply tab_ext. intros i j Hi _. rewrite (proj2 (Nat.ltb_lt i (0 + N))) by lia. reflexivity.
Qed.

Lemma floor_pos : (0 < / 10 ^ 12)%R.
Proof. apply Rinv_0_lt_compat, pow_lt. lra. Qed.

Lemma last_snoc (s : str) : s <> [] -> removelast s ++ [last s 0] = s.
Proof. intros H. symmetry. apply app_removelast_last, H. Qed.

Lemma PiN : 1 <= o -> over al text \/ len <= o -> 0 < n ->
  exists P, getNthOrderPi M text = Some P /\ rows_proportional (n ^ o) (n ^ o) (context_weight al text o) P.
Proof.
  intros Ho HO Hn. unfold getNthOrderPi. rewrite M_chars, M_order. fold n len. rewrite base_tab.
  assert (W0 : forall K, K = len - o -> forall t, t < K -> over al text /\ t + o < len) by (intros K -> t Ht; destruct HO as [HO|HO]; [split; [exact HO|lia]|lia]).
  change (firstn o text) with (win text o 0).
  rewrite (count2 (n ^ o) (fun i j => floor_weight + if ovl i j then 1 else 0)%R dix (win text o)).
  - eexists. split; [reflexivity|]. cbn [snd]. apply normalise_rows; [| |apply pow_pos; exact Hn].
    + intros i j Hi Hj. unfold context_weight, floor_weight. cbv zeta.
      destruct (list_eq_dec Nat.eq_dec (tl (ith_string al o i)) (removelast (ith_string al o j))) as [Ov|Nov].
      * rewrite (proj2 (ovl_iff i j) Ov). rewrite Rplus_assoc. f_equal. f_equal. f_equal. rewrite occ_hits, app_length, ith_string_length.
        simpl length. replace (length text + 1 - (o + 1)) with (len - o) by (unfold len; lia).
        apply hits_ext. intros t Ht. destruct (W0 _ eq_refl t Ht) as [HA HB]. apply eqb_dec_iff.
        rewrite andb_true_iff, !dix_eq by (try assumption; lia). rewrite Nat.add_1_r, win_snoc by (fold len; lia).
        assert (Ne : ith_string al o j <> []) by (intros E; pose proof (ith_string_length al o j) as L; rewrite E in L; simpl in L; lia).
        destruct o as [|o'] eqn:Eo; [lia|]. rewrite win_next by (fold len; lia). split.
        -- intros [-> E2]. f_equal. f_equal. rewrite <- (last_snoc _ Ne) in E2. apply app_inj_tail in E2. apply E2.
        -- intros E. apply app_inj_tail in E as [E1 E2]. split; [exact E1|]. rewrite E1, E2, Ov. apply last_snoc, Ne.
      * destruct (ovl i j) eqn:Eo; [apply ovl_iff in Eo; contradiction|].
        rewrite (hits_ext _ (fun _ => false)); [|].
        -- assert (Z : forall K, hits (fun _ => false) K = 0) by (induction K as [|K IH]; [reflexivity|]; rewrite hits_S, IH; reflexivity).
           rewrite Z. simpl. lra.
        -- intros t Ht. destruct (W0 _ eq_refl t Ht) as [HA HB]. apply not_true_iff_false. rewrite andb_true_iff, !dix_eq by (try assumption; lia).
           destruct o as [|o'] eqn:Eoo; [lia|]. rewrite win_next by (fold len; lia). intros [E1 E2]. apply Nov. rewrite <- E1, <- E2.
           symmetry. apply removelast_last.
    + intros i j _ _. unfold context_weight. pose proof floor_pos. cbv zeta. destruct (list_eq_dec _ _ _); [|lra].
      pose proof (pos_INR (occurrences (ith_string al o i ++ [last (ith_string al o j) 0]) text)). lra.
  - intros t Ht. destruct (W0 _ eq_refl t Ht) as [HA HB].
    destruct (dix_ok t HA ltac:(lia)) as (A1 & A2 & _). destruct (dix_ok (S t) HA ltac:(lia)) as (B1 & B2 & _).
    split; [exact A1|]. split; [exact B1|]. intros P. replace (o + t) with (t + o) by lia. rewrite text_nth by lia.
    rewrite slice1. destruct o as [|o'] eqn:Eo; [lia|]. rewrite <- win_next by (fold len; lia). rewrite A2, B2. reflexivity.
Qed.

End Train.
End Tm.
