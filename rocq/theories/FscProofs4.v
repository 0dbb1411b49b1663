(** Top-level FSC lemmas: C05-C14. *)
From Coq Require Import List Arith Lia Bool.
From Verif Require Import ScanModel ScanSpec ScanProofs Ord FscModel FscSpec FscCore FscProofs FscProofs2 FscProofs3.
Import ListNotations.

(** * Odometer *)
Fixpoint digits (m T i : nat) : list nat :=
  match T with 0 => [] | S T' => i mod m :: digits m T' (i / m) end.
Fixpoint val (m : nat) (us : list nat) : nat := match us with [] => 0 | u :: t => u + m * val m t end.

Lemma digits_length m T : forall i, length (digits m T i) = T.
Proof. induction T; intros i; simpl; auto. Qed.
Lemma digits_0 m T : 0 < m -> digits m T 0 = repeat 0 T.
Proof. intros H. induction T; simpl; [reflexivity|]. rewrite Nat.mod_0_l, Nat.div_0_l by lia. f_equal. exact IHT. Qed.
Lemma digits_ctl m T : 0 < m -> forall i, ctl m T (digits m T i).
Proof.
  intros H i. split; [apply digits_length|]. revert i; induction T; intros i; simpl; constructor; auto.
  apply Nat.mod_upper_bound. lia.
Qed.
Lemma digits_val m us : 0 < m -> Forall (fun u => u < m) us -> digits m (length us) (val m us) = us.
Proof.
  intros H. induction 1 as [|u us Hu Hus IH]; [reflexivity|]. cbn [length val digits]. f_equal.
  - rewrite Nat.add_comm, Nat.mul_comm, Nat.add_comm. rewrite Nat.mod_add by lia. apply Nat.mod_small; exact Hu.
  - rewrite Nat.mul_comm, Nat.div_add by lia. rewrite Nat.div_small by exact Hu. exact IH.
Qed.
Lemma val_lt m us : 0 < m -> Forall (fun u => u < m) us -> val m us < m ^ length us.
Proof.
  intros H. induction 1 as [|u us Hu Hus IH]; [simpl; lia|]. cbn [length val Nat.pow]. nia.
Qed.
Lemma val_digits m T : 0 < m -> forall i, i < m ^ T -> val m (digits m T i) = i.
Proof.
  intros H. induction T as [|T IH]; intros i Hi; simpl in *; [lia|].
  rewrite IH by (apply Nat.div_lt_upper_bound; lia). pose proof (Nat.div_mod i m). lia.
Qed.

Lemma odometer_digits m T : 0 < m -> forall i, i < m ^ T ->
  odometer m (digits m T i) = if S i =? m ^ T then (repeat 0 T, true) else (digits m T (S i), false).
Proof.
  intros H. induction T as [|T IH]; intros i Hi; cbn [digits odometer Nat.pow] in *.
  - replace i with 0 by lia. reflexivity.
  - pose proof (Nat.div_mod i m ltac:(lia)) as Dm. pose proof (Nat.mod_upper_bound i m ltac:(lia)) as Um.
    assert (Hq : i / m < m ^ T) by (apply Nat.div_lt_upper_bound; lia).
    destruct (Nat.eqb_spec (i mod m) (m - 1)) as [E|E].
    + assert (ES : S i = m * S (i / m)) by lia.
      rewrite IH by exact Hq.
      destruct (Nat.eqb_spec (S (i / m)) (m ^ T)) as [E'|E'].
      * destruct (Nat.eqb_spec (S i) (m * m ^ T)) as [_|E2]; [reflexivity|]. exfalso. apply E2. rewrite ES, E'. reflexivity.
      * destruct (Nat.eqb_spec (S i) (m * m ^ T)) as [E2|_]; [exfalso; nia|].
        rewrite ES. rewrite (Nat.mul_comm m), Nat.mod_mul, Nat.div_mul by lia. reflexivity.
    + assert (Hd : S i / m = i / m /\ S i mod m = S (i mod m)).
      { assert (S i = m * (i / m) + S (i mod m)) as ES by lia. split.
        - symmetry. apply (Nat.div_unique _ _ _ (S (i mod m))); lia.
        - symmetry. apply (Nat.mod_unique _ _ (i / m)); lia. }
      destruct Hd as [-> ->]. destruct (Nat.eqb_spec (S i) (m * m ^ T)) as [E2|_]; [|reflexivity].
      exfalso. assert (Hmod : S i mod m = 0) by (rewrite E2, Nat.mul_comm; apply Nat.mod_mul; lia).
      assert (S i mod m = S (i mod m)). { symmetry. apply (Nat.mod_unique _ _ (i / m)); lia. } lia.
Qed.

Lemma tried_digits m T : 0 < m -> forall fuel i, i < m ^ T -> m ^ T <= fuel + i ->
  tried m fuel (digits m T i) = map (digits m T) (seq i (m ^ T - i)).
Proof.
  intros H. induction fuel as [|fuel IH]; intros i Hi Hf; [lia|]. cbn [tried].
  rewrite odometer_digits by assumption.
  replace (m ^ T - i) with (S (m ^ T - S i)) by lia. cbn [seq map]. f_equal.
  destruct (Nat.eqb_spec (S i) (m ^ T)) as [E|E].
  - rewrite <- E, Nat.sub_diag. reflexivity.
  - apply IH; lia.
Qed.

Lemma nodup_map_in {A B} (g : A -> B) l : (forall x y, In x l -> In y l -> g x = g y -> x = y) -> NoDup l -> NoDup (map g l).
Proof.
  intros H ND. induction ND as [|x l Hx ND IH]; simpl; [constructor|]. constructor.
  - rewrite in_map_iff. intros (y & E & Hy). apply Hx. rewrite (H x y); auto; [left; reflexivity|right; assumption].
  - apply IH. intros a b Ha Hb. apply H; right; assumption.
Qed.

Lemma tried_all m T fuel : 0 < m -> m ^ T <= fuel ->
  NoDup (tried m fuel (repeat 0 T)) /\ (forall us, In us (tried m fuel (repeat 0 T)) <-> controls m T us).
Proof.
  intros H Hf. assert (P : 0 < m ^ T) by (apply Nat.neq_0_lt_0, Nat.pow_nonzero; lia).
  rewrite <- (digits_0 m) by exact H. rewrite tried_digits by (try assumption; lia). rewrite Nat.sub_0_r. split.
  - apply nodup_map_in; [|apply seq_NoDup].
    intros i j Hi Hj E. apply in_seq in Hi, Hj. rewrite <- (val_digits m T H i), <- (val_digits m T H j), E by lia. reflexivity.
  - intros us. split.
    + rewrite in_map_iff. intros (i & <- & _). apply digits_ctl; exact H.
    + intros [Hl Hu]. apply in_map_iff. exists (val m us). rewrite <- Hl. split; [apply digits_val; assumption|].
      apply in_seq. pose proof (val_lt m us H Hu). lia.
Qed.

Section P.
Variable K : ordcost.
Local Open Scope cost_scope.
Local Notation "i << n" := (Peano.lt i n) (at level 70).

Section Fixed.
Variables n m : nat.
Hypothesis Hn : O << n.
Hypothesis Hm : O << m.

Lemma batch_eval_mkP ss lt x0 us : Forall (sok n m) ss -> x0 << n -> ctl m (length ss) us ->
  batch_eval (mkP K n m ss lt) x0 us = Some (rc ss lt x0 us, sts K ss x0 us).
Proof.
  intros Hok Hx Hus. unfold batch_eval.
  set (body := fun (fs : list (list (list nat))) (Ls : list (list (list K))) (ul : list nat) (k : nat) (s : K * nat * list nat) =>
     let '(c, x, xs) := s in
        do u <- nth_error ul k; do L <- nth_error Ls k; do f <- nth_error fs k;
        do l <- get2 L x u; do x' <- get2 f x u;
        Some (cadd c l, x', xs ++ [x'])).
  fold (body (ff (mkP K n m ss lt)) (fL (mkP K n m ss lt)) us). simpl ff; simpl fL. rewrite map_length.
  assert (H : forall x c xs, x << n ->
    for_ (seq 0 (length ss)) (body (map (fun s => tab n m (sf s)) ss) (map (fun s => tab n m (sL s)) ss) us) (c, x, xs)
    = Some (c + rc ss (fun _ => czero) x us, endst ss x us, xs ++ tl (sts K ss x us))).
  { clear Hx x0. revert us Hus. induction Hok as [|s ss Hs Hss IH]; intros [|u us] [Hl Hu] x c xs Hx; try discriminate.
    - simpl. rewrite app_nil_r, cadd_0_r. reflexivity.
    - pose proof (Forall_inv Hu) as H1. simpl in H1. cbn [length map]. rewrite for_shift. unfold body at 1. cbn [nth_error].
      rewrite !get2_tab by assumption.
      assert (H2 : sf s x u << n) by (apply Hs; assumption).
      specialize (IH us (conj (f_equal pred Hl) (Forall_inv_tail Hu)) (sf s x u) (c + sL s x u) (xs ++ [sf s x u]) H2).
      etransitivity; [exact IH|]. simpl. rewrite <- app_assoc, cadd_assoc. f_equal. f_equal. f_equal.
      destruct ss, us; simpl; reflexivity. }
  rewrite H by exact Hx. simpl fLT.
  rewrite vec_nth by (apply (endst_lt K n m); assumption).
  rewrite cadd_0_l. rewrite <- rc_end by apply Hus.
  f_equal. f_equal. destruct ss, us; reflexivity.
Qed.

Definition bupd ss lt x0 (best : list nat * list nat * K) (us : list nat) :=
  if cltb (rc ss lt x0 us) (snd best) then (us, sts K ss x0 us, rc ss lt x0 us) else best.

Lemma batch_loop_mkP ss lt x0 : Forall (sok n m) ss -> x0 << n -> forall fuel i best,
  (i < m ^ length ss)%nat -> (m ^ length ss <= fuel + i)%nat ->
  batch_loop (mkP K n m ss lt) x0 m fuel (digits m (length ss) i) best =
  Done (fold_left (bupd ss lt x0) (map (digits m (length ss)) (seq i (m ^ length ss - i))) best).
Proof.
  intros Hok Hx. induction fuel as [|fuel IH]; intros i [[mu mx] mc] Hi Hf; [lia|]. cbn [batch_loop].
  rewrite batch_eval_mkP; [|assumption..|apply digits_ctl; exact Hm].
  rewrite odometer_digits by assumption.
  replace (m ^ length ss - i)%nat with (S (m ^ length ss - S i)) by lia. cbn [seq map fold_left].
  unfold bupd at 2. cbn [snd].
  destruct (Nat.eqb_spec (S i) (m ^ length ss)) as [E|E].
  - rewrite <- E, Nat.sub_diag. reflexivity.
  - rewrite IH by lia. reflexivity.
Qed.

Lemma bfold_spec ss lt x0 l : forall best,
  let r := fold_left (bupd ss lt x0) l best in
  (forall us, In us l -> snd r <= rc ss lt x0 us) /\ snd r <= snd best /\
  ((r = best /\ forall us, In us l -> snd best <= rc ss lt x0 us) \/
   exists us, In us l /\ r = (us, sts K ss x0 us, rc ss lt x0 us) /\ rc ss lt x0 us < snd best).
Proof.
  induction l as [|us l IH]; intros best r.
  - split; [intros ? []|]. split; [apply cle_refl|]. left. split; [reflexivity|intros ? []].
  - unfold r. simpl. destruct (IH (bupd ss lt x0 best us)) as (H1 & H2 & H3). clear r IH.
    set (r := fold_left (bupd ss lt x0) l (bupd ss lt x0 best us)) in *.
    unfold bupd in H2, H3. destruct (cltb (rc ss lt x0 us) (snd best)) eqn:C; cbn [snd] in H2, H3.
    + split; [intros us' [<-|Hin]; auto|]. split; [eapply cle_trans; [exact H2|apply clt_le; exact C]|].
      right. destruct H3 as [[H3 _]|(us' & Hin & H3 & H4)].
      * exists us. auto.
      * exists us'. split; [auto|]. split; [exact H3|]. eapply clt_le_trans; [exact H4|]. apply clt_le; exact C.
    + assert (Hle : snd best <= rc ss lt x0 us) by (apply cle_not_lt; congruence).
      split; [intros us' [<-|Hin]; [eapply cle_trans; eassumption|auto]|]. split; [exact H2|].
      destruct H3 as [[H3 H4]|(us' & Hin & H3)].
      * left. split; [exact H3|]. intros us' [<-|Hin]; auto.
      * right. exists us'. auto.
Qed.
End Fixed.

(** ** C05 *)
Lemma C05_lemma n m (P : fsc K) : valid n m P ->
  exists us Vs, seqBackwardPass P = Some (us, Vs) /\ length us = length (ff P) /\ length Vs = S (length (ff P)) /\
    forall k x, (k <= length (ff P))%nat -> x << n ->
      exists v, get2 Vs k x = Some v /\ least_cost m P k x v.
Proof.
  intros V. pose proof (v_n _ _ _ _ V) as Hn. pose proof (v_m _ _ _ _ V) as Hm.
  destruct (valid_repr K n m Hn Hm P V) as (ss & lt & -> & Hok).
  exists (bus K n m ss lt), (bVs K n m ss lt). split; [apply seqBackward_mkP; assumption|].
  simpl ff. rewrite map_length. rewrite bus_length, bVs_length. split; [reflexivity|]. split; [reflexivity|].
  intros k x Hk Hx. exists (Vf m (skipn k ss) lt x). split.
  - unfold get2. rewrite bVs_nth by assumption. apply vec_nth; exact Hx.
  - apply least_mkP; auto.
Qed.

Lemma C05_action n m (P : fsc K) us Vs : valid n m P -> seqBackwardPass P = Some (us, Vs) ->
  forall k x, k << length (ff P) -> x << n ->
  exists u L f l x' v v', get2 us k x = Some u /\ u << m /\ nth_error (fL P) k = Some L /\ nth_error (ff P) k = Some f /\
    get2 L x u = Some l /\ get2 f x u = Some x' /\ get2 Vs k x = Some v /\ get2 Vs (S k) x' = Some v' /\ v = l + v' /\
    forall w l2 x2 v2, get2 L x w = Some l2 -> get2 f x w = Some x2 -> get2 Vs (S k) x2 = Some v2 ->
      v <= l2 + v2 /\ (w << u -> v < l2 + v2).
Proof.
  intros V E k x Hk Hx. pose proof (v_n _ _ _ _ V) as Hn. pose proof (v_m _ _ _ _ V) as Hm.
  destruct (valid_repr K n m Hn Hm P V) as (ss & lt & -> & Hok).
  rewrite seqBackward_mkP in E by assumption. injection E as <- <-.
  simpl ff in *. simpl fL. rewrite map_length in Hk.
  set (d := Stg (fun _ _ => O) (fun _ _ => @czero K)). set (s := nth k ss d).
  assert (Hs : sok n m s). { rewrite Forall_forall in Hok. apply Hok, nth_In, Hk. }
  set (u := pol m s (Vf m (skipn (S k) ss) lt) x).
  assert (Hu : u << m) by (apply (pol_lt K m); exact Hm).
  assert (Esk : skipn k ss = s :: skipn (S k) ss) by (apply skipn_nth; exact Hk).
  exists u, (tab n m (sL s)), (tab n m (sf s)), (sL s x u), (sf s x u), (Vf m (skipn k ss) lt x), (Vf m (skipn (S k) ss) lt (sf s x u)).
  split. { unfold get2. rewrite (bus_nth K n m ss lt k s _ Esk). apply vec_nth; exact Hx. }
  split; [exact Hu|].
  split. { rewrite nth_error_map. rewrite (nth_error_nth' ss d) by exact Hk. reflexivity. }
  split. { rewrite nth_error_map. rewrite (nth_error_nth' ss d) by exact Hk. reflexivity. }
  split; [apply get2_tab; assumption|]. split; [apply get2_tab; assumption|].
  split. { unfold get2. rewrite bVs_nth by lia. apply vec_nth; exact Hx. }
  split. { unfold get2. rewrite bVs_nth by lia. apply vec_nth. apply Hs; assumption. }
  split. { rewrite Esk. simpl. symmetry. apply (amin_min K m (fun u => sL s x u + Vf m (skipn (S k) ss) lt (sf s x u)) Hm). }
  intros w l2 x2 v2 H1 H2 H3.
  destruct (Nat.lt_ge_cases w m) as [Hw|Hw].
  2:{ unfold get2, tab in H1. rewrite vec_nth in H1 by exact Hx. rewrite vec_nth_none in H1 by exact Hw. discriminate. }
  rewrite get2_tab in H1 by assumption. rewrite get2_tab in H2 by assumption. injection H1 as <-. injection H2 as <-.
  unfold get2 in H3. rewrite bVs_nth in H3 by lia. rewrite vec_nth in H3 by (apply Hs; assumption). injection H3 as <-.
  rewrite Esk. cbn [Vf]. split.
  - apply (minv_le K m (fun u => sL s x u + Vf m (skipn (S k) ss) lt (sf s x u)) w Hw).
  - intros Hwu. rewrite <- (amin_min K m (fun u => sL s x u + Vf m (skipn (S k) ss) lt (sf s x u)) Hm).
    apply (amin_first K m (fun u => sL s x u + Vf m (skipn (S k) ss) lt (sf s x u)) w Hwu Hm).
Qed.

(** ** C06 *)
Lemma C06_lemma n m (P : fsc K) x0 : valid n m P -> x0 << n ->
  exists us Vs mu mx v, seqBackwardPass P = Some (us, Vs) /\ seqForwardPass P x0 us = Some (mu, mx) /\
    optimal m P x0 mu /\ run_states (ff P) x0 mu = Some mx /\ seqSimulation P x0 mu = Some mx /\
    fsc_cost P mx mu = Some v /\ get2 Vs 0 x0 = Some v.
Proof.
  intros V Hx. pose proof (v_n _ _ _ _ V) as Hn. pose proof (v_m _ _ _ _ V) as Hm.
  destruct (valid_repr K n m Hn Hm P V) as (ss & lt & -> & Hok).
  destruct (bus_map K n m Hm ss lt) as (mus & Eb & Hmu & Hml & Hfu).
  assert (Hc : ctl m (length ss) (pus m ss lt x0)) by (apply pus_ctl; exact Hm).
  exists (bus K n m ss lt), (bVs K n m ss lt), (pus m ss lt x0), (sts K ss x0 (pus m ss lt x0)), (Vf m ss lt x0).
  split; [apply seqBackward_mkP; assumption|].
  split; [rewrite Eb, seqForward_mkP, Hfu by assumption; reflexivity|].
  split; [apply optimal_mkP; try assumption; split; [exact Hc|apply pus_cost; exact Hm]|].
  split; [apply run_states_mkP; assumption|].
  split; [apply seqSimulation_mkP; assumption|].
  split; [rewrite cost_mkP by assumption; rewrite pus_cost by exact Hm; reflexivity|].
  unfold get2. rewrite bVs_nth by lia. apply vec_nth; exact Hx.
Qed.

Lemma C06_cost n m (P : fsc K) x0 us xs : valid n m P -> x0 << n -> controls m (length (ff P)) us ->
  run_states (ff P) x0 us = Some xs -> seqSimulation P x0 us = Some xs /\
  exists c, fsc_cost P xs us = Some c /\ run_cost (ff P) (fL P) (fLT P) x0 us = Some c.
Proof.
  intros V Hx Hus E. pose proof (v_n _ _ _ _ V) as Hn. pose proof (v_m _ _ _ _ V) as Hm.
  destruct (valid_repr K n m Hn Hm P V) as (ss & lt & -> & Hok).
  simpl ff in Hus. rewrite map_length in Hus.
  rewrite run_states_mkP in E by assumption. injection E as <-.
  split; [apply seqSimulation_mkP; assumption|].
  exists (rc ss lt x0 us). split; [apply cost_mkP; assumption|apply run_cost_mkP; assumption].
Qed.

(** ** C07 *)
Lemma sent_ok_mkP n m infty ss lt : O << n -> O << m -> Forall (sok n m) ss ->
  sentinel_dominates n m infty (mkP K n m ss lt) -> sent_ok n m infty ss lt.
Proof.
  intros Hn Hm Hok H. assert (H' : forall k i j, k << length ss -> i << n -> j << n ->
     Vf m (skipn k ss) lt i <= infty + Vf m (skipn (S k) ss) lt j).
  { intros k i j Hk Hi Hj. apply (H k i j); try assumption.
    - simpl. rewrite map_length. exact Hk.
    - apply least_mkP; auto.
    - apply least_mkP; auto. }
  clear H. revert Hok H'. induction ss as [|s ss IH]; intros Hok H'; [exact I|].
  split.
  - intros i j Hi Hj. apply (H' 0%nat i j); try assumption. simpl; lia.
  - apply IH; [exact (Forall_inv_tail Hok)|]. intros k i j Hk. apply (H' (S k)). simpl; lia.
Qed.
Lemma sent_strict_mkP n m infty ss lt : O << n -> O << m -> Forall (sok n m) ss ->
  sentinel_strictly_dominates n m infty (mkP K n m ss lt) -> sent_strict n m infty ss lt.
Proof.
  intros Hn Hm Hok H. assert (H' : forall k i j, k << length ss -> i << n -> j << n ->
     Vf m (skipn k ss) lt i < infty + Vf m (skipn (S k) ss) lt j).
  { intros k i j Hk Hi Hj. apply (H k i j); try assumption.
    - simpl. rewrite map_length. exact Hk.
    - apply least_mkP; auto.
    - apply least_mkP; auto. }
  clear H. revert Hok H'. induction ss as [|s ss IH]; intros Hok H'; [exact I|].
  split.
  - intros i j Hi Hj. apply (H' 0%nat i j); try assumption. simpl; lia.
  - apply IH; [exact (Forall_inv_tail Hok)|]. intros k i j Hk. apply (H' (S k)). simpl; lia.
Qed.

Lemma C07_lemma n m infty (P : fsc K) : valid n m P -> ff P <> [] -> sentinel_dominates n m infty P ->
  exists us Vs, parBackwardPass infty P = Some (us, Vs) /\ seqBackwardPass P = Some (us, Vs).
Proof.
  intros V Hne Hs. pose proof (v_n _ _ _ _ V) as Hn. pose proof (v_m _ _ _ _ V) as Hm.
  destruct (valid_repr K n m Hn Hm P V) as (ss & lt & -> & Hok).
  exists (bus K n m ss lt), (bVs K n m ss lt). split; [|apply seqBackward_mkP; assumption].
  apply parBackward_mkP; try assumption.
  - intros ->. apply Hne. reflexivity.
  - apply sent_ok_mkP; assumption.
Qed.

Lemma nmul_mono (a b : K) k : a <= b -> nmul k a <= nmul k b.
Proof. intros H. induction k; simpl; [apply cle_refl|]. apply cadd_mono2; assumption. Qed.
Lemma nmul_pos (a : K) j k : czero <= a -> (j <= k)%nat -> nmul j a <= nmul k a.
Proof.
  intros H Hjk. induction Hjk as [|k Hjk IH]; [apply cle_refl|]. simpl.
  rewrite <- (cadd_0_l (nmul j a)). apply cadd_mono2; assumption.
Qed.
Lemma nmul_neg (a : K) j k : a <= czero -> (j <= k)%nat -> nmul k a <= nmul j a.
Proof.
  intros H Hjk. induction Hjk as [|k Hjk IH]; [apply cle_refl|]. simpl.
  rewrite <- (cadd_0_l (nmul j a)). apply cadd_mono2; assumption.
Qed.

Lemma Vf_bounds n m (lo hi : K) ss lt : O << m -> Forall (sok n m) ss ->
  Forall (fun s => forall x u, x << n -> u << m -> lo <= sL s x u /\ sL s x u <= hi) ss ->
  (forall x, x << n -> lo <= lt x /\ lt x <= hi) ->
  forall x, x << n -> nmul (S (length ss)) lo <= Vf m ss lt x /\ Vf m ss lt x <= nmul (S (length ss)) hi.
Proof.
  intros Hm Hok Hb Hlt. revert Hb; induction Hok as [|s ss Hs Hss IH]; intros Hb x Hx.
  - simpl. rewrite !cadd_0_r. auto.
  - specialize (IH (Forall_inv_tail Hb)). pose proof (Forall_inv Hb) as Hb1.
    destruct (minv_att K m (fun u => sL s x u + Vf m ss lt (sf s x u)) Hm) as (u & Hu & Eu).
    cbn [Vf]. rewrite Eu. destruct (Hb1 x u Hx Hu) as [A B]. destruct (IH (sf s x u)) as [C D]; [apply Hs; assumption|].
    cbn [length]. split; [apply (cadd_mono2 K lo _ (nmul (S (length ss)) lo)); assumption|
                          apply (cadd_mono2 K _ hi _ (nmul (S (length ss)) hi)); assumption].
Qed.

Lemma costs_between_mkP n m (lo hi : K) ss lt : costs_between lo hi (mkP K n m ss lt) ->
  Forall (fun s => forall x u, x << n -> u << m -> lo <= sL s x u /\ sL s x u <= hi) ss /\
  (forall x, x << n -> lo <= lt x /\ lt x <= hi).
Proof.
  intros [H1 H2]. simpl in *. split.
  - apply Forall_forall. intros s Hs x u Hx Hu. rewrite Forall_forall in H1.
    specialize (H1 _ (in_map (fun s => tab n m (sL s)) ss s Hs)). rewrite Forall_forall in H1.
    specialize (H1 (vec m (sL s x))). rewrite Forall_forall in H1.
    apply H1; [unfold tab|]; apply vec_in; eauto.
  - intros x Hx. rewrite Forall_forall in H2. apply H2. apply vec_in. eauto.
Qed.

Lemma bounds_sentinel n m (lo hi infty : K) (P : fsc K) : valid n m P -> costs_between lo hi P ->
  lo <= czero -> czero <= hi ->
  nmul (S (length (ff P))) hi <= infty + nmul (length (ff P)) lo -> sentinel_dominates n m infty P.
Proof.
  intros V Hb Hlo Hhi Hbd. pose proof (v_n _ _ _ _ V) as Hn. pose proof (v_m _ _ _ _ V) as Hm.
  destruct (valid_repr K n m Hn Hm P V) as (ss & lt & -> & Hok).
  apply costs_between_mkP in Hb as [HbL Hblt].
  intros k x x' v v' Hk Hx Hx' L L'. apply least_mkP in L, L'; try assumption. subst.
  simpl ff in Hk, Hbd. rewrite map_length in Hk, Hbd.
  destruct (Vf_bounds n m lo hi (skipn k ss) lt Hm (Forall_skipn _ k _ Hok) (Forall_skipn _ k _ HbL) Hblt x Hx) as [_ U].
  destruct (Vf_bounds n m lo hi (skipn (S k) ss) lt Hm (Forall_skipn _ (S k) _ Hok) (Forall_skipn _ (S k) _ HbL) Hblt x' Hx') as [Lb _].
  rewrite skipn_length in U, Lb.
  eapply cle_trans; [exact U|]. eapply cle_trans; [apply (nmul_pos hi _ (S (length ss))); [exact Hhi|lia]|].
  eapply cle_trans; [exact Hbd|]. apply cadd_mono. eapply cle_trans; [|exact Lb]. apply nmul_neg; [exact Hlo|lia].
Qed.

Lemma C07_bounded n m (lo hi infty : K) (P : fsc K) : valid n m P -> ff P <> [] -> costs_between lo hi P ->
  lo <= czero -> czero <= hi ->
  nmul (S (length (ff P))) hi <= infty + nmul (length (ff P)) lo ->
  exists us Vs, parBackwardPass infty P = Some (us, Vs) /\ seqBackwardPass P = Some (us, Vs).
Proof. intros. eapply C07_lemma; try eassumption. eapply bounds_sentinel; eassumption. Qed.

(** ** C09 *)
Lemma law_repr n m T ul : feedback_law n m T ul -> exists mus, ul = map (vec n) mus /\ Forall (law_ok n m) mus /\ length mus = T.
Proof.
  intros [<- HF]. induction HF as [|v ul [Hv HFv] HF (mus & -> & H1 & H2)].
  - exists []. repeat split. constructor.
  - exists ((fun i => nth i v O) :: mus). simpl. split; [|split].
    + f_equal. rewrite (list_vec O v) at 1. rewrite Hv. reflexivity.
    + constructor; [|exact H1]. intros x Hx. rewrite Forall_forall in HFv. apply HFv, nth_In. lia.
    + congruence.
Qed.

Lemma C09_lemma n m (P : fsc K) x0 ul : valid n m P -> ff P <> [] -> x0 << n -> feedback_law n m (length (ff P)) ul ->
  exists us xs, parForwardPass P x0 ul = Some (us, xs) /\ seqForwardPass P x0 ul = Some (us, xs) /\
    controls m (length (ff P)) us /\ run_states (ff P) x0 us = Some xs.
Proof.
  intros V Hne Hx Hl. pose proof (v_n _ _ _ _ V) as Hn. pose proof (v_m _ _ _ _ V) as Hm.
  destruct (valid_repr K n m Hn Hm P V) as (ss & lt & -> & Hok).
  apply law_repr in Hl as (mus & -> & Hmu & Hml). simpl ff in Hml. rewrite map_length in Hml.
  exists (fus K ss mus x0), (sts K ss x0 (fus K ss mus x0)).
  assert (Hc := fus_ctl K n m ss Hok mus x0 Hmu Hml Hx).
  split; [apply parForward_mkP; try assumption; intros ->; apply Hne; reflexivity|].
  split; [apply seqForward_mkP; assumption|]. split.
  - simpl ff. rewrite map_length. exact Hc.
  - apply run_states_mkP; assumption.
Qed.

(** ** C10 *)
Lemma on_opt_mkP n m ss lt x0 k x : O << n -> O << m -> Forall (sok n m) ss -> x0 << n ->
  on_optimal K m ss lt x0 k x -> on_optimal_trajectory m (mkP K n m ss lt) x0 k x.
Proof.
  intros Hn Hm Hok Hx (us & Hc & Hr & Hk). exists us, (sts K ss x0 us). split; [|split].
  - apply optimal_mkP; auto.
  - apply run_states_mkP; assumption.
  - exact Hk.
Qed.

Lemma unique_mkP n m ss lt x0 k x : O << n -> O << m -> Forall (sok n m) ss -> x0 << n ->
  unique_optimal_states m (mkP K n m ss lt) x0 -> on_optimal K m ss lt x0 k x ->
  nth_error (sts K ss x0 (pus m ss lt x0)) k = Some x.
Proof.
  intros Hn Hm Hok Hx HU (us & Hc & Hr & Hk).
  assert (Hp : ctl m (length ss) (pus m ss lt x0)) by (apply pus_ctl; exact Hm).
  specialize (HU us (pus m ss lt x0)). rewrite !run_states_mkP in HU by assumption.
  rewrite !optimal_mkP in HU by assumption.
  specialize (HU (conj Hc Hr) (conj Hp (pus_cost K m Hm ss lt x0))). congruence.
Qed.

Lemma bounds_strict n m (lo hi infty : K) (P : fsc K) x0 : valid n m P -> costs_between lo hi P -> x0 << n ->
  lo <= czero -> czero <= hi ->
  nmul (S (length (ff P))) hi < infty + nmul (S (length (ff P))) lo ->
  sentinel_strictly_dominates n m infty P /\ init_dominates n m infty P x0.
Proof.
  intros V Hb Hx0 Hlo Hhi Hbd. pose proof (v_n _ _ _ _ V) as Hn. pose proof (v_m _ _ _ _ V) as Hm.
  destruct (valid_repr K n m Hn Hm P V) as (ss & lt & -> & Hok).
  apply costs_between_mkP in Hb as [HbL Hblt].
  simpl ff in Hbd. rewrite map_length in Hbd.
  assert (G : forall k k' x x', x << n -> x' << n -> Vf m (skipn k ss) lt x < infty + Vf m (skipn k' ss) lt x').
  { intros k k' x x' Hx Hx'.
    destruct (Vf_bounds n m lo hi (skipn k ss) lt Hm (Forall_skipn _ k _ Hok) (Forall_skipn _ k _ HbL) Hblt x Hx) as [_ U].
    destruct (Vf_bounds n m lo hi (skipn k' ss) lt Hm (Forall_skipn _ k' _ Hok) (Forall_skipn _ k' _ HbL) Hblt x' Hx') as [Lb _].
    rewrite skipn_length in U, Lb.
    eapply cle_lt_trans; [exact U|]. eapply cle_lt_trans; [apply (nmul_pos hi _ (S (length ss))); [exact Hhi|lia]|].
    eapply clt_le_trans; [exact Hbd|]. apply cadd_mono. eapply cle_trans; [|exact Lb]. apply nmul_neg; [exact Hlo|lia]. }
  split.
  - intros k x x' v v' Hk Hx Hx' L L'. apply least_mkP in L, L'; try assumption. subst. apply G; assumption.
  - intros x v v' Hx L L'. apply least_mkP in L, L'; try assumption. subst. apply (G 0%nat 0%nat); assumption.
Qed.

Section C10.
Variables (n m : nat) (infty : K) (P : fsc K) (x0 : nat).
Hypothesis V : valid n m P.
Hypothesis Hne : ff P <> [].
Hypothesis Hx : x0 << n.
Hypothesis Hst : strict_add K.
Hypothesis Hs : sentinel_strictly_dominates n m infty P.

Lemma C10_gen (xk : list (stg K) -> (nat -> K) -> nat -> nat)
  (pass : list (list nat) -> list (list K) -> option (list nat * list nat)) :
  (forall ss lt, P = mkP K n m ss lt -> Forall (sok n m) ss -> ss <> [] ->
     pass (bus K n m ss lt) (bVs K n m ss lt) = Some (fb_us K m ss lt (xk ss lt), fb_xs K ss (xk ss lt))) ->
  (forall ss lt k, P = mkP K n m ss lt -> Forall (sok n m) ss -> (k <= length ss)%nat -> sent_strict n m infty ss lt ->
     xk ss lt k << n /\ on_optimal K m ss lt x0 k (xk ss lt k)) ->
  exists us Vs mu mx, parBackwardPass infty P = Some (us, Vs) /\ seqBackwardPass P = Some (us, Vs) /\
    pass us Vs = Some (mu, mx) /\
    length mu = length (ff P) /\ length mx = S (length (ff P)) /\
    (forall k, (k <= length (ff P))%nat -> exists x, nth_error mx k = Some x /\ on_optimal_trajectory m P x0 k x /\
        (k << length (ff P) -> nth_error mu k = get2 us k x /\ get2 us k x <> None)) /\
    (unique_optimal_states m P x0 -> seqForwardPass P x0 us = Some (mu, mx)).
Proof.
  intros Hpass Hopt. pose proof (v_n _ _ _ _ V) as Hn. pose proof (v_m _ _ _ _ V) as Hm.
  destruct (valid_repr K n m Hn Hm P V) as (ss & lt & E & Hok).
  assert (Hne' : ss <> []) by (intros ->; apply Hne; rewrite E; reflexivity).
  assert (Hss : sent_strict n m infty ss lt) by (apply sent_strict_mkP; try assumption; rewrite <- E; exact Hs).
  specialize (Hpass ss lt E Hok Hne'). specialize (fun k Hk => Hopt ss lt k E Hok Hk Hss).
  exists (bus K n m ss lt), (bVs K n m ss lt), (fb_us K m ss lt (xk ss lt)), (fb_xs K ss (xk ss lt)).
  assert (Hlen : length (ff P) = length ss) by (rewrite E; simpl; apply map_length). rewrite Hlen.
  split; [rewrite E; apply parBackward_mkP; try assumption; apply sent_strict_ok; exact Hss|].
  split; [rewrite E; apply seqBackward_mkP; assumption|].
  split; [exact Hpass|].
  split; [apply fb_us_length|]. split; [apply fb_xs_length|]. split.
  - intros k Hk. destruct (Hopt k Hk) as [Hlt Ho]. exists (xk ss lt k).
    split; [apply (fb_xs_nth K n m Hn Hm); exact Hk|]. split; [rewrite E; apply on_opt_mkP; assumption|].
    intros Hk'. set (d := Stg (fun _ _ => O) (fun _ _ => @czero K)).
    assert (Esk : skipn k ss = nth k ss d :: skipn (S k) ss) by (apply skipn_nth; exact Hk').
    unfold get2. rewrite (bus_nth K n m ss lt k _ _ Esk). rewrite vec_nth by exact Hlt.
    split; [apply (fb_us_nth K n m Hn Hm); exact Esk|discriminate].
  - intros HU. rewrite E in HU |- *.
    destruct (fb_unique K n m Hn Hm ss lt (xk ss lt) x0 Hx Hok) as [E1 E2].
    { intros k Hk. apply (unique_mkP n m); try assumption. apply Hopt; exact Hk. }
    destruct (bus_map K n m Hm ss lt) as (mus & Eb & Hmu & Hml & Hfu).
    rewrite Eb, seqForward_mkP, Hfu by assumption. rewrite E1, E2. reflexivity.
Qed.

Lemma C10_lemma1 : init_dominates n m infty P x0 ->
  exists us Vs mu mx, parBackwardPass infty P = Some (us, Vs) /\ seqBackwardPass P = Some (us, Vs) /\
    parFwdBwdPass infty P x0 us Vs = Some (mu, mx) /\
    length mu = length (ff P) /\ length mx = S (length (ff P)) /\
    (forall k, (k <= length (ff P))%nat -> exists x, nth_error mx k = Some x /\ on_optimal_trajectory m P x0 k x /\
        (k << length (ff P) -> nth_error mu k = get2 us k x /\ get2 us k x <> None)) /\
    (unique_optimal_states m P x0 -> seqForwardPass P x0 us = Some (mu, mx)).
Proof.
  intros H0. pose proof (v_n _ _ _ _ V) as Hn. pose proof (v_m _ _ _ _ V) as Hm.
  apply (C10_gen (fun ss lt k => pick K n m infty (d0 K infty x0) (firstn k ss) (skipn k ss) lt)
                 (parFwdBwdPass infty P x0)).
  - intros ss lt -> Hok Hne'. apply parFwdBwd_mkP; assumption.
  - intros ss lt k E Hok Hk Hss. split; [apply amin_lt; exact Hn|].
    apply pick_optimal; try assumption. intros i Hi. rewrite E in H0.
    apply (H0 i); [exact Hi| |]; apply least_mkP; auto.
Qed.

Lemma C10_lemma2 :
  exists us Vs mu mx, parBackwardPass infty P = Some (us, Vs) /\ seqBackwardPass P = Some (us, Vs) /\
    parFwdBwdPass2 infty P x0 us Vs = Some (mu, mx) /\
    length mu = length (ff P) /\ length mx = S (length (ff P)) /\
    (forall k, (k <= length (ff P))%nat -> exists x, nth_error mx k = Some x /\ on_optimal_trajectory m P x0 k x /\
        (k << length (ff P) -> nth_error mu k = get2 us k x /\ get2 us k x <> None)) /\
    (unique_optimal_states m P x0 -> seqForwardPass P x0 us = Some (mu, mx)).
Proof.
  pose proof (v_n _ _ _ _ V) as Hn. pose proof (v_m _ _ _ _ V) as Hm.
  apply (C10_gen (fun ss lt => xk2 K n m infty ss lt x0) (parFwdBwdPass2 infty P x0)).
  - intros ss lt -> Hok Hne'. apply parFwdBwd2_mkP; assumption.
  - intros ss lt k E Hok Hk Hss. split; [|apply pick2_optimal; assumption].
    destruct k as [|k]; [exact Hx|]. destruct ss; [exact Hx|]. apply amin_lt; exact Hn.
Qed.
End C10.

(** ** C12 *)
Lemma batch_repr n m ss lt x0 start fuel : O << n -> O << m -> Forall (sok n m) ss -> ss <> [] -> x0 << n ->
  (m ^ length ss <= fuel)%nat ->
  batch_solution start fuel (mkP K n m ss lt) x0 =
  Done (fold_left (bupd ss lt x0) (map (digits m (length ss)) (seq 0 (m ^ length ss))) (repeat O (length ss), [], start)).
Proof.
  intros Hn Hm Hok Hne Hx Hf. unfold batch_solution.
  assert (E0 : exists s0 : stg K, nth_error (ff (mkP K n m ss lt)) 0 = Some (tab n m (sf s0))).
  { destruct ss as [|s0 ss]; [congruence|]. exists s0. reflexivity. }
  destruct E0 as [s0 ->]. rewrite ncols_tab by exact Hn. simpl ff. rewrite map_length.
  rewrite <- (digits_0 m) by exact Hm.
  assert (0 < m ^ length ss)%nat by (apply Nat.neq_0_lt_0, Nat.pow_nonzero; lia).
  rewrite (batch_loop_mkP n m) by (try assumption; lia). rewrite Nat.sub_0_r. reflexivity.
Qed.

Lemma C12_lemma n m (P : fsc K) x0 start : valid n m P -> ff P <> [] -> x0 << n ->
  (exists us c, controls m (length (ff P)) us /\ run_cost (ff P) (fL P) (fLT P) x0 us = Some c /\ c < start) ->
  forall fuel, (m ^ length (ff P) <= fuel)%nat ->
  exists us xs c, batch_solution start fuel P x0 = Done (us, xs, c) /\
    optimal m P x0 us /\ run_states (ff P) x0 us = Some xs /\ run_cost (ff P) (fL P) (fLT P) x0 us = Some c /\
    least_cost m P 0 x0 c.
Proof.
  intros V Hne Hx (w & cw & Hw & Ew & Hcw) fuel Hf. pose proof (v_n _ _ _ _ V) as Hn. pose proof (v_m _ _ _ _ V) as Hm.
  destruct (valid_repr K n m Hn Hm P V) as (ss & lt & -> & Hok).
  simpl ff in Hf, Hw. rewrite map_length in Hf, Hw. rewrite run_cost_mkP in Ew by assumption. injection Ew as <-.
  assert (Hne' : ss <> []) by (intros ->; apply Hne; reflexivity).
  rewrite batch_repr by assumption.
  destruct (bfold_spec ss lt x0 (map (digits m (length ss)) (seq 0 (m ^ length ss))) (repeat O (length ss), [], start))
    as (H1 & _ & H3).
  set (r := fold_left _ _ _) in *. cbn [snd] in H3.
  assert (Hin : forall us, ctl m (length ss) us -> In us (map (digits m (length ss)) (seq 0 (m ^ length ss)))).
  { intros us [Hl Hu]. apply in_map_iff. exists (val m us). rewrite <- Hl. split; [apply digits_val; assumption|].
    apply in_seq. pose proof (val_lt m us Hm Hu). lia. }
  destruct H3 as [[_ H3]|(us & Hus & Er & _)].
  { exfalso. specialize (H3 w (Hin w Hw)). apply clt_not_le in Hcw. contradiction. }
  exists us, (sts K ss x0 us), (rc ss lt x0 us). split; [rewrite Er; reflexivity|].
  assert (Hc : ctl m (length ss) us).
  { apply in_map_iff in Hus as (i & <- & _). apply digits_ctl; exact Hm. }
  assert (Eopt : rc ss lt x0 us = Vf m ss lt x0).
  { apply cle_antisym; [|apply (Vf_lb K n m); assumption].
    rewrite <- (pus_cost K m Hm ss lt x0). specialize (H1 (pus m ss lt x0) (Hin _ (pus_ctl K m Hm ss lt x0))).
    rewrite Er in H1. exact H1. }
  split; [apply optimal_mkP; auto|]. split; [apply run_states_mkP; assumption|].
  split; [apply run_cost_mkP; assumption|]. apply least_mkP; auto.
Qed.

Lemma C13_lemma n m (P : fsc K) x0 start : valid n m P -> ff P <> [] -> x0 << n ->
  (forall us c, controls m (length (ff P)) us -> run_cost (ff P) (fL P) (fLT P) x0 us = Some c -> start <= c) ->
  forall fuel, (m ^ length (ff P) <= fuel)%nat ->
  batch_solution start fuel P x0 = Done (repeat O (length (ff P)), [], start).
Proof.
  intros V Hne Hx Hall fuel Hf. pose proof (v_n _ _ _ _ V) as Hn. pose proof (v_m _ _ _ _ V) as Hm.
  destruct (valid_repr K n m Hn Hm P V) as (ss & lt & -> & Hok).
  assert (Hlen : length (ff (mkP K n m ss lt)) = length ss) by (simpl; apply map_length). rewrite Hlen in *.
  assert (Hne' : ss <> []) by (intros ->; apply Hne; reflexivity).
  rewrite batch_repr by assumption.
  destruct (bfold_spec ss lt x0 (map (digits m (length ss)) (seq 0 (m ^ length ss))) (repeat O (length ss), [], start))
    as (_ & _ & [[-> _]|(us & Hus & _ & Hlt)]); [reflexivity|].
  exfalso. apply clt_not_le in Hlt. apply Hlt. cbn [snd].
  assert (Hc : ctl m (length ss) us).
  { apply in_map_iff in Hus as (i & <- & _). apply digits_ctl; exact Hm. }
  apply (Hall us); [exact Hc|apply run_cost_mkP; assumption].
Qed.

(** ** C14 *)
Lemma for_unit_iff T (body : nat -> unit -> option unit) :
  (exists s, for_ (seq 0 T) body tt = Some s) <-> forall k, k << T -> body k tt = Some tt.
Proof.
  assert (G : forall l, (exists s, for_ l body tt = Some s) <-> forall k, In k l -> body k tt = Some tt).
  { induction l as [|k l IH]; simpl.
    - split; [intros _ ? []|intros _; exists tt; reflexivity].
    - destruct (body k tt) as [[]|] eqn:Eb.
      + rewrite IH. split; [intros H k' [<-|Hk]; auto|auto].
      + split; [intros [s Hs]; discriminate|]. intros H. specialize (H k (or_introl eq_refl)). congruence. }
  rewrite G. split; intros H k Hk; apply H; [apply in_seq; lia|apply in_seq in Hk; lia].
Qed.

Lemma C14_lemma one f L LT T (P : fsc K) : checkAndExpand one f L LT T = Some P <-> constructs one f L LT T P.
Proof.
  unfold checkAndExpand, constructs.
  assert (Core : forall T' fs Ls, length fs = T' ->
    (if length fs =? length Ls then
      do f0 <- nth_error fs 0;
      let xdim := shape0 f0 in
      let udim := shape1 f0 in
      let lt := match LT with Some v => v | None => repeat one xdim end in
      do _ <- for_ (seq 0 T')
         (fun k _ => do fk <- nth_error fs k; do Lk <- nth_error Ls k;
            if (shape0 fk =? xdim) && (shape1 fk =? udim) then
              if (shape0 Lk =? xdim) && (shape1 Lk =? udim) then Some tt else None
            else None) tt;
      if xdim =? length lt then Some (FSC (map adata fs) (map adata Ls) lt) else None
    else None) = Some P <->
    (length Ls = T' /\ (1 <= T')%nat /\ exists lt xdim udim,
      Forall (fun a => shape0 a = xdim /\ shape1 a = udim) fs /\
      Forall (fun a => shape0 a = xdim /\ shape1 a = udim) Ls /\
      length lt = xdim /\ lt = match LT with Some v => v | None => repeat one xdim end /\
      P = FSC (map adata fs) (map adata Ls) lt)).
  { intros T' fs Ls HT. destruct (Nat.eqb_spec (length fs) (length Ls)) as [El|El].
    2:{ split; [discriminate|]. intros (A & _). exfalso. apply El. congruence. }
    destruct fs as [|f0 fs]. { split; [discriminate|]. intros (_ & A & _). simpl in HT. lia. }
    cbn [nth_error]. cbv zeta.
    set (lt := match LT with Some v => v | None => repeat one (shape0 f0) end).
    set (body := fun (k : nat) (_ : unit) => _).
    assert (Hfor : (forall k, k << T' -> body k tt = Some tt) <->
       Forall (fun a => shape0 a = shape0 f0 /\ shape1 a = shape1 f0) (f0 :: fs) /\
       Forall (fun a => shape0 a = shape0 f0 /\ shape1 a = shape1 f0) Ls).
    { split.
      - intros H.
        assert (Hk : forall k a b, nth_error (f0 :: fs) k = Some a -> nth_error Ls k = Some b ->
           (shape0 a = shape0 f0 /\ shape1 a = shape1 f0) /\ (shape0 b = shape0 f0 /\ shape1 b = shape1 f0)).
        { intros k a b Ha Hb'. assert (k << T') by (rewrite <- HT; apply nth_error_Some; congruence).
          specialize (H k H0). unfold body in H. rewrite Ha, Hb' in H.
          destruct (Nat.eqb_spec (shape0 a) (shape0 f0)), (Nat.eqb_spec (shape1 a) (shape1 f0)),
            (Nat.eqb_spec (shape0 b) (shape0 f0)), (Nat.eqb_spec (shape1 b) (shape1 f0)); simpl in H; try discriminate; auto. }
        split; apply Forall_forall; intros a Ha; apply In_nth_error in Ha as [k Hka].
        + assert (k << length Ls) as Hkl by (rewrite <- El; apply nth_error_Some; congruence).
          destruct (nth_error Ls k) as [b|] eqn:Hb'; [|apply nth_error_None in Hb'; lia].
          apply (Hk k a b Hka Hb').
        + assert (k << length (f0 :: fs)) as Hkl by (rewrite El; apply nth_error_Some; congruence).
          destruct (nth_error (f0 :: fs) k) as [b|] eqn:Hb'; [|apply nth_error_None in Hb'; lia].
          apply (Hk k b a Hb' Hka).
      - intros [A B] k Hk. rewrite Forall_forall in A, B. unfold body.
        destruct (nth_error (f0 :: fs) k) as [a|] eqn:Ea; [|apply nth_error_None in Ea; lia].
        destruct (nth_error Ls k) as [b|] eqn:Eb; [|apply nth_error_None in Eb; lia].
        destruct (A a) as [-> ->]; [eapply nth_error_In; eassumption|].
        destruct (B b) as [-> ->]; [eapply nth_error_In; eassumption|].
        rewrite !Nat.eqb_refl. reflexivity. }
    pose proof (for_unit_iff T' body) as Hu. rewrite Hfor in Hu. clear Hfor.
    split.
    - intros H. destruct (for_ (seq 0 T') body tt) as [s|]; [|discriminate].
      destruct (proj1 Hu (ex_intro _ s eq_refl)) as [A B].
      destruct (Nat.eqb_spec (shape0 f0) (length lt)) as [E1|]; [|discriminate]. injection H as <-.
      split; [congruence|]. split; [simpl in HT; lia|]. exists lt, (shape0 f0), (shape1 f0). repeat split; auto.
    - intros (A & B & lt' & xd & ud & F1 & F2 & E1 & E2 & ->).
      destruct (Forall_inv F1) as [<- <-].
      destruct (proj2 Hu (conj F1 F2)) as [s ->].
      assert (lt = lt') as Elt by (unfold lt; congruence). rewrite Elt, E1, Nat.eqb_refl. reflexivity. }
  destruct f as [fa|fs], L as [La|Ls]; cbn [stands_for].
  - destruct T as [T|].
    + rewrite Core by apply repeat_length. split.
      * intros (A & B & lt & xd & ud & H). exists T, (repeat fa T), (repeat La T), lt, xd, ud. tauto.
      * intros (T' & fs & Ls & lt & xd & ud & A & -> & -> & [= <-] & H). split; [apply repeat_length|]. split; [exact A|]. exists lt, xd, ud. exact H.
    + split; [discriminate|]. intros (T' & fs & Ls & lt & xd & ud & A & B & C & D & H). discriminate.
  - rewrite Core by apply repeat_length. split.
    + intros (A & B & lt & xd & ud & H). exists (length Ls), (repeat fa (length Ls)), Ls, lt, xd, ud. tauto.
    + intros (T' & fs & Ls' & lt & xd & ud & A & -> & [-> <-] & _ & H). split; [reflexivity|]. split; [exact A|]. exists lt, xd, ud. exact H.
  - rewrite Core by reflexivity. split.
    + intros (A & B & lt & xd & ud & H). exists (length fs), fs, (repeat La (length fs)), lt, xd, ud. tauto.
    + intros (T' & fs' & Ls' & lt & xd & ud & A & [-> <-] & -> & _ & H). split; [apply repeat_length|]. split; [exact A|]. exists lt, xd, ud. exact H.
  - rewrite Core by reflexivity. split.
    + intros (A & B & lt & xd & ud & H). exists (length fs), fs, Ls, lt, xd, ud. tauto.
    + intros (T' & fs' & Ls' & lt & xd & ud & A & [-> <-] & [-> D] & _ & H). split; [exact D|]. split; [exact A|]. exists lt, xd, ud. exact H.
Qed.

Lemma C14_valid one f L LT T (P : fsc K) n m : checkAndExpand one f L LT T = Some P ->
  (forall a, (f = One a \/ exists l, f = Many l /\ In a l) -> arr_ok a /\ shape0 a = n /\ shape1 a = m /\
      Forall (Forall (fun x => x << n)) (adata a)) ->
  (forall a, (L = One a \/ exists l, L = Many l /\ In a l) -> arr_ok a) ->
  (1 <= n)%nat -> (1 <= m)%nat -> valid n m P /\ ff P <> [].
Proof.
  intros H Hf HL Hn Hm. apply C14_lemma in H as (T' & fs & Ls & lt & xd & ud & HT & SF & SL & _ & F1 & F2 & El & _ & ->).
  assert (If : forall a, In a fs -> f = One a \/ exists l, f = Many l /\ In a l).
  { intros a Ha. destruct f as [b|l]; simpl in SF.
    - left. subst fs. apply repeat_spec in Ha. congruence.
    - right. exists l. destruct SF as [-> _]. auto. }
  assert (IL : forall a, In a Ls -> L = One a \/ exists l, L = Many l /\ In a l).
  { intros a Ha. destruct L as [b|l]; simpl in SL.
    - left. subst Ls. apply repeat_spec in Ha. congruence.
    - right. exists l. destruct SL as [-> _]. auto. }
  assert (Lf : length fs = T') by (destruct f; simpl in SF; [subst; apply repeat_length|destruct SF; congruence]).
  assert (LL : length Ls = T') by (destruct L; simpl in SL; [subst; apply repeat_length|destruct SL; congruence]).
  destruct fs as [|f0 fs]; [simpl in Lf; lia|].
  destruct (Hf f0 (If f0 (or_introl eq_refl))) as (_ & Sx & Su & _).
  destruct (Forall_inv F1) as [Ex Eu]. rewrite Sx in Ex. rewrite Su in Eu. subst xd ud.
  split; [|discriminate]. constructor; cbn [ff fL fLT]; try assumption.
  - apply Forall_map, Forall_forall. intros a Ha. destruct (Hf a (If a Ha)) as ([A B] & S1 & S2 & Q).
    split; [congruence|]. rewrite Forall_forall in B, Q |- *. intros r Hr. split; [rewrite <- S2; apply B; exact Hr|apply Q; exact Hr].
  - apply Forall_map, Forall_forall. intros a Ha. destruct (HL a (IL a Ha)) as [A B].
    rewrite Forall_forall in F2. destruct (F2 a Ha) as [S1 S2].
    split; [congruence|]. rewrite Forall_forall in B |- *. intros r Hr. split; [rewrite <- S2; apply B; exact Hr|]. apply Forall_forall; auto.
  - rewrite !map_length. congruence.
  - congruence.
Qed.
End P.
