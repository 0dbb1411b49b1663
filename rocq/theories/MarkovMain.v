(** Assembled statements for Properties_Markov.v (C58). *)
From Coq Require Import List Arith Bool Reals Lra Lia.
From Verif Require Import ScanModel Ord FscModel FscSpec FscCore FscProofs VitSpec VitModel VitProofs MarkovModel MarkovSpec MarkovFm MarkovGe MarkovText MarkovText2 MarkovText3 MarkovText4.
Import ListNotations.

Section Main.
Variable al : str.
Variable e : R.
Variable o : nat.
Variable M : text_model.
Hypothesis HM : text_init al e o = Some M.
Let n := length al.

Lemma rows_vec N (g : nat -> nat -> R) : (forall i, i < N -> distribution (vec n (g i))) -> Forall distribution (tab N n g).
Proof. intros H. apply Forall_forall. intros r Hr. apply vec_in in Hr as (i & Hi & ->). auto. Qed.
Lemma prob_of_distribution p : distribution p -> Forall probability p.
Proof.
  intros [H1 H2]. apply Forall_forall. intros x Hx. rewrite Forall_forall in H1. split; [apply H1, Hx|]. rewrite <- H2.
  clear H2. induction p as [|a p IH]; [destruct Hx|]. simpl in *.
  assert (0 <= total p)%R by (apply total_nonneg, Forall_forall; intros; apply H1; auto).
  destruct Hx as [->|Hx]; [lra|]. pose proof (H1 a (or_introl eq_refl)). pose proof (IH (fun y Hy => H1 y (or_intror Hy)) Hx). lra.
Qed.
Lemma table_of N (g : nat -> nat -> R) : (forall i, i < N -> distribution (vec n (g i))) -> table N n probability (tab N n g).
Proof.
  intros H. split; [apply tab_length|]. apply Forall_forall. intros r Hr. apply vec_in in Hr as (i & Hi & ->).
  split; [apply vec_length|]. apply prob_of_distribution, H, Hi.
Qed.

Lemma outputs : probability e ->
  table n n probability (get1stOrderPo M) /\ Forall distribution (get1stOrderPo M) /\
  (forall i j, i < n -> j < n -> get2 (get1stOrderPo M) i j = Some ((if (i =? j)%nat then 1 - e else 0) + e / INR n)%R) /\
  (1 <= o ->
   table (n ^ o) n probability (getNthOrderPo M) /\ Forall distribution (getNthOrderPo M) /\
   forall i, i < n ^ o -> nth_error (getNthOrderPo M) i = nth_error (get1stOrderPo M) (i mod n)).
Proof.
  intros He. rewrite (Po1 al e o M HM).
  assert (D : forall i, i < n -> distribution (vec n (po al e i))) by (intros; apply po_distribution; assumption).
  split; [apply table_of, D|]. split; [apply rows_vec, D|]. split.
  { intros i j Hi Hj. fold n. rewrite get2_tab by assumption. reflexivity. }
  intros Ho. rewrite (PoN al e o M HM Ho). fold n.
  assert (D' : forall i, i < n ^ o -> distribution (vec n (po al e (i mod n)))).
  { intros i Hi. apply D, Nat.mod_upper_bound. destruct (pow_n_pos al o i Hi); unfold n; lia. }
  split; [apply table_of, D'|]. split; [apply rows_vec, D'|].
  intros i Hi. unfold tab. assert (i mod n < n) by (apply Nat.mod_upper_bound; destruct (pow_n_pos al o i Hi); unfold n; lia).
  rewrite !vec_nth by assumption. reflexivity.
Qed.

Hypothesis ND : NoDup al.
Lemma transitions text : 1 <= o -> 0 < n -> over al text \/ length text <= o ->
  exists P, getNthOrderPi M text = Some P /\ rows_proportional (n ^ o) (n ^ o) (context_weight al text o) P /\
    forall i j, i < n ^ o -> j < n ^ o -> ~ overlap (ith_string al o i) (ith_string al o j) ->
      exists p, get2 P i j = Some p /\ (p <= / 10 ^ 12 / INR n)%R.
Proof.
  intros Ho Hn HO. destruct (PiN al e o M HM ND text Ho HO Hn) as (P & E & HP). exists P. split; [exact E|]. split; [exact HP|].
  intros i j Hi Hj Nov. destruct HP as (_ & _ & HP). exists (context_weight al text o i j / total (map (context_weight al text o i) (seq 0 (n ^ o))))%R.
  split; [apply HP; assumption|].
  assert (W : context_weight al text o i j = (/ 10 ^ 12)%R).
  { unfold context_weight. cbv zeta. destruct (list_eq_dec _ _ _) as [Ov|_]; [contradiction|lra]. }
  rewrite W. pose proof (row_total_ge al e o M HM text i Ho Hi) as G. fold n in G. pose proof floor_pos.
  assert (0 < INR n)%R by (apply lt_0_INR; exact Hn).
  unfold Rdiv. apply Rmult_le_compat_l; [lra|]. apply Rinv_le_contravar; assumption.
Qed.

Lemma raises text : 
  (text = [] \/ (2 <= length text /\ ~ over al text) -> get1stOrderPi M text = None) /\
  (~ over al text -> get1stOrderPrior M text = None) /\
  (1 <= o -> o < length text -> ~ over al text -> getNthOrderPi M text = None) /\
  (1 <= o -> o <= length text -> ~ over al text -> getNthOrderPrior M text = None).
Proof.
  split; [apply (Pi1_none al e o M HM ND)|]. split; [apply (prior1_none al e o M HM ND)|].
  split; [apply (PiN_none al e o M HM ND)|apply (priorN_none al e o M HM ND)].
Qed.

Lemma conversion :
  (forall text ys, textToIndex M text = Some ys <-> Forall2 (fun c y => nth_error al y = Some c) text ys) /\
  (forall text, textToIndex M text = None <-> ~ over al text) /\
  (forall text ys, textToIndex M text = Some ys -> indexToText M ys = Some text) /\
  (0 < n -> forall ys, exists t, indexToText M ys = Some t /\ textToIndex M t = Some (map (fun y => y mod n) ys)) /\
  (0 < n -> 1 <= o -> forall xs, indexToText M xs = Some (map (fun i => last (ith_string al o i) 0) xs)).
Proof.
  split; [apply (toIndex_iff al e o M HM ND)|]. split; [apply (toIndex_none al e o M HM ND)|].
  split; [apply (toText_toIndex al e o M HM ND)|]. split; [intros Hn ys; apply (toIndex_toText al e o M HM ND); exact Hn|].
  intros Hn Ho xs. apply (toText_context al e o M HM); assumption.
Qed.
End Main.
