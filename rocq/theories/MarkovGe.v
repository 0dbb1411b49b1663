(** Lemmas on random choice and on the Gilbert-Elliott model (C57). *)
From Coq Require Import List Arith ZArith Bool Reals Lra Lia.
From Verif Require Import ScanModel Ord FscModel FscSpec FscCore FscProofs VitSpec VitModel VitProofs MarkovModel MarkovSpec MarkovFm.
Import ListNotations.
Local Open Scope R_scope.

Lemma Rsum_total l : Rsum l = total l.
Proof. reflexivity. Qed.
Lemma total_app l l' : total (l ++ l') = total l + total l'.
Proof. unfold total. induction l; simpl; lra. Qed.
Lemma total_nonneg l : Forall (fun p => 0 <= p) l -> 0 <= total l.
Proof. induction 1; simpl; lra. Qed.

Lemma search_spec : forall p acc u, Forall (fun e => 0 <= e) p -> acc <= u < acc + total p ->
  (search acc p u < length p)%nat /\
  acc + total (firstn (search acc p u) p) <= u < acc + total (firstn (search acc p u) p) + nth (search acc p u) p 0.
Proof.
  induction p as [|a p IH]; intros acc u HF Hu; simpl in *; [lra|].
  pose proof (Forall_inv HF) as Ha. pose proof (Forall_inv_tail HF) as HF'.
  destruct (Rltb u (acc + a)) eqn:E.
  - apply Rltb_lt in E. split; [lia|]. simpl. lra.
  - apply Rltb_ge in E. destruct (IH (acc + a) u HF') as [I1 I2]; [lra|]. split; [lia|]. simpl. lra.
Qed.
Lemma firstn_total_le p : Forall (fun e => 0 <= e) p -> forall i j, (i <= j)%nat -> total (firstn i p) <= total (firstn j p).
Proof.
  induction 1 as [|a p Ha HF IH]; intros i j Hij; [rewrite !firstn_nil; lra|].
  destruct j as [|j]; [replace i with 0%nat by lia; lra|].
  destruct i as [|i]; simpl.
  - pose proof (total_nonneg (firstn j p) (Forall_firstn _ _ _ HF)). lra.
  - pose proof (IH i j ltac:(lia)). lra.
Qed.
Lemma firstn_S_total p i : (i < length p)%nat -> total (firstn (S i) p) = total (firstn i p) + nth i p 0.
Proof.
  revert i; induction p as [|a p IH]; intros i Hi; simpl in Hi; [lia|].
  destruct i as [|i]; [simpl; lra|].
  change (a + total (firstn (S i) p) = a + total (firstn i p) + nth i p 0). rewrite IH by lia. lra.
Qed.
Lemma slot_unique p u i j : Forall (fun e => 0 <= e) p -> (i < length p)%nat -> (j < length p)%nat ->
  in_slot p i u -> in_slot p j u -> i = j.
Proof.
  intros HF Hi Hj A B. unfold in_slot in *.
  destruct (Nat.lt_trichotomy i j) as [H|[H|H]]; [exfalso|exact H|exfalso].
  - pose proof (firstn_total_le p HF (S i) j ltac:(lia)) as C. rewrite firstn_S_total in C by exact Hi. lra.
  - pose proof (firstn_total_le p HF (S j) i ltac:(lia)) as C. rewrite firstn_S_total in C by exact Hj. lra.
Qed.

Lemma choice_ok p : distribution p -> forallb (Rleb 0) p && Rleb (Rsum p) 1 && Rleb 1 (Rsum p) = true.
Proof.
  intros [HF Hs]. rewrite Rsum_total, Hs. rewrite (proj2 (Rleb_le 1 1)) by lra. rewrite !andb_true_r.
  apply forallb_forall. intros e He. apply Rleb_le. rewrite Forall_forall in HF. apply HF, He.
Qed.

Lemma choice_spec p u : distribution p -> unit_draw u ->
  exists i, choice p u = Some i /\ (i < length p)%nat /\ in_slot p i u.
Proof.
  intros Hd Hu. unfold choice. rewrite choice_ok by exact Hd. exists (search 0 p u). split; [reflexivity|].
  destruct Hd as [HF Hs]. destruct (search_spec p 0 u HF) as [A B]; [unfold unit_draw in Hu; lra|].
  split; [exact A|]. unfold in_slot. lra.
Qed.
Lemma choice_iff p u i : distribution p -> unit_draw u ->
  (choice p u = Some i <-> (i < length p)%nat /\ in_slot p i u).
Proof.
  intros Hd Hu. destruct (choice_spec p u Hd Hu) as (j & E & Hj & Hs). rewrite E. split.
  - intros [= ->]. split; assumption.
  - intros [Hi Hs']. f_equal. apply (slot_unique p u); try assumption. apply Hd.
Qed.
Lemma choice_raises p u : ~ distribution p -> choice p u = None.
Proof.
  intros H. unfold choice. destruct (_ && _ && _) eqn:E; [|reflexivity]. exfalso. apply H.
  apply andb_prop in E as [E E3]. apply andb_prop in E as [E1 E2]. apply Rleb_le in E2. apply Rleb_le in E3.
  rewrite Rsum_total in *. split; [|lra]. apply Forall_forall. intros e He. rewrite forallb_forall in E1.
  apply Rleb_le, E1, He.
Qed.
Lemma slot_pos p i u : in_slot p i u -> 0 < nth i p 0.
Proof. unfold in_slot. lra. Qed.

(** ** generated data *)
Lemma gen_steps n ny Pi Po (u : nat -> R * R) T : table n n (fun _ => True) Pi -> table n ny (fun _ => True) Po ->
  Forall distribution Pi -> Forall distribution Po -> (forall k, unit_draw (fst (u k)) /\ unit_draw (snd (u k))) ->
  forall a x xs0 ys0, (x < n)%nat ->
  exists x' xs ys, for_ (seq a T)
     (fun k s => let '(x, xs, ys) := s in
        do row <- nth_error Pi x; do x' <- choice row (fst (u k));
        do row' <- nth_error Po x'; do y <- choice row' (snd (u k));
        Some (x', xs ++ [x'], ys ++ [y])) (x, xs0, ys0) = Some (x', xs0 ++ xs, ys0 ++ ys) /\
    length xs = T /\ length ys = T /\ Forall (fun x => (x < n)%nat) xs /\ Forall (fun y => (y < ny)%nat) ys /\
    sampled Pi Po x (map u (seq a T)) xs ys /\ exists q, onward Pi Po x xs ys = Some q /\ 0 < q.
Proof.
  intros [HPl HPf] [HOl HOf] DP DO HU. rewrite Forall_forall in *.
  induction T as [|T IH]; intros a x xs0 ys0 Hx.
  - exists x, [], []. simpl. rewrite !app_nil_r. repeat split; try constructor. exists 1. split; [reflexivity|lra].
  - simpl. destruct (nth_error Pi x) as [row|] eqn:Er; [|apply nth_error_None in Er; lia].
    pose proof (nth_error_In _ _ Er) as Ir. destruct (HPf row Ir) as [Lr _]. destruct (HU a) as [U1 U2].
    destruct (choice_spec row (fst (u a)) (DP row Ir) U1) as (x1 & -> & Hx1 & S1). rewrite Lr in Hx1.
    destruct (nth_error Po x1) as [row'|] eqn:Eo; [|apply nth_error_None in Eo; lia].
    pose proof (nth_error_In _ _ Eo) as Io. destruct (HOf row' Io) as [Lo _].
    destruct (choice_spec row' (snd (u a)) (DO row' Io) U2) as (y1 & -> & Hy1 & S2). rewrite Lo in Hy1.
    destruct (IH (S a) x1 (xs0 ++ [x1]) (ys0 ++ [y1]) Hx1) as (x' & xs & ys & E & L1 & L2 & F1 & F2 & SS & q & Eq & Hq).
    rewrite E. exists x', (x1 :: xs), (y1 :: ys). rewrite <- !app_assoc. split; [reflexivity|].
    split; [simpl; congruence|]. split; [simpl; congruence|]. split; [constructor; assumption|]. split; [constructor; assumption|].
    split.
    + simpl. destruct (u a) as [d1 d2]. simpl in S1, S2. split; [exists row; auto|]. split; [exists row'; auto|exact SS].
    + simpl. unfold get2. rewrite Er, Eo.
      rewrite (nth_error_nth' row 0) by lia. rewrite (nth_error_nth' row' 0) by lia. rewrite Eq.
      exists (nth x1 row 0 * nth y1 row' 0 * q). split; [reflexivity|].
      apply slot_pos in S1. apply slot_pos in S2. apply Rmult_lt_0_compat; [apply Rmult_lt_0_compat; assumption|exact Hq].
Qed.

Lemma gen_data_spec n ny prior Pi Po v (u : nat -> R * R) T :
  length prior = n -> table n n (fun _ => True) Pi -> table n ny (fun _ => True) Po ->
  distribution prior -> Forall distribution Pi -> Forall distribution Po ->
  unit_draw v -> (forall k, unit_draw (fst (u k)) /\ unit_draw (snd (u k))) ->
  exists x xs ys, gen_data prior Pi Po v u T = Some (xs, ys) /\
    length xs = T /\ length ys = T /\ Forall (fun x => (x < n)%nat) (x :: xs) /\ Forall (fun y => (y < ny)%nat) ys /\
    in_slot prior x v /\ sampled Pi Po x (map u (seq 0 T)) xs ys /\
    exists q, joint prior Pi Po (x :: xs) ys = Some q /\ 0 < q.
Proof.
  intros Hl HP HO D DP DO Hv HU. unfold gen_data.
  destruct (choice_spec prior v D Hv) as (x & -> & Hx & Sx). rewrite Hl in Hx.
  destruct (gen_steps n ny Pi Po u T HP HO DP DO HU 0 x [] [] Hx) as (x' & xs & ys & -> & L1 & L2 & F1 & F2 & SS & q & Eq & Hq).
  exists x, xs, ys. split; [reflexivity|]. split; [exact L1|]. split; [exact L2|]. split; [constructor; assumption|].
  split; [exact F2|]. split; [exact Sx|]. split; [exact SS|].
  simpl. rewrite (nth_error_nth' prior 0) by lia. rewrite Eq. exists (nth x prior 0 * q). split; [reflexivity|].
  apply slot_pos in Sx. apply Rmult_lt_0_compat; assumption.
Qed.

(** ** Gilbert-Elliott *)
Ltac fa := repeat match goal with
  | |- Forall _ [] => apply Forall_nil
  | |- Forall _ (_ :: _) => apply Forall_cons
  | |- distribution _ => split
  | |- _ /\ _ => split
  | |- length _ = _ => reflexivity
  end.

Lemma C57_stochastic_lemma p0 p1 p2 q0 q1 :
  probability p0 -> probability p1 -> probability p2 -> probability q0 -> probability q1 ->
  table 4 4 probability (ge_Pi p0 p1 p2) /\ Forall distribution (ge_Pi p0 p1 p2) /\
  table 4 2 probability (ge_Po q0 q1) /\ Forall distribution (ge_Po q0 q1) /\
  length ge_prior = 4%nat /\ distribution ge_prior.
Proof.
  unfold probability. intros A B C D E.
  assert (H : forall a b, 0 <= a <= 1 -> 0 <= b <= 1 -> 0 <= a * b <= 1) by (intros; nra).
  split. { split; [reflexivity|]. unfold ge_Pi. fa; apply H; lra. }
  split. { unfold ge_Pi. fa; cbn [total fold_right]; try (apply H; lra); ring. }
  split. { split; [reflexivity|]. unfold ge_Po. fa; lra. }
  split. { unfold ge_Po. fa; simpl; lra. }
  split; [reflexivity|]. unfold ge_prior. cbn [map]. fa; simpl; lra.
Qed.

Lemma C57_structure_lemma p0 p1 p2 q0 q1 b s b' s' y : (b < 2)%nat -> (s < 2)%nat -> (b' < 2)%nat -> (s' < 2)%nat -> (y < 2)%nat ->
  get2 (ge_Pi p0 p1 p2) (2 * b + s) (2 * b' + s') = Some (flip p0 p1 s s' * flip p2 p2 b b') /\
  get2 (ge_Po q0 q1) (2 * b + s) y = Some (let q := if (s =? 0)%nat then q0 else q1 in flip q q b y).
Proof.
  intros Hb Hs Hb' Hs' Hy.
  destruct b as [|[|b]]; try lia; destruct s as [|[|s]]; try lia; split;
    try (destruct y as [|[|y]]; try lia; reflexivity);
    destruct b' as [|[|b']]; try lia; destruct s' as [|[|s']]; try lia; reflexivity.
Qed.

Lemma C57_bits_lemma (l : list (nat * nat)) : Forall (fun p => (fst p < 2)%nat /\ (snd p < 2)%nat) l ->
  get_b_list (map (fun p => Z.of_nat (2 * fst p + snd p)) l) = map (fun p => Z.of_nat (fst p)) l.
Proof.
  intros H. unfold get_b_list. rewrite map_map. apply map_ext_in. intros [b s] Hi.
  rewrite Forall_forall in H. destruct (H _ Hi) as [Hb Hs]. simpl in Hb, Hs.
  destruct b as [|[|b]]; try lia; destruct s as [|[|s]]; try lia; reflexivity.
Qed.
Lemma C57_index_lemma x : (x < 4)%nat <-> exists b s, (b < 2)%nat /\ (s < 2)%nat /\ x = (2 * b + s)%nat /\
  forall b' s', (b' < 2)%nat -> (s' < 2)%nat -> x = (2 * b' + s')%nat -> b' = b /\ s' = s.
Proof.
  split.
  - intros H. exists (x / 2)%nat, (x mod 2)%nat. pose proof (Nat.div_mod x 2 ltac:(lia)). pose proof (Nat.mod_upper_bound x 2 ltac:(lia)).
    split; [lia|]. split; [lia|]. split; [lia|]. intros. lia.
  - intros (b & s & Hb & Hs & -> & _). lia.
Qed.

Lemma ge_values : probability (3/100) /\ probability (1/10) /\ probability (5/100) /\ probability (3/10).
Proof. unfold probability. lra. Qed.
Lemma table_weak {X} n m (Q Q' : X -> Prop) M : (forall x, Q x -> Q' x) -> table n m Q M -> table n m Q' M.
Proof.
  intros H [A B]. split; [exact A|]. eapply Forall_impl; [|exact B]. intros r [C D]. split; [exact C|].
  eapply Forall_impl; [|exact D]. exact H.
Qed.
Lemma ge_tables : table 4 4 (fun _ => True) gePi /\ Forall distribution gePi /\
  table 4 2 (fun _ => True) gePo /\ Forall distribution gePo /\ length ge_prior = 4%nat /\ distribution ge_prior.
Proof.
  destruct ge_values as (A & B & C & D).
  destruct (C57_stochastic_lemma _ _ _ _ _ A B C B D) as (H1 & H2 & H3 & H4 & H5 & H6).
  split; [eapply table_weak; [|exact H1]; auto|]. split; [exact H2|].
  split; [eapply table_weak; [|exact H3]; auto|]. auto.
Qed.

Lemma C57_data_lemma v u T : unit_draw v -> (forall k, unit_draw (fst (u k)) /\ unit_draw (snd (u k))) ->
  exists x xs ys, ge_genData v u T = Some (xs, ys) /\ length xs = T /\ length ys = T /\
    Forall (fun x => (x < 4)%nat) (x :: xs) /\ symbols 2 ys /\
    in_slot ge_prior x v /\ sampled gePi gePo x (map u (seq 0 T)) xs ys /\
    exists q, joint ge_prior gePi gePo (x :: xs) ys = Some q /\ 0 < q.
Proof.
  intros Hv HU. destruct ge_tables as (A & B & C & D & E & F). apply gen_data_spec; assumption.
Qed.

Lemma ge_model_ok : model_ok (fun e => 0 < e) 4 2 ge_prior gePi gePo.
Proof.
  split; [lia|]. split; [reflexivity|]. split; [unfold ge_prior; cbn [map]; fa; lra|].
  split; (split; [reflexivity|]); unfold gePi, gePo, ge_Pi, ge_Po; fa; lra.
Qed.
Lemma C57_decode_lemma v u T : unit_draw v -> (forall k, unit_draw (fst (u k)) /\ unit_draw (snd (u k))) -> (1 <= T)%nat ->
  exists xs ys est Vs, ge_genData v u T = Some (xs, ys) /\
    seqViterbi ge_prior gePi gePo ys = Some (est, Vs) /\ MAP 4 ge_prior gePi gePo ys est.
Proof.
  intros Hv HU HT. destruct (C57_data_lemma v u T Hv HU) as (x & xs & ys & E & _ & Ly & _ & Hs & _).
  destruct (C17_seq 4 2 ge_prior gePi gePo ys ge_model_ok Hs) as (est & Vs & E1 & E2 & _).
  { intros ->. simpl in Ly. lia. }
  exists xs, ys, est, Vs. auto.
Qed.
