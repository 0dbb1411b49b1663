(** Main lemmas about the TensorFlow finite-state control passes. *)
From Coq Require Import List Arith Lia Bool ZArith Reals Lra.
From Verif Require Import ScanModel ScanSpec ScanUse Ord FscModel FscSpec FscCore FscProofs FscProofs2 FscProofs3 FscProofs4 TfScan VitModel VitSpec VitProofs FscTfModel FscTfSpec FscTfProofs.
Import ListNotations.

Section M.
Variable K : ordcost.
Local Notation "i << n" := (Peano.lt i n) (at level 70).
Local Open Scope nat_scope.

Lemma le_infty_mkP n m infty ss lt : costs_at_most infty (mkP K n m ss lt) -> Forall (le_infty K n m infty) ss.
Proof.
  unfold costs_at_most. cbn [mkP fL]. intros H. rewrite Forall_map in H. eapply Forall_impl; [|exact H].
  intros s Hs x u Hx Hu. rewrite Forall_forall in Hs.
  specialize (Hs (vec m (sL s x))). rewrite Forall_forall in Hs. apply Hs; apply vec_in; eauto.
Qed.
Ltac rep V ss l0 Hok Hn Hm :=
  pose proof (v_n _ _ _ _ V) as Hn; pose proof (v_m _ _ _ _ V) as Hm;
  match type of V with valid ?n ?m ?P => destruct (valid_repr K n m Hn Hm P V) as (ss & l0 & -> & Hok) end.
Ltac nempty := match goal with H : ff (mkP _ _ _ ?ss _) <> [] |- _ => let e := fresh in assert (e : ss <> []) by (intros ->; now apply H) end.

Lemma C77_sb n m (P : fsc K) : valid n m P -> ff P <> [] -> fsc_seq_backwardpass (ff P) (fL P) (fLT P) = seqBackwardPass P.
Proof. intros V ne. rep V ss l0 Hok Hn Hm. nempty. rewrite seqBackward_mkP by assumption. now apply tf_seqBackward_mkP. Qed.

Lemma C77_sf n m (P : fsc K) x0 ul : valid n m P -> ff P <> [] -> x0 << n -> feedback_law n m (length (ff P)) ul ->
  exists us xs, fsc_seq_forwardpass x0 (ff P) ul = Some (xs, us) /\ seqForwardPass P x0 ul = Some (us, xs).
Proof.
  intros V ne Hx Hl. rep V ss l0 Hok Hn Hm. nempty. apply law_repr in Hl as (mus & -> & Hmu & Hml). cbn [mkP ff] in Hml. rewrite map_length in Hml.
  do 2 eexists. split; [|now apply seqForward_mkP]. now apply (tf_seqForward_mkP K n m).
Qed.

Lemma C77_pb n m infty (P : fsc K) mp : valid n m P -> ff P <> [] -> costs_at_most infty P -> scan_fits (length (ff P)) mp ->
  fsc_par_backwardpass infty (ff P) (fL P) (fLT P) mp = parBackwardPass infty P.
Proof.
  intros V ne Hc [H1 H2]. rep V ss l0 Hok Hn Hm. nempty. cbn [mkP ff] in H2. rewrite map_length in H2.
  apply le_infty_mkP in Hc. now apply tf_parBackward_mkP.
Qed.

Lemma C77_pf n m (P : fsc K) x0 ul mp : valid n m P -> ff P <> [] -> x0 << n -> feedback_law n m (length (ff P)) ul ->
  scan_fits (length (ff P)) mp ->
  fsc_par_forwardpass x0 (ff P) ul mp = parForwardPass P x0 ul.
Proof.
  intros V ne Hx Hl [H1 H2]. rep V ss l0 Hok Hn Hm. nempty. apply law_repr in Hl as (mus & -> & Hmu & Hml).
  cbn [mkP ff] in Hml, H2. rewrite map_length in Hml, H2. now apply (tf_parForward_mkP K n m).
Qed.

Lemma values_repr n T (Vs : list (list K)) : value_vectors n T Vs -> exists W, Vs = vec (S T) (fun k => vec n (W k)).
Proof.
  intros [HL HF]. exists (fun k x => nth x (nth k Vs []) czero). rewrite (list_vec [] Vs) at 1. rewrite HL. apply vec_ext.
  intros k Hk. rewrite Forall_forall in HF. rewrite (list_vec czero (nth k Vs [])) at 1. rewrite HF; [reflexivity|]. apply nth_In. lia.
Qed.
Lemma C77_fb n m infty (P : fsc K) x0 ul Vs mp : valid n m P -> ff P <> [] -> x0 << n -> feedback_law n m (length (ff P)) ul ->
  value_vectors n (length (ff P)) Vs -> costs_at_most infty P -> scan_fits (length (ff P)) mp ->
  fsc_par_fwdbwdpass infty x0 (ff P) (fL P) ul Vs mp = parFwdBwdPass infty P x0 ul Vs.
Proof.
  intros V ne Hx Hl HV Hc [H1 H2]. rep V ss l0 Hok Hn Hm. nempty. apply law_repr in Hl as (mus & -> & Hmu & Hml).
  apply values_repr in HV as [W ->]. cbn [mkP ff] in Hml, H2 |- *. rewrite map_length in *.
  apply le_infty_mkP in Hc. now apply (tf_fb K n m).
Qed.

(** ** lists that are too long *)
Lemma map2M_length {A B C} (g : A -> B -> option C) : forall l1 l2 r, map2M g l1 l2 = Some r -> length r = length l1 /\ length r = length l2.
Proof.
  induction l1 as [|a l1 IH]; intros [|b l2] r; cbn; try discriminate; [intros [= <-]; auto|].
  destruct (g a b); [|discriminate]. destruct (map2M g l1 l2) eqn:E; [|discriminate]. intros [= <-]. apply IH in E. cbn. lia.
Qed.
Lemma levels1 mp : 2 <= mp -> 1 <= Nat.log2_up mp. Proof. exact (levels_pos mp). Qed.
Lemma C77_long infty x0 fs (Ls : list (list (list K))) LT us Vs mp : 2 <= mp -> 2 ^ (Nat.log2_up mp + 1) <= S (length fs) ->
  fsc_par_backwardpass infty fs Ls LT mp = None /\ fsc_par_forwardpass x0 fs us mp = None /\
  fsc_par_fwdbwdpass infty x0 fs Ls us Vs mp = None.
Proof.
  intros h1 h2. split; [|split].
  - unfold fsc_par_backwardpass, init_most. destruct (nth_error fs 0) as [f0|]; [|reflexivity].
    destruct (map2M _ fs Ls) as [most|] eqn:E; [|reflexivity]. apply map2M_length in E.
    rewrite tfp_scan_too_long; [reflexivity|now apply levels1|]. unfold levels. rewrite rev_length, app_length. cbn [length]. lia.
  - unfold fsc_par_forwardpass, fwd_init_most. destruct (nth_error fs 0) as [f0|]; [|reflexivity].
    destruct (map2M _ fs us) as [most|] eqn:E; [|reflexivity]. apply map2M_length in E.
    rewrite tfp_scan_too_long; [reflexivity|now apply levels1|]. unfold levels. cbn [length]. lia.
  - unfold fsc_par_fwdbwdpass, init_most. destruct (nth_error Ls 0) as [L0|]; [|reflexivity].
    destruct (fb_init_first infty x0 L0) as [first|]; [|reflexivity]. destruct (nth_error fs 0) as [f0|]; [|reflexivity].
    destruct (map2M _ fs Ls) as [most|] eqn:E; [|reflexivity]. apply map2M_length in E.
    rewrite tfp_scan_too_long; [reflexivity|now apply levels1|]. unfold levels. cbn [length]. lia.
Qed.

(** ** optimality of the parallel passes *)
Lemma between_at_most (lo hi infty : K) (P : fsc K) : costs_between lo hi P ->
  cleb lo czero = true -> cleb czero hi = true ->
  cleb (nmul (S (length (ff P))) hi) (cadd infty (nmul (length (ff P)) lo)) = true -> costs_at_most infty P.
Proof.
  intros [HL _] Hlo Hhi Hb. unfold costs_at_most.
  assert (Hi : cleb hi infty = true).
  { assert (H1 : cleb hi (nmul (S (length (ff P))) hi) = true).
    { replace hi with (nmul 1 hi) at 1 by (cbn; now rewrite cadd_0_r). apply nmul_pos; [exact Hhi|lia]. }
    assert (H2 : cleb (cadd infty (nmul (length (ff P)) lo)) infty = true).
    { replace infty with (cadd infty czero) at 2 by now rewrite cadd_0_r. apply cadd_mono.
      change czero with (nmul 0 lo). apply nmul_neg; [exact Hlo|lia]. }
    eapply cle_trans; [exact H1|]. eapply cle_trans; [exact Hb|exact H2]. }
  eapply Forall_impl; [|exact HL]. intros M. apply Forall_impl. intros r. apply Forall_impl. intros c [_ hc].
  eapply cle_trans; [exact hc|exact Hi].
Qed.
Lemma law_of_bus n m ss (lt : nat -> K) : O << m -> feedback_law n m (length ss) (bus K n m ss lt).
Proof.
  intros Hm. destruct (bus_map K n m Hm ss lt) as (mus & -> & H1 & H2 & _). split; [now rewrite map_length|].
  apply Forall_map. eapply Forall_impl; [|exact H1]. intros mu hmu. split; [apply vec_length|].
  apply Forall_forall. intros u hu. apply vec_in in hu as (i & hi & ->). now apply hmu.
Qed.
Lemma values_of_bVs n m ss (lt : nat -> K) : O << n -> O << m -> value_vectors n (length ss) (bVs K n m ss lt).
Proof.
  intros Hn Hm. rewrite bVs_vec by assumption. split; [apply vec_length|]. apply Forall_forall. intros v hv. apply vec_in in hv as (i & hi & ->). apply vec_length.
Qed.
Lemma bwd_shape n m (P : fsc K) us Vs : valid n m P -> seqBackwardPass P = Some (us, Vs) ->
  feedback_law n m (length (ff P)) us /\ value_vectors n (length (ff P)) Vs.
Proof.
  intros V. rep V ss l0 Hok Hn Hm. rewrite seqBackward_mkP by assumption. intros [= <- <-]. cbn [mkP ff]. rewrite map_length.
  split; [now apply law_of_bus|now apply values_of_bVs].
Qed.
Lemma C77_opt n m (lo hi infty : K) (P : fsc K) x0 mp : valid n m P -> ff P <> [] -> x0 << n -> costs_between lo hi P ->
  cleb lo czero = true -> cleb czero hi = true ->
  cleb (nmul (S (length (ff P))) hi) (cadd infty (nmul (length (ff P)) lo)) = true -> scan_fits (length (ff P)) mp ->
  exists us Vs mu mx, fsc_par_backwardpass infty (ff P) (fL P) (fLT P) mp = Some (us, Vs) /\
    fsc_seq_backwardpass (ff P) (fL P) (fLT P) = Some (us, Vs) /\
    (forall k x, k <= length (ff P) -> x << n -> exists v, get2 Vs k x = Some v /\ least_cost m P k x v) /\
    fsc_par_forwardpass x0 (ff P) us mp = Some (mu, mx) /\ fsc_seq_forwardpass x0 (ff P) us = Some (mx, mu) /\
    optimal m P x0 mu /\ run_states (ff P) x0 mu = Some mx.
Proof.
  intros V ne Hx Hc Hlo Hhi Hb Hs.
  destruct (C05_lemma K n m P V) as (us & Vs & Eb & _ & _ & HV).
  destruct (C06_lemma K n m P x0 V Hx) as (us' & Vs' & mu & mx & v & Eb' & Ef & Ho & Hr & _).
  rewrite Eb in Eb'. injection Eb' as <- <-.
  destruct (bwd_shape n m P us Vs V Eb) as [Hlaw _].
  destruct (C07_bounded K n m lo hi infty P V ne Hc Hlo Hhi Hb) as (us2 & Vs2 & Ep & Es2). rewrite Eb in Es2. injection Es2 as <- <-.
  exists us, Vs, mu, mx.
  split; [rewrite C77_pb with (n := n) (m := m); auto; now apply between_at_most with (lo := lo) (hi := hi)|].
  split; [now rewrite (C77_sb n m)|]. split; [exact HV|].
  destruct (C09_lemma K n m P x0 us V ne Hx Hlaw) as (us3 & xs3 & E3 & E4 & _). rewrite Ef in E4. injection E4 as <- <-.
  split; [now rewrite (C77_pf n m)|].
  destruct (C77_sf n m P x0 us V ne Hx Hlaw) as (us4 & xs4 & E5 & E6). rewrite Ef in E6. injection E6 as <- <-. auto.
Qed.
End M.

(** ** above the constant the two elements differ *)
Definition hugeP : fsc Zcost := @FSC Zcost [[[0]]] [[[200000000000000000000%Z]]] [0%Z].
Lemma C77_differ : exists (P : fsc Zcost) us us' v w, valid 1 1 P /\
  fsc_par_backwardpass (K := Zcost) (10 ^ 20)%Z (ff P) (fL P) (fLT P) 2 = Some (us, [[v]; [0%Z]]) /\ least_cost 1 P 0 0 v /\
  parBackwardPass (K := Zcost) (10 ^ 20)%Z P = Some (us', [[w]; [0%Z]]) /\ (w < v)%Z.
Proof.
  exists hugeP. do 2 eexists. exists 200000000000000000000%Z, (10 ^ 20)%Z.
  assert (V : valid 1 1 hugeP) by (constructor; simpl; try lia; repeat constructor).
  split; [exact V|]. split; [vm_compute; reflexivity|]. split; [|split; [vm_compute; reflexivity|reflexivity]].
  destruct (C05_lemma Zcost 1 1 hugeP V) as (us & Vs & E & _ & _ & H).
  destruct (H 0 0) as (v & Hv & Hl); [simpl; lia|lia|]. vm_compute in E. injection E as <- <-.
  vm_compute in Hv. injection Hv as <-. exact Hl.
Qed.
