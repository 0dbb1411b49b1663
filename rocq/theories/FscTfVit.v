(** Maximum a posteriori estimation through the TensorFlow finite-state control passes. *)
From Coq Require Import List Arith Lia Bool Reals Lra.
From Verif Require Import ScanModel Ord FscModel FscSpec FscCore FscProofs FscProofs2 FscProofs3 FscProofs4 TfScan VitModel VitSpec VitCore VitProofs FscTfModel FscTfSpec FscTfProofs FscTfMain.
Import ListNotations.

Section G.
Variable K : ordcost.
Variables (n m : nat) (P : fsc K).
Hypothesis V : valid n m P.
Hypothesis ne : ff P <> [].
Lemma first_state us Vs : seqBackwardPass P = Some (us, Vs) ->
  exists V0 x0, nth_error Vs 0 = Some V0 /\ argmin V0 = Some x0 /\ x0 < n.
Proof.
  intros E. destruct (bwd_shape K n m P us Vs V E) as [_ [HL HF]]. destruct Vs as [|V0 Vs]; [discriminate|].
  exists V0. inversion HF as [|? ? h]; subst. pose proof (v_n _ _ _ _ V). exists (amin (length V0) (fun i => nth i V0 czero)).
  split; [reflexivity|]. split; [|now apply amin_lt]. rewrite (list_vec czero V0) at 1. now apply argmin_vec.
Qed.
Lemma vit_seq : viterbi_fsc_seq_bwfw (ff P) (fL P) (fLT P) =
  (do r <- seqBackwardPass P; let '(us, Vs) := r in
   do V0 <- nth_error Vs 0; do x0 <- argmin V0;
   do s <- seqForwardPass P x0 us; let '(_, xs) := s in Some (rev xs, rev Vs)).
Proof.
  unfold viterbi_fsc_seq_bwfw. rewrite (C77_sb K n m) by assumption.
  destruct (seqBackwardPass P) as [[us Vs]|] eqn:E; [|reflexivity].
  destruct (first_state us Vs E) as (V0 & x0 & -> & -> & hx). destruct (bwd_shape K n m P us Vs V E) as [Hl _].
  destruct (C77_sf K n m P x0 us V ne hx Hl) as (mu & mx & -> & ->). reflexivity.
Qed.
Variable infty : K.
Hypothesis Hc : costs_at_most infty P.
Hypothesis Ht : 2 <= length (ff P).
Hypothesis Hpar : forall us Vs, seqBackwardPass P = Some (us, Vs) -> parBackwardPass infty P = Some (us, Vs).
Lemma fits : scan_fits (length (ff P)) (length (ff P)).
Proof.
  split; [exact Ht|]. pose proof (Nat.log2_up_spec (length (ff P)) ltac:(lia)) as [_ h].
  rewrite Nat.add_1_r, Nat.pow_succ_r'. lia.
Qed.
Lemma vit_par : viterbi_fsc_par_bwfw infty (ff P) (fL P) (fLT P) =
  (do r <- parBackwardPass infty P; let '(us, Vs) := r in
   do V0 <- nth_error Vs 0; do x0 <- argmin V0;
   do s <- parForwardPass P x0 us; let '(_, xs) := s in Some (rev xs, rev Vs)).
Proof.
  unfold viterbi_fsc_par_bwfw. rewrite (C77_pb K n m) by (auto using fits).
  destruct (C05_lemma K n m P V) as (us & Vs & E & _). rewrite (Hpar us Vs E).
  destruct (first_state us Vs E) as (V0 & x0 & -> & -> & hx). destruct (bwd_shape K n m P us Vs V E) as [Hl _].
  rewrite (C77_pf K n m) by (auto using fits). destruct (parForwardPass P x0 us) as [[mu mx]|]; reflexivity.
Qed.
Lemma vit_fb : viterbi_fsc_par_bwfwbw infty (ff P) (fL P) (fLT P) =
  (do r <- parBackwardPass infty P; let '(us, Vs) := r in
   do V0 <- nth_error Vs 0; do x0 <- argmin V0;
   do s <- parFwdBwdPass infty P x0 us Vs; let '(_, xs) := s in Some (rev xs, rev Vs)).
Proof.
  unfold viterbi_fsc_par_bwfwbw. rewrite (C77_pb K n m) by (auto using fits).
  destruct (C05_lemma K n m P V) as (us & Vs & E & _). rewrite (Hpar us Vs E).
  destruct (first_state us Vs E) as (V0 & x0 & -> & -> & hx). destruct (bwd_shape K n m P us Vs V E) as [Hl HV].
  rewrite (C77_fb K n m) by (auto using fits). destruct (parFwdBwdPass infty P x0 us Vs) as [[mu mx]|]; reflexivity.
Qed.
End G.

Local Open Scope R_scope.
Lemma C78_seq n ny prior Pi Po ys : model_ok (fun e => 0 < e) n ny prior Pi Po -> symbols ny ys -> ys <> [] ->
  exists fs Ls LT xs Vs, make_viterbi_fsc prior Pi Po ys = Some (fs, Ls, LT) /\ viterbi_fsc_seq_bwfw fs Ls LT = Some (xs, Vs) /\
    seqViterbi prior Pi Po ys = Some (xs, Vs) /\ MAP n prior Pi Po ys xs /\ log_values n prior Pi Po ys Vs.
Proof.
  intros M S ne. destruct (C17_fsc n ny prior Pi Po ys M S ne) as (P & E & V & L & _).
  destruct (C17_seq n ny prior Pi Po ys M S ne) as (xs & Vs & Es & H1 & H2).
  exists (ff P), (fL P), (fLT P), xs, Vs. split; [unfold make_viterbi_fsc; now rewrite E|].
  split; [|auto]. rewrite (vit_seq Rcost n n P V).
  - unfold seqViterbi in Es. rewrite E in Es. exact Es.
  - intros e. rewrite e in L. now destruct ys.
Qed.

Lemma vit_setup b n ny prior Pi Po ys : model_ok (log_bounded b) n ny prior Pi Po -> symbols ny ys -> (2 <= length ys)%nat ->
  4 * INR (S (length ys)) * b < 10 ^ 20 ->
  exists P, getFSC prior Pi Po ys = Some P /\ valid n n P /\ length (ff P) = length ys /\ ff P <> [] /\
    costs_at_most (K := Rcost) infty P /\ forall us Vs, seqBackwardPass P = Some (us, Vs) -> parBackwardPass infty P = Some (us, Vs).
Proof.
  intros M S ne Hb. pose proof (b_nonneg _ _ _ _ _ _ M) as b0.
  destruct (repr 0 _ n ny prior Pi Po M) as (a & p & o & -> & -> & -> & Ha & Hp & Ho). pose proof M as (Hn & _).
  assert (Hp' : forall i j, (i < n)%nat -> (j < n)%nat -> 0 < p i j) by (intros; now apply Hp).
  assert (Ho' : forall i j, (i < n)%nat -> (j < ny)%nat -> 0 < o i j) by (intros; now apply Ho).
  assert (ne' : ys <> []) by (intros ->; cbn in ne; lia).
  eexists. split; [apply (getFSC_E n ny); auto|]. split; [now apply fsc_valid|]. split; [apply ff_len|]. split; [now apply ff_ne|].
  split.
  - eapply between_at_most.
    + apply (fsc_between n ny a p o b); auto; intros; try apply Ha; try apply Hp; try apply Ho; assumption.
    + apply Rleb_le. cbn. lra.
    + apply Rleb_le. cbn. lra.
    + rewrite ff_len, !nmul_R. apply Rleb_le. change (INR (Datatypes.S (length ys)) * (2 * b) <= infty + INR (length ys) * - (2 * b)). unfold infty.
      rewrite S_INR in *. pose proof (pos_INR (length ys)). nra.
  - intros us Vs E. rewrite (parBackward_E n ny Hn a p o b b0) by (auto; intros; try apply Ha; try apply Hp; try apply Ho; assumption).
    rewrite seqBackward_mkP in E by auto using vssok. exact E.
Qed.
Lemma C78_par b n ny prior Pi Po ys : model_ok (log_bounded b) n ny prior Pi Po -> symbols ny ys -> (2 <= length ys)%nat ->
  4 * INR (S (length ys)) * b < 10 ^ 20 ->
  exists fs Ls LT xs Vs, make_viterbi_fsc prior Pi Po ys = Some (fs, Ls, LT) /\ viterbi_fsc_par_bwfw infty fs Ls LT = Some (xs, Vs) /\
    viterbi_fsc_seq_bwfw fs Ls LT = Some (xs, Vs) /\ parBwdFwdViterbi prior Pi Po ys = Some (xs, Vs) /\
    MAP n prior Pi Po ys xs /\ log_values n prior Pi Po ys Vs.
Proof.
  intros M S h Hb. assert (ne : ys <> []) by (intros ->; cbn in h; lia).
  destruct (vit_setup b n ny prior Pi Po ys M S h Hb) as (P & E & V & L & nf & Hc & Hp).
  destruct (C17_par b n ny prior Pi Po ys M S ne Hb) as (xs & Vs & E1 & E2 & H1 & H2).
  exists (ff P), (fL P), (fLT P), xs, Vs. split; [unfold make_viterbi_fsc; now rewrite E|].
  split; [|split; [|auto]].
  - rewrite (vit_par Rcost n n P V nf infty Hc) by (auto; rewrite L; exact h). unfold parBwdFwdViterbi in E1. rewrite E in E1. exact E1.
  - rewrite (vit_seq Rcost n n P V nf). unfold seqViterbi in E2. rewrite E in E2. exact E2.
Qed.
Lemma C78_fb b n ny prior Pi Po ys xs : model_ok (log_bounded b) n ny prior Pi Po -> symbols ny ys -> (2 <= length ys)%nat ->
  4 * INR (S (length ys)) * b < 10 ^ 20 -> unique_MAP n prior Pi Po ys xs ->
  exists fs Ls LT Vs, make_viterbi_fsc prior Pi Po ys = Some (fs, Ls, LT) /\ viterbi_fsc_par_bwfwbw infty fs Ls LT = Some (xs, Vs) /\
    log_values n prior Pi Po ys Vs.
Proof.
  intros M S h Hb U. assert (ne : ys <> []) by (intros ->; cbn in h; lia).
  destruct (vit_setup b n ny prior Pi Po ys M S h Hb) as (P & E & V & L & nf & Hc & Hp).
  destruct (C18_lemma b n ny prior Pi Po ys xs M S ne Hb U) as (Vs & E1 & H2).
  exists (ff P), (fL P), (fLT P), Vs. split; [unfold make_viterbi_fsc; now rewrite E|]. split; [|exact H2].
  rewrite (vit_fb Rcost n n P V nf infty Hc) by (auto; rewrite L; exact h). unfold parBwdFwdBwdViterbi in E1. rewrite E in E1. exact E1.
Qed.
