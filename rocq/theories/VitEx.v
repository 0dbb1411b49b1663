(** Examples for the Viterbi theorems. *)
From Coq Require Import List Arith Lia Reals Lra.
From Verif Require Import ScanModel Ord FscModel FscSpec VitModel VitSpec VitProofs.
Import ListNotations.
Local Open Scope R_scope.

(** ** Non-vacuity: a two-state model, three measurements, a unique best path that leaves the first state. *)
Definition ex_prior : list R := [3/4; 1/4].
Definition ex_Pi : list (list R) := [[3/4; 1/4]; [1/4; 3/4]].
Definition ex_Po : list (list R) := [[7/8; 1/8]; [1/8; 7/8]].
Definition ex_ys : list nat := [0; 1; 1]%nat.
Ltac fl := repeat first [apply Forall_nil | apply Forall_cons].
Lemma ln_le_pred x : 0 < x -> ln x <= x - 1.
Proof.
  intros h. destruct (Req_dec (x - 1) 0) as [E|E].
  - assert (x = 1) as -> by lra. rewrite ln_1. lra.
  - pose proof (exp_ineq1 (x - 1) E) as H. replace (1 + (x - 1)) with x in H by ring.
    left. rewrite <- (ln_exp (x - 1)) at 1. now apply ln_increasing.
Qed.
Lemma ln_bound e : 1/8 <= e <= 1 -> log_bounded 7 e.
Proof.
  intros [h1 h2]. assert (h0 : 0 < e) by lra. split; [exact h0|]. split.
  - assert (Hi : 0 < / e) by now apply Rinv_0_lt_compat.
    assert (H8 : / e <= / (1/8)) by (apply Rinv_le_contravar; lra).
    assert (E8 : / (1/8) = 8) by field. rewrite E8 in H8.
    pose proof (ln_le_pred (/ e) Hi) as H. rewrite ln_Rinv in H by exact h0. lra.
  - pose proof (ln_le_pred e h0). lra.
Qed.
Lemma ex_model : model_ok (log_bounded 7) 2 2 ex_prior ex_Pi ex_Po.
Proof. unfold model_ok, table. split; [lia|]. split; [reflexivity|]. split; [fl; apply ln_bound; lra|]. split; (split; [reflexivity|]); fl; (split; [reflexivity|fl; apply ln_bound; lra]). Qed.
Lemma ex_pos : model_ok (fun e => 0 < e) 2 2 ex_prior ex_Pi ex_Po.
Proof. exact (bounded_pos _ _ _ _ _ _ ex_model). Qed.
Lemma ex_horizon : symbols 2 ex_ys /\ ex_ys <> [] /\ (2 <= length ex_ys)%nat /\ 4 * INR (S (length ex_ys)) * 7 < 10 ^ 20.
Proof. split; [repeat constructor|]. split; [discriminate|]. split; [cbn; lia|cbn; lra]. Qed.
Lemma ex_paths xs : path 2 3 xs -> exists a b c d, (a < 2 /\ b < 2 /\ c < 2 /\ d < 2)%nat /\ xs = [a; b; c; d].
Proof.
  intros [L F]. destruct xs as [|a [|b [|c [|d [|e xs]]]]]; try discriminate. exists a, b, c, d.
  rewrite !Forall_cons_iff in F. tauto.
Qed.
Lemma ex_unique : unique_MAP 2 ex_prior ex_Pi ex_Po ex_ys [0; 0; 1; 1]%nat.
Proof.
  assert (H : forall xs', path 2 3 xs' -> xs' = [0; 0; 1; 1]%nat \/ exists q, joint ex_prior ex_Pi ex_Po xs' ex_ys = Some q /\
     q < 3/4 * (3/4 * (7/8) * (1/4 * (7/8) * (3/4 * (7/8) * 1)))).
  { intros xs' G. destruct (ex_paths xs' G) as (a & b & c & d & (ha & hb & hc & hd) & ->).
    destruct a as [|[|a]]; [| |lia]; (destruct b as [|[|b]]; [| |lia]); (destruct c as [|[|c]]; [| |lia]); (destruct d as [|[|d]]; [| |lia]);
      (left; reflexivity) || (right; eexists; split; [reflexivity|lra]). }
  assert (G0 : path 2 3 [0; 0; 1; 1]%nat) by (split; [reflexivity|repeat constructor]).
  split.
  - split; [exact G0|]. eexists. split; [reflexivity|]. intros xs' G'.
    destruct (H xs' G') as [->|(q & E & h)]; [eexists; split; [reflexivity|lra]|exists q; split; [exact E|lra]].
  - intros xs' [G' (q & E & h)]. destruct (H xs' G') as [->|(q' & E' & h')]; [reflexivity|].
    destruct (h _ G0) as (q2 & E2 & h2). rewrite E in E'. injection E' as <-. cbn in E2. injection E2 as <-. lra.
Qed.
(** for C15 a model with an impossible transition, for C16_values_are_logs a positive one *)
Definition nn (r : R) (h : 0 <= r) : Prob := NN r (proj2 (Rleb_le 0 r) h).
Definition q0 : Prob := nn 0 (Rle_refl 0).
Lemma q14_nonneg : 0 <= 1/4. Proof. lra. Qed.
Definition q14 : Prob := nn (1/4) q14_nonneg.
Lemma q34_nonneg : 0 <= 3/4. Proof. lra. Qed.
Definition q34 : Prob := nn (3/4) q34_nonneg.
Lemma ex_zero : model_ok (fun _ : Prob => True) 2 2 [q34; q14] [[q34; q14]; [q0; nn_one]] [[q34; q14]; [q0; nn_one]] /\ symbols 2 [0; 1]%nat.
Proof. split; [|repeat constructor]. unfold model_ok, table. split; [lia|]. split; [reflexivity|]. split; [fl; exact I|]. split; (split; [reflexivity|]); fl; (split; [reflexivity|fl; exact I]). Qed.
Lemma ex_nnpos : model_ok (fun e : Prob => 0 < nnv e) 2 2 [q34; q14] [[q34; q14]; [q14; q34]] [[q34; q14]; [q14; nn_one]].
Proof. unfold model_ok, table. split; [lia|]. split; [reflexivity|]. split; [fl; cbn; lra|]. split; (split; [reflexivity|]); fl; (split; [reflexivity|fl; cbn; lra]). Qed.
