(** Lemmas for the continuous reference curve and the initial guess. *)
From Coq Require Import Reals List Arith Lia Lra.
From Verif Require Import ScanModel FscModel ModelsRModel ModelsRSpec.
Import ListNotations.
Local Open Scope R_scope.

Lemma wave_agree c t : tf_wave c t = np_wave c t.
Proof.
  unfold tf_wave, np_wave. cbv zeta.
  replace (1 * (2 * PI / 50) * t) with (2 * PI * t / 50) by field.
  replace (2 * (2 * PI / 50) * t) with (4 * PI * t / 50) by field.
  replace (3 * (2 * PI / 50) * t) with (6 * PI * t / 50) by field.
  replace (4 * (2 * PI / 50) * t) with (8 * PI * t / 50) by field.
  replace (5 * (2 * PI / 50) * t) with (10 * PI * t / 50) by field.
  replace (6 * (2 * PI / 50) * t) with (12 * PI * t / 50) by field.
  reflexivity.
Qed.
Lemma cl_agree_l t : tf_cl_r t = np_cl_r t.
Proof. unfold tf_cl_r, np_cl_r. now rewrite !wave_agree. Qed.
Lemma per k t : cos (2 * INR k * PI * (t + 50) / 50) = cos (2 * INR k * PI * t / 50) /\
  sin (2 * INR k * PI * (t + 50) / 50) = sin (2 * INR k * PI * t / 50).
Proof.
  replace (2 * INR k * PI * (t + 50) / 50) with (2 * INR k * PI * t / 50 + 2 * INR k * PI) by field.
  now rewrite cos_period, sin_period.
Qed.
Lemma wave_per c t : np_wave c (t + 50) = np_wave c t.
Proof.
  unfold np_wave.
  destruct (per 1 t) as [c1 s1], (per 2 t) as [c2 s2], (per 3 t) as [c3 s3], (per 4 t) as [c4 s4], (per 5 t) as [c5 s5], (per 6 t) as [c6 s6].
  cbn [INR] in *.
  replace (2 * 1) with 2 in * by ring. replace (2 * (1 + 1)) with 4 in * by ring.
  replace (2 * (1 + 1 + 1)) with 6 in * by ring. replace (2 * (1 + 1 + 1 + 1)) with 8 in * by ring.
  replace (2 * (1 + 1 + 1 + 1 + 1)) with 10 in * by ring. replace (2 * (1 + 1 + 1 + 1 + 1 + 1)) with 12 in * by ring.
  now rewrite c1, s1, c2, s2, c3, s3, c4, s4, c5, s5, c6, s6.
Qed.
Lemma cl_per_l t : np_cl_r (t + cl_T) = np_cl_r t.
Proof. unfold np_cl_r, cl_T. now rewrite !wave_per. Qed.
Lemma wave0 c : np_wave c 0 = nth 0 c 0 + nth 1 c 0 + nth 3 c 0 + nth 5 c 0 + nth 7 c 0 + nth 9 c 0 + nth 11 c 0.
Proof. unfold np_wave. rewrite !Rmult_0_r. unfold Rdiv. rewrite Rmult_0_l, cos_0, sin_0. ring. Qed.
Lemma cl_end_l : cl_rT = np_cl_r cl_T ++ [0; 0].
Proof.
  replace cl_T with (0 + cl_T) by (unfold cl_T; ring). rewrite cl_per_l. unfold np_cl_r. rewrite !wave0.
  unfold cl_rT, cl_cx, cl_cy. cbn [nth app]. f_equal; [lra|]. f_equal. lra.
Qed.

(** ** initial guess *)
Lemma guess_zero_l dims x0 us xs : guess_zero dims x0 = (us, xs) ->
  length us = length dims /\ length xs = S (length dims) /\ nth_error xs 0 = Some x0 /\
  forall k n m, nth_error dims k = Some (n, m) -> nth_error us k = Some (repeat 0 m) /\ nth_error xs (S k) = Some (repeat 0 n).
Proof.
  unfold guess_zero. intros [= <- <-]. rewrite map_length. cbn [length nth_error]. rewrite map_length.
  repeat split; auto; now rewrite nth_error_map, H.
Qed.
Lemma guess_loop_l dt rs : 0 < dt -> forall dims k cx cy cs count, 0 <= cs ->
  (forall j n m, nth_error dims j = Some (n, m) -> (4 <= n)%nat) ->
  (forall j, (j < length dims)%nat -> exists r, nth_error rs (k + j) = Some r /\ (3 <= length r)%nat) ->
  exists us xs, guess_loop dt dims rs k cx cy cs count = Some (us, xs) /\ length us = length dims /\ length xs = length dims /\
  forall j n m r, nth_error dims j = Some (n, m) -> nth_error rs (k + j) = Some r ->
    nth_error us j = Some (repeat 0 m) /\ exists s, 0 <= s /\ nth_error xs j = Some (firstn 3 r ++ s :: repeat 0 (n - 4)).
Proof.
  intros hdt. induction dims as [|[n m] dims IH]; intros k cx cy cs count hcs hd hr.
  - exists [], []. cbn. repeat split; auto; destruct j; discriminate.
  - cbn [guess_loop fst snd]. destruct (hr 0%nat ltac:(cbn; lia)) as (r & hr0 & hl). rewrite Nat.add_0_r in hr0. rewrite hr0.
    destruct r as [|r0 [|r1 [|r2 r']]]; cbn in hl; try lia. cbn [nth_error].
    pose proof (hd 0%nat n m eq_refl) as hn. destruct n as [|[|[|[|n]]]]; try lia. cbn [zeros repeat upd].
    set (jump := if Rlt_dec _ _ then _ else _). set (cs' := if jump then _ else cs).
    assert (h : 0 <= cs').
    { unfold cs'. destruct jump; [|exact hcs]. apply Rmult_le_pos; [apply sqrt_pos|].
      apply Rlt_le, Rinv_0_lt_compat, Rmult_lt_0_compat; [|exact hdt]. apply lt_0_INR. lia. }
    destruct (IH (S k) (if jump then r0 else cx) (if jump then r1 else cy) cs' (if jump then O else S count) h) as (us & xs & E & l1 & l2 & H).
    + intros j. exact (hd (S j)).
    + intros j hj. destruct (hr (S j)) as (r & h1 & h2); [cbn; lia|]. exists r. now rewrite Nat.add_succ_r in h1.
    + rewrite E. do 2 eexists. split; [reflexivity|]. cbn [length]. split; [lia|]. split; [lia|].
      intros j n' m' r hj hrj. destruct j as [|j].
      * injection hj as <- <-. rewrite Nat.add_0_r, hr0 in hrj. injection hrj as <-. split; [reflexivity|].
        exists cs'. split; [exact h|]. cbn [nth_error firstn app]. cbn. now rewrite ?Nat.sub_0_r.
      * cbn [nth_error] in *. apply H; [exact hj|]. now rewrite <- hrj, Nat.add_succ_r.
Qed.
Lemma guess_ref_l dt dims rs x0 : 0 < dt -> (0 < length dims)%nat ->
  (forall k n m, nth_error dims k = Some (n, m) -> (4 <= n)%nat) ->
  (forall k, (k < length dims)%nat -> exists r, nth_error rs k = Some r /\ (3 <= length r)%nat) ->
  exists us xs, guess_ref dt dims rs x0 = Some (us, xs) /\ length us = length dims /\ length xs = S (length dims) /\ nth_error xs 0 = Some x0 /\
  forall k n m r, nth_error dims k = Some (n, m) -> nth_error rs k = Some r ->
    nth_error us k = Some (repeat 0 m) /\ exists s, 0 <= s /\ nth_error xs (S k) = Some (firstn 3 r ++ s :: repeat 0 (n - 4)).
Proof.
  intros hdt h0 hd hr. unfold guess_ref. destruct (hr 0%nat h0) as (r & E & hl). rewrite E.
  destruct r as [|r0 [|r1 r']]; cbn in hl; try lia. cbn [nth_error].
  destruct (guess_loop_l dt rs hdt dims 0 r0 r1 0 0 (Rle_refl 0) hd hr) as (us & xs & -> & l1 & l2 & H).
  do 2 eexists. split; [reflexivity|]. cbn [length nth_error]. repeat split; auto; eapply H; eauto.
Qed.
