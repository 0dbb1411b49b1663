(** C15 - C19: maximum a posteriori state estimation. *)
From Coq Require Import List Arith Lia Reals Lra.
From Verif Require Import ScanModel Ord FscModel FscSpec VitModel VitSpec VitProofs VitEx.
Import ListNotations.
Local Open Scope R_scope.

(** C15 *)
Theorem C15_ref_viterbi_MAP :
  forall n ny (prior : list Prob) (Pi Po : list (list Prob)) ys,
  model_ok (fun _ => True) n ny prior Pi Po -> symbols ny ys ->
  let pr := map nnv prior in let pi := map (map nnv) Pi in let po := map (map nnv) Po in
  exists xs Vs, ref_viterbi prior Pi Po ys = Some (xs, Vs) /\ MAP n pr pi po ys xs /\ length Vs = S (length ys) /\
    forall k x, (k <= length ys)%nat -> (x < n)%nat ->
      exists v, get2 Vs k x = Some v /\ best_to n pr pi po (firstn k ys) x (nnv v).
Proof. exact C15_lemma. Qed.
Print Assumptions C15_ref_viterbi_MAP.

(** C16 *)
Theorem C16_log_viterbi_MAP :
  forall n ny prior Pi Po ys, model_ok (fun e => 0 < e) n ny prior Pi Po -> symbols ny ys ->
  (exists xs Vs, ref_viterbi_log prior Pi Po ys = Some (xs, Vs) /\ MAP n prior Pi Po ys xs /\ log_values n prior Pi Po ys Vs) /\
  (exists xs Vs, ref_viterbi_log_v2 prior Pi Po ys = Some (xs, Vs) /\ MAP n prior Pi Po ys xs /\ log_values n prior Pi Po ys Vs).
Proof. exact C16_lemma. Qed.
Print Assumptions C16_log_viterbi_MAP.

Theorem C16_values_are_logs :
  forall n ny (prior : list Prob) (Pi Po : list (list Prob)) ys,
  model_ok (fun e => 0 < nnv e) n ny prior Pi Po -> symbols ny ys ->
  exists xs xs1 xs2 Vs, ref_viterbi prior Pi Po ys = Some (xs, Vs) /\
    ref_viterbi_log (map nnv prior) (map (map nnv) Pi) (map (map nnv) Po) ys = Some (xs1, map (map (fun v => - ln (nnv v))) Vs) /\
    ref_viterbi_log_v2 (map nnv prior) (map (map nnv) Pi) (map (map nnv) Po) ys = Some (xs2, map (map (fun v => - ln (nnv v))) Vs).
Proof. exact C16_values. Qed.
Print Assumptions C16_values_are_logs.

(** C17: the control problem of getFSC, and the sequential and parallel solutions of it *)
Theorem C17_control_cost_is_log_probability :
  forall n ny prior Pi Po ys, model_ok (fun e => 0 < e) n ny prior Pi Po -> symbols ny ys -> ys <> [] ->
  exists P, getFSC prior Pi Po ys = Some P /\ valid n n P /\ length (ff P) = length ys /\
    forall xs q, path n (length ys) xs -> joint prior Pi Po xs ys = Some q ->
      run_cost (ff P) (fL P) (fLT P) (last xs 0%nat) (tl (rev xs)) = Some (- ln q).
Proof. exact C17_fsc. Qed.
Print Assumptions C17_control_cost_is_log_probability.

Theorem C17_seqViterbi_MAP :
  forall n ny prior Pi Po ys, model_ok (fun e => 0 < e) n ny prior Pi Po -> symbols ny ys -> ys <> [] ->
  exists xs Vs, seqViterbi prior Pi Po ys = Some (xs, Vs) /\ MAP n prior Pi Po ys xs /\ log_values n prior Pi Po ys Vs.
Proof. exact C17_seq. Qed.
Print Assumptions C17_seqViterbi_MAP.

Theorem C17_parBwdFwdViterbi_MAP :
  forall b n ny prior Pi Po ys, model_ok (log_bounded b) n ny prior Pi Po -> symbols ny ys -> ys <> [] ->
  4 * INR (S (length ys)) * b < 10 ^ 20 ->
  exists xs Vs, parBwdFwdViterbi prior Pi Po ys = Some (xs, Vs) /\ seqViterbi prior Pi Po ys = Some (xs, Vs) /\
    MAP n prior Pi Po ys xs /\ log_values n prior Pi Po ys Vs.
Proof. exact C17_par. Qed.
Print Assumptions C17_parBwdFwdViterbi_MAP.

(** C18 *)
Theorem C18_parBwdFwdBwdViterbi_unique_MAP :
  forall b n ny prior Pi Po ys xs, model_ok (log_bounded b) n ny prior Pi Po -> symbols ny ys -> ys <> [] ->
  4 * INR (S (length ys)) * b < 10 ^ 20 -> unique_MAP n prior Pi Po ys xs ->
  exists Vs, parBwdFwdBwdViterbi prior Pi Po ys = Some (xs, Vs) /\ log_values n prior Pi Po ys Vs.
Proof. exact C18_lemma. Qed.
Print Assumptions C18_parBwdFwdBwdViterbi_unique_MAP.

(** C19 *)
Theorem C19_tensor_viterbi_MAP :
  forall n ny prior Pi Po ys, model_ok (fun e => 0 < e) n ny prior Pi Po -> symbols ny ys ->
  (exists xs Vs, viterbi_seq_fwbw prior Pi Po ys = Some (xs, Vs) /\ MAP n prior Pi Po ys xs /\ log_values n prior Pi Po ys Vs) /\
  ((2 <= length ys)%nat ->
   (exists xs Vs, viterbi_par_fwbw prior Pi Po ys = Some (xs, Vs) /\ MAP n prior Pi Po ys xs /\ log_values n prior Pi Po ys Vs) /\
   (exists xs Vs, viterbi_seqpar_fwbw prior Pi Po ys = Some (xs, Vs) /\ MAP n prior Pi Po ys xs /\ log_values n prior Pi Po ys Vs) /\
   (forall xs, unique_MAP n prior Pi Po ys xs ->
      exists Vs, viterbi_par_fwbwfw prior Pi Po ys = Some (xs, Vs) /\ log_values n prior Pi Po ys Vs)).
Proof. exact C19_lemma. Qed.
Print Assumptions C19_tensor_viterbi_MAP.

(** ** Non-vacuity: the hypotheses hold for two-state models (VitEx.v); three measurements, a unique best path that leaves the
    first state; for C15 a model with an impossible transition. *)
Example ex_model_holds : model_ok (log_bounded 7) 2 2 ex_prior ex_Pi ex_Po.
Proof. exact ex_model. Qed.
Example ex_pos_holds : model_ok (fun e => 0 < e) 2 2 ex_prior ex_Pi ex_Po.
Proof. exact ex_pos. Qed.
Example ex_horizon_holds : symbols 2 ex_ys /\ ex_ys <> [] /\ (2 <= length ex_ys)%nat /\ 4 * INR (S (length ex_ys)) * 7 < 10 ^ 20.
Proof. exact ex_horizon. Qed.
Example ex_unique_holds : unique_MAP 2 ex_prior ex_Pi ex_Po ex_ys [0; 0; 1; 1]%nat.
Proof. exact ex_unique. Qed.
Example ex_zero_holds : model_ok (fun _ : Prob => True) 2 2 [q34; q14] [[q34; q14]; [q0; nn_one]] [[q34; q14]; [q0; nn_one]] /\ symbols 2 [0; 1]%nat.
Proof. exact ex_zero. Qed.
Example ex_nnpos_holds : model_ok (fun e : Prob => 0 < nnv e) 2 2 [q34; q14] [[q34; q14]; [q14; q34]] [[q34; q14]; [q14; nn_one]].
Proof. exact ex_nnpos. Qed.
