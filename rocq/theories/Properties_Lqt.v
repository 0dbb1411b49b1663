(** Property theorems about lqt_np.py (C20-C31). *)
From mathcomp Require Import all_ssreflect all_algebra.
From Verif Require Import ScanSpec MxBase LqtModel LqtSpec LqtElem LqtProofs LqtPar LqtMore LqtBatchModel LqtBatch LqtAsym LqtEx.
Import Order.TTheory GRing.Theory Num.Theory.
Set Implicit Arguments. Unset Strict Implicit. Unset Printing Implicit Defensive.
Local Open Scope ring_scope.
Local Notation Qf := [realFieldType of rat].

(** The hypothesis [problem_ok] follows from the usual definiteness conditions. *)
Theorem C20_admissible_without_cross_terms :
  forall (R : realFieldType) n m p (s : stage R n m p),
  symm (sX s) -> psd (sX s) -> symm (sU s) -> pd (sU s) -> sZ s \in unitmx -> sM s = 0 -> stage_ok s.
Proof. exact stage_ok_no_cross. Qed.
Print Assumptions C20_admissible_without_cross_terms.
Theorem C20_admissible_with_cross_terms :
  forall (R : realFieldType) n m p (s : stage R n m p),
  symm (sX s) -> symm (sU s) -> pd (sU s) -> sZ s \in unitmx ->
  psd (sX s - sM s *m invmx (sU s) *m (sM s)^T) -> stage_ok s.
Proof. exact stage_ok_reduced. Qed.
Print Assumptions C20_admissible_with_cross_terms.

(** a problem of three steps with cross terms and Z = 2 I is admissible *)
Example ex_admissible : problem_ok (ex_P (2%:R%:M : 'M[rat]_2)).
Proof. exact (ex_problem_ok (unit2 _)). Qed.
Example ex_admissible1 : problem_ok (ex_P (1%:M : 'M[rat]_2)).
Proof. exact (ex_problem_ok (unitmx1 _ _)). Qed.
Example ex_nonempty : stages (ex_P (2%:R%:M : 'M[rat]_2)) <> [::].
Proof. discriminate. Qed.

(** C20 *)
Theorem C20_seq_passes_optimal :
  forall (R : realFieldType) n m (P : lqt R n m) (x0 : 'cV[R]_n), problem_ok P ->
  exists Ks ds Ss vs us xs,
  [/\ seqBackwardPass P = Some (Ks, ds, Ss, vs), seqForwardPass P x0 Ks ds = Some (us, xs),
      unique_minimiser P x0 us, xs = traj (stages P) x0 us & lqt_cost P us xs = Some (total_cost P x0 us)].
Proof. exact seq_optimal. Qed.
Print Assumptions C20_seq_passes_optimal.
Example C20_example (x0 : 'cV[rat]_2) := C20_seq_passes_optimal x0 ex_admissible.

(** the returned S, v are the value functions, up to a constant per step *)
Theorem C20_value_functions :
  forall (R : realFieldType) n m (P : lqt R n m) Ks ds Ss vs, problem_ok P ->
  seqBackwardPass P = Some (Ks, ds, Ss, vs) ->
  [/\ size Ks = size (stages P), size ds = size (stages P), size Ss = (size (stages P)).+1 & size vs = (size (stages P)).+1] /\
  forall k, (k <= size (stages P))%N ->
    exists c, forall x, least_cost_from P k x (quad (nth 0 Ss k) (nth 0 vs k) x + c).
Proof. exact seq_values. Qed.
Print Assumptions C20_value_functions.

(** seqSimulation and cost are the simulation and its cost, for any weights *)
Theorem C20_simulation_and_cost :
  forall (R : realFieldType) n m (P : lqt R n m) x0 us, size us = size (stages P) ->
  seqSimulation P x0 us = Some (traj (stages P) x0 us) /\
  lqt_cost P us (traj (stages P) x0 us) = Some (total_cost P x0 us).
Proof. exact sim_and_cost. Qed.
Print Assumptions C20_simulation_and_cost.

(** C21 *)
Theorem C21_combine_defined_and_closed :
  forall (R : realFieldType) n, closed_on (@elem_ok R n) (@combine_abcej R n).
Proof. exact combine_closed. Qed.
Print Assumptions C21_combine_defined_and_closed.
Theorem C21_combine_associative :
  forall (R : realFieldType) n, assoc_on (@elem_ok R n) (@combine_abcej R n).
Proof. exact combine_assoc. Qed.
Print Assumptions C21_combine_associative.
Example C21_example : elem_ok (Elem (exF Qf) (exc Qf) 1%:M (exc Qf) 1%:M).
Proof. exact (And4 (@symm1 Qf 2) (pd_psd (@pd1 Qf 2)) (@symm1 Qf 2) (pd_psd (@pd1 Qf 2))). Qed.

(** C22 *)
Theorem C22_par_backward_eq_seq :
  forall (R : realFieldType) n m (P : lqt R n m), symm (XT P) /\ psd (XT P) ->
  all_stages (fun s => stage_ok s) (stages P) -> stages P <> [::] ->
  parBackwardPass P = seqBackwardPass P /\ parBackwardPass P <> None.
Proof. exact par_backward_eq. Qed.
Print Assumptions C22_par_backward_eq_seq.

(** C23 *)
Theorem C23_par_forward_eq_seq :
  forall (R : realFieldType) n m (P : lqt R n m) x0 Ks ds, Ks <> [::] ->
  parForwardPass P x0 Ks ds = seqForwardPass P x0 Ks ds.
Proof. exact par_forward_eq. Qed.
Print Assumptions C23_par_forward_eq_seq.

(** C24 is false: without steps the parallel pass raises. *)
Theorem C24_zero_steps_refuted :
  forall (R : realFieldType) n m (P : lqt R n m) (x0 : 'cV[R]_n) ds,
  parForwardPass P x0 [::] ds = None /\ seqForwardPass P x0 [::] ds = Some ([::], [:: x0]).
Proof. exact par_forward_empty. Qed.
Print Assumptions C24_zero_steps_refuted.

(** C25 *)
Theorem C25_fwdbwd_eq_seq :
  forall (R : realFieldType) n m (P : lqt R n m), symm (XT P) /\ psd (XT P) ->
  forall x0 Ks ds Ss vs, all_stages (fun s => stage_ok s) (stages P) -> stages P <> [::] ->
  seqBackwardPass P = Some (Ks, ds, Ss, vs) ->
  [/\ parFwdBwdPass P x0 Ks ds Ss vs = seqForwardPass P x0 Ks ds,
      parFwdBwdPass2 P x0 Ks ds Ss vs = seqForwardPass P x0 Ks ds & seqForwardPass P x0 Ks ds <> None].
Proof. exact fwdbwd_eq. Qed.
Print Assumptions C25_fwdbwd_eq_seq.

(** C26 *)
Theorem C26_batch_eq_seq :
  forall (R : realFieldType) n m p T' (st : nat -> stage R n m p) (bXT : 'M[R]_p) (bHT : 'M[R]_(p, n)) (brT : 'cV[R]_p) x0,
  problem_ok (batch_lqt T'.+1 st bXT bHT brT) ->
  exists Ks ds Ss vs us xs,
  [/\ seqBackwardPass (batch_lqt T'.+1 st bXT bHT brT) = Some (Ks, ds, Ss, vs),
      seqForwardPass (batch_lqt T'.+1 st bXT bHT brT) x0 Ks ds = Some (us, xs) &
      batchSolution T'.+1 st bXT bHT brT x0 = Some (us, xs)].
Proof. exact batch_eq. Qed.
Print Assumptions C26_batch_eq_seq.
Example C26_example : problem_ok (batch_lqt 4 (fun k => ex_stage (2%:R%:M : 'M[rat]_2) k%:R) 1%:M (exF Qf) (exc Qf)).
Proof. exact (ex_batch_ok 4 (unit2 _)). Qed.

(** C27 *)
Theorem C27_transformed_eq_seq :
  forall (R : realFieldType) n m (P : lqt R n m), problem_ok P -> stages P <> [::] ->
  all_stages (fun s => sZ s = 1%:M) (stages P) ->
  (exists p, all_stages (fun s => vp s = p) (stages P)) ->
  seqTransformedBackwardPass P = seqBackwardPass P /\ seqBackwardPass P <> None.
Proof. exact transformed_eq. Qed.
Print Assumptions C27_transformed_eq_seq.
Example C27_example : let P := ex_P (1%:M : 'M[rat]_2) in
  problem_ok P /\ all_stages (fun s => sZ s = 1%:M) (stages P) /\ all_stages (fun s => vp s = 2%N) (stages P).
Proof. exact (ex_trans_ok _). Qed.

(** C28 is false: weights with positive definite symmetric part, yet the result is not the minimum. *)
Theorem C28_any_weights_refuted :
  forall R : realFieldType, exists (P : lqt R 1 1) (x0 : 'cV[R]_1),
  pd (XT P) /\ all_stages (fun s => pd (sX s) /\ pd (sU s)) (stages P) /\
  exists Ks ds Ss vs us xs us' xs' c c',
  [/\ seqBackwardPass P = Some (Ks, ds, Ss, vs), seqForwardPass P x0 Ks ds = Some (us, xs) & lqt_cost P us xs = Some c] /\
  [/\ seqSimulation P x0 us' = Some xs', lqt_cost P us' xs' = Some c', size us' = size (stages P) & c' < c].
Proof. exact asym_refuted. Qed.
Print Assumptions C28_any_weights_refuted.

(** C30 *)
Theorem C30_lqr_optimal :
  forall (R : realFieldType) n m (q : lqr R n m), lqr_ok q -> forall T x0, exists Ks Ss us xs,
  [/\ lqr_seqBackwardPass q T = Some (Ks, Ss), lqr_seqForwardPass q x0 Ks = (us, xs), size us = T,
      lqr_cost q us x0 = qf (head 0 Ss) x0 / 2%:R &
      forall us', size us' = T -> us' <> us -> lqr_cost q us x0 < lqr_cost q us' x0].
Proof. exact lqr_optimal. Qed.
Print Assumptions C30_lqr_optimal.
Theorem C30_lqr_is_lqt :
  forall (R : realFieldType) n m (q : lqr R n m) T,
  seqBackwardPass (lqt_of_lqr q T) =
  (if lqr_seqBackwardPass q T is Some (Ks, Ss) then Some (Ks, nseq T 0, Ss, nseq T.+1 0) else None).
Proof. exact lqr_seqE. Qed.
Print Assumptions C30_lqr_is_lqt.
Theorem C30_lqr_par_backward_eq_seq :
  forall (R : realFieldType) n m (q : lqr R n m), lqr_ok q -> forall T,
  lqr_parBackwardPass q T = lqr_seqBackwardPass q T /\ lqr_seqBackwardPass q T <> None.
Proof. exact lqr_par_backward_eq. Qed.
Print Assumptions C30_lqr_par_backward_eq_seq.
Theorem C30_lqr_par_forward_eq_seq :
  forall (R : realFieldType) n m (q : lqr R n m) x0 Ks, Ks <> [::] ->
  lqr_parForwardPass q x0 Ks = Some (lqr_seqForwardPass q x0 Ks).
Proof. exact lqr_par_forward_eq. Qed.
Print Assumptions C30_lqr_par_forward_eq_seq.
Definition ex_lqr : lqr Qf 2 2 := Lqr (exF Qf) (exF Qf)^T 1%:M 1%:M 1%:M.
Example C30_example : lqr_ok ex_lqr.
Proof. exact (And3 (conj (@symm1 Qf 2) (pd_psd (@pd1 Qf 2))) (conj (@symm1 Qf 2) (@pd1 Qf 2)) (conj (@symm1 Qf 2) (pd_psd (@pd1 Qf 2)))). Qed.

(** C31 *)
Theorem C31_doubling_eq_iteration :
  forall (R : realFieldType) n m (q : lqr R n m), lqr_ok q -> forall k, exists K Sv Kl,
  [/\ lqrDouble q k = Some (K, Sv),
      (exists Sl, lqrIter q (2 ^ k) = Some (Some K, Sl)) & lqrIter q (2 ^ k).-1 = Some (Kl, Sv)].
Proof. exact lqr_double_eq. Qed.
Print Assumptions C31_doubling_eq_iteration.
