(** Property theorems about lqt_tf.py (C32, C33, C62, C63). *)
From mathcomp Require Import all_ssreflect all_algebra.
From Verif Require Import TfScan MxBase LqtModel LqtSpec LqtTfModel LqtTfSpec LqtTf LqtTfMore.
Import Order.TTheory GRing.Theory Num.Theory.
Set Implicit Arguments. Unset Strict Implicit. Unset Printing Implicit Defensive.
Local Open Scope ring_scope.
Local Notation Qf := [realFieldType of rat].

(** C32: converting, solving the canonical problem and converting back gives the gains and the value functions
    of the general problem, which are the optimal ones by C20. *)
Theorem C32_gen_canon_gen :
  forall (R : realFieldType) n m p (sts : seq (stage R n m p)) f,
  problem_ok (gen_lqt sts f) -> all_stages (fun t => sZ t = 1%:M) (stages (gen_lqt sts f)) ->
  exists cs Ks ds Ss vs Ks' ds',
  [/\ lqt_gen_to_canon sts = Some cs, lqt_seq_backwardpass cs f = Some (Ss, vs, Ks, ds),
      lqt_canon_to_gen Ks ds sts = Some (Ks', ds') & seqBackwardPass (gen_lqt sts f) = Some (Ks', ds', Ss, vs)] /\
  problem_ok (np_lqt cs f).
Proof. exact tf_gen_canon. Qed.
Print Assumptions C32_gen_canon_gen.
Example C32_example : forall T, problem_ok (gen_lqt (ex_gstages Qf T) (ex_cfinal Qf)) /\
  all_stages (fun t => sZ t = 1%:M) (stages (gen_lqt (ex_gstages Qf T) (ex_cfinal Qf))).
Proof. exact (ex_gen_ok Qf). Qed.

(** C33: every pass of lqt_tf.py returns what the pass of lqt_np.py returns for the problem with control output
    matrix I, no control reference and no cross terms.  [mp] is the argument max_parallel (default 10000). *)
Theorem C33_seq_backward_eq :
  forall (R : realFieldType) n m p (sts : seq (cstage R n m p)) f, problem_ok (np_lqt sts f) ->
  exists Ks ds Ss vs, seqBackwardPass (np_lqt sts f) = Some (Ks, ds, Ss, vs) /\
    lqt_seq_backwardpass sts f = Some (Ss, vs, Ks, ds).
Proof. exact tf_seq_backward_eq. Qed.
Print Assumptions C33_seq_backward_eq.
Theorem C33_seq_forward_eq :
  forall (R : realFieldType) n m p (sts : seq (cstage R n m p)) f x0 Ks ds,
  sts <> [::] -> size Ks = size sts -> size ds = size sts ->
  exists xs us, seqForwardPass (np_lqt sts f) x0 Ks ds = Some (us, xs) /\ lqt_seq_forwardpass x0 sts Ks ds = Some (xs, us).
Proof. exact tf_seq_forward_eq. Qed.
Print Assumptions C33_seq_forward_eq.
Theorem C33_par_backward_eq :
  forall (R : realFieldType) n m p (sts : seq (cstage R n m p)) f mp,
  problem_ok (np_lqt sts f) -> (size sts < (2 * mp).-1)%N ->
  exists Ks ds Ss vs, seqBackwardPass (np_lqt sts f) = Some (Ks, ds, Ss, vs) /\
    lqt_par_backwardpass sts f mp = Some (Ss, vs, Ks, ds).
Proof. exact tf_par_backward_eq. Qed.
Print Assumptions C33_par_backward_eq.
Theorem C33_par_forward_eq :
  forall (R : realFieldType) n m p (sts : seq (cstage R n m p)) f x0 Ks ds mp,
  sts <> [::] -> size Ks = size sts -> size ds = size sts -> (size sts < 2 * mp)%N ->
  exists xs us, seqForwardPass (np_lqt sts f) x0 Ks ds = Some (us, xs) /\ lqt_par_forwardpass x0 sts Ks ds mp = Some (xs, us).
Proof. exact tf_par_forward_eq. Qed.
Print Assumptions C33_par_forward_eq.
Theorem C33_par_fwdbwd_eq :
  forall (R : realFieldType) n m p (sts : seq (cstage R n m p)) f x0 Ks ds Ss vs mp,
  problem_ok (np_lqt sts f) -> sts <> [::] -> (size sts < (2 * mp).-1)%N ->
  seqBackwardPass (np_lqt sts f) = Some (Ks, ds, Ss, vs) ->
  exists xs us, seqForwardPass (np_lqt sts f) x0 Ks ds = Some (us, xs) /\
    lqt_par_fwdbwdpass x0 sts Ss vs Ks ds mp = Some (xs, us).
Proof. exact tf_fwdbwd_eq. Qed.
Print Assumptions C33_par_fwdbwd_eq.
Theorem C33_cost_eq :
  forall (R : realFieldType) n m p (sts : seq (cstage R n m p)) f us x, size us = size sts ->
  tf_lqt_cost (traj [seq VStage (np_stage s) | s <- sts] x us) us sts f = Some (total_cost (np_lqt sts f) x us).
Proof. exact tf_cost_eq. Qed.
Print Assumptions C33_cost_eq.
Example C33_example : forall T, problem_ok (np_lqt [seq (ex_cstage k%:R : cstage Qf 2 2 2) | k <- iota 0 T] (ex_cfinal Qf)).
Proof. exact (ex_canon_ok Qf). Qed.

(** C62: num_levels mp is max(ceil(log2 mp), 1); from 2^(levels+1) scan elements on the parallel pass raises
    (C33 says that fewer than 2 * max_parallel elements are enough for it to succeed). *)
Theorem C62_long_horizon_refuted :
  forall (R : realFieldType) n m p (sts : seq (cstage R n m p)) f mp,
  (2 ^ (num_levels mp).+1 <= (size sts).+1)%N -> lqt_par_backwardpass sts f mp = None.
Proof. exact tf_par_backward_long. Qed.
Print Assumptions C62_long_horizon_refuted.
Example C62_example : (2 ^ (num_levels 4).+1 <= (size [seq (ex_cstage k%:R : cstage Qf 2 2 2) | k <- iota 0 7]).+1)%N.
Proof. exact isT. Qed.

(** C63: the conversion drops the control reference, so the controls are not optimal for the given problem. *)
Theorem C63_np_to_tf_refuted :
  forall (R : realFieldType), exists (sts : seq (stage R 1 1 1)) f (x0 : 'cV[R]_1),
  problem_ok (gen_lqt sts f) /\
  exists Ss vs Ks ds xs us us',
  [/\ lqt_seq_backwardpass (lqt_np_to_tf sts) f = Some (Ss, vs, Ks, ds),
      lqt_seq_forwardpass x0 (lqt_np_to_tf sts) Ks ds = Some (xs, us),
      size us' = size sts &
      total_cost (gen_lqt sts f) x0 us' < total_cost (gen_lqt sts f) x0 us].
Proof. exact np_to_tf_drops. Qed.
Print Assumptions C63_np_to_tf_refuted.
