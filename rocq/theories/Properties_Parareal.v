(** C48, C49, C71: the parareal solvers of parareal_clqt_np.py and parareal_clqt_tf.py. *)
From mathcomp Require Import all_ssreflect all_algebra.
From Verif Require Import ScanModel MxBase LqtModel LqtSpec Rk4Model ClqtModel ClqtSpec ClqtTfModel ClqtEx.
From Verif Require Import PararealModel PararealBwd PararealFwd PararealTf PararealEx.
Import Order.TTheory GRing.Theory Num.Theory.
Set Implicit Arguments. Unset Strict Implicit. Unset Printing Implicit Defensive.
Local Open Scope ring_scope.
Local Notation Qf := [realFieldType of rat].

(** ** C48.  Below, k is the number of iterations: the argument, or the default, the number of steps per block *)
(** backward pass: the last k + 1 blocks of the gains, offsets, matrices and vectors are those of the sequential pass
    on the fine grid, all of them when there are at most k + 1 blocks (then j = 0) *)
Theorem C48_backward (R : realFieldType) (n m p pT : nat) (P : clqt R n m p pT) (blocks steps : nat) (niter : option nat) :
  (forall t, symm (kU P t) /\ pd (kU P t)) -> (0 < blocks)%N -> (0 < steps)%N ->
  let k := if niter is Some k then k else steps in exists Ks ds Ss vs Ks' ds' Ss' vs',
  [/\ para_backwardPass P blocks steps niter = Some (Ks, ds, Ss, vs),
      clqt_seqBackwardPass P (blocks * steps) None None None None = Some (Ks', ds', Ss', vs'),
      [/\ size Ks = (blocks * steps)%N, size ds = (blocks * steps)%N, size Ss = (blocks * steps).+1 & size vs = (blocks * steps).+1] &
      let j := ((blocks - k.+1) * steps)%N in
      [/\ drop j Ks = drop j Ks', drop j ds = drop j ds', drop j Ss = drop j Ss' & drop j vs = drop j vs']].
Proof. exact: (fun Up B0 s0 => para_backward_l Up B0 s0 niter). Qed.
Print Assumptions C48_backward.
Example C48_backward_ex : exists Ks ds Ss vs, [/\ para_backwardPass (ex_long Qf) 4 2 (Some 3%N) = Some (Ks, ds, Ss, vs),
  clqt_seqBackwardPass (ex_long Qf) 8 None None None None = Some (Ks, ds, Ss, vs), size Ks = 8%N & size Ss = 9%N].
Proof. exact (exl_backward Qf). Qed.

(** forward pass: the first k + 1 blocks of the controls and states are those of the sequential pass *)
Theorem C48_forward (R : realFieldType) (n m p pT : nat) (P : clqt R n m p pT) (blocks steps : nat) (zoh : bool) (x0 : 'cV[R]_n)
    (Ks : seq 'M[R]_(m, n)) (ds : seq 'cV[R]_m) (niter : option nat) :
  (0 < blocks)%N -> (0 < steps)%N -> size Ks = (blocks * steps)%N -> size ds = (blocks * steps)%N ->
  let k := if niter is Some k then k else steps in exists us xs us' xs',
  [/\ para_forwardPass P blocks steps x0 Ks ds zoh niter = Some (us, xs),
      clqt_seqForwardPass P x0 Ks ds None None zoh = Some (us', xs'),
      size us = (blocks * steps)%N /\ size xs = (blocks * steps).+1,
      (let j := (k.+1 * steps)%N in take j us = take j us' /\ take j xs = take j xs') &
      ((blocks <= k.+1)%N -> us = us' /\ xs = xs')].
Proof. exact: (fun B0 s0 sK sd => para_forward_l P B0 s0 zoh x0 sK sd niter). Qed.
Print Assumptions C48_forward.
Example C48_forward_ex : exists us xs, para_forwardPass (ex_long Qf) 4 2 1%:M (Ks8 Qf) (ds8 Qf) false (Some 3%N) = Some (us, xs) /\
  nth 0 xs 6 = (3%:R * 3%:R / (4%:R * 4%:R * 4%:R) * (3%:R * 3%:R / (4%:R * 4%:R * 4%:R)) * (3%:R * 3%:R / (4%:R * 4%:R * 4%:R)))%:M.
Proof. exact (exl_right Qf). Qed.

(** forward pass of the second kind: the elements (A, b, C) *)
Theorem C48_fwdbwd (R : realFieldType) (n m p pT : nat) (P : clqt R n m p pT) (blocks steps : nat) (x0 : 'cV[R]_n) (niter : option nat) :
  (forall t, symm (kU P t) /\ pd (kU P t)) -> (0 < blocks)%N -> (0 < steps)%N ->
  let k := if niter is Some k then k else steps in exists es es',
  [/\ para_fwdBwdPass P blocks steps x0 niter = Some es,
      clqt_seqFwdBwdPass P x0 (blocks * steps) None None None None None = Some es',
      size es = (blocks * steps).+1,
      (let j := (k.+1 * steps)%N in take j es = take j es') &
      ((blocks <= k.+1)%N -> es = es')].
Proof. exact: (fun Up B0 s0 => para_fwdbwd_l B0 s0 Up x0 niter). Qed.
Print Assumptions C48_fwdbwd.
Example C48_fwdbwd_ex : exists es, [/\ para_fwdBwdPass (ex_long Qf) 4 2 1%:M (Some 3%N) = Some es,
  clqt_seqFwdBwdPass (ex_long Qf) 1%:M 8 None None None None None = Some es & size es = 9%N].
Proof. exact (exl_fwdbwd Qf). Qed.

(** ** C49 *)
(** with four blocks of two steps the default number of iterations, two, leaves a wrong state *)
Theorem C49_default_refuted : exists (P : clqt Qf 1 1 1 1) (Ks : seq 'M[rat]_1) (ds : seq 'cV[rat]_1) (x0 : 'cV[rat]_1) us xs us' xs',
  [/\ size Ks = (4 * 2)%N /\ size ds = (4 * 2)%N,
      para_forwardPass P 4 2 x0 Ks ds false None = Some (us, xs),
      clqt_seqForwardPass P x0 Ks ds None None false = Some (us', xs')
    & xs <> xs'].
Proof. exact (default_refuted Qf). Qed.
Print Assumptions C49_default_refuted.

(** the default is enough when there are at most steps + 1 blocks; what is missing from C49 is every other case *)
Theorem C49_default_partial (R : realFieldType) (n m p pT : nat) (P : clqt R n m p pT) (blocks steps : nat) :
  (forall t, symm (kU P t) /\ pd (kU P t)) -> (0 < blocks)%N -> (0 < steps)%N -> (blocks <= steps.+1)%N ->
  [/\ para_backwardPass P blocks steps None = clqt_seqBackwardPass P (blocks * steps) None None None None,
      forall x0 Ks ds zoh, size Ks = (blocks * steps)%N -> size ds = (blocks * steps)%N ->
        para_forwardPass P blocks steps x0 Ks ds zoh None = clqt_seqForwardPass P x0 Ks ds None None zoh
    & forall x0, para_fwdBwdPass P blocks steps x0 None = clqt_seqFwdBwdPass P x0 (blocks * steps) None None None None None].
Proof. exact: default_l. Qed.
Print Assumptions C49_default_partial.
Example C49_default_partial_ex : exists Ks ds Ss vs, para_backwardPass (ex_long Qf) 3 2 None = Some (Ks, ds, Ss, vs) /\ size Ks = 6%N.
Proof. exact (default_ex Qf). Qed.

(** ** C71: the TensorFlow version returns what the NumPy version returns, in its own order *)
Theorem C71_backward (R : realFieldType) (n m p pT : nat) (P : clqt R n m p pT) (blocks steps niter : nat) :
  (forall t, symm (kU P t) /\ pd (kU P t)) -> (0 < blocks)%N -> (0 < steps)%N ->
  tf_para_backwardpass P blocks steps niter.+1 =
  omap (fun r => let: (Ks, ds, Ss, vs) := r in (Ss, vs, Ks, ds)) (para_backwardPass P blocks steps (Some niter.+1)).
Proof. exact: (fun Up => @para_backward_tf R n m p pT P Up blocks steps niter). Qed.
Print Assumptions C71_backward.
Example C71_backward_ex : exists Ks ds Ss vs, [/\ tf_para_backwardpass (ex_long Qf) 4 2 3 = Some (Ss, vs, Ks, ds),
  clqt_seqBackwardPass (ex_long Qf) 8 None None None None = Some (Ks, ds, Ss, vs), size Ks = 8%N & size Ss = 9%N].
Proof. exact (exl_backward_tf Qf). Qed.

Theorem C71_forward (R : realFieldType) (n m p pT : nat) (P : clqt R n m p pT) (blocks steps niter : nat) (zoh : bool) (x0 : 'cV[R]_n)
    (Ks : seq 'M[R]_(m, n)) (ds : seq 'cV[R]_m) :
  (0 < blocks)%N -> (0 < steps)%N -> size Ks = (blocks * steps)%N -> size ds = (blocks * steps)%N ->
  tf_para_forwardpass P blocks steps niter.+1 x0 Ks ds zoh =
  omap (fun r => (r.2, r.1)) (para_forwardPass P blocks steps x0 Ks ds zoh (Some niter.+1)).
Proof. exact: (fun B0 s0 sK sd => @para_forward_tf R n m p pT P blocks steps zoh Ks ds B0 s0 sK sd x0 niter). Qed.
Print Assumptions C71_forward.
Example C71_forward_ex : exists us xs, tf_para_forwardpass (ex_long Qf) 4 2 3 1%:M (Ks8 Qf) (ds8 Qf) false = Some (xs, us) /\
  nth 0 xs 6 = (3%:R * 3%:R / (4%:R * 4%:R * 4%:R) * (3%:R * 3%:R / (4%:R * 4%:R * 4%:R)) * (3%:R * 3%:R / (4%:R * 4%:R * 4%:R)))%:M.
Proof. exact (exl_right_tf Qf). Qed.

Theorem C71_fwdbwd (R : realFieldType) (n m p pT : nat) (P : clqt R n m p pT) (blocks steps niter : nat) (x0 : 'cV[R]_n) :
  (forall t, symm (kU P t) /\ pd (kU P t)) -> (0 < blocks)%N -> (0 < steps)%N ->
  tf_para_fwdbwdpass P blocks steps niter.+1 x0 = para_fwdBwdPass P blocks steps x0 (Some niter.+1).
Proof. exact: (fun Up B0 s0 => @para_fwdbwd_tf R n m p pT P Up blocks steps B0 s0 x0 niter). Qed.
Print Assumptions C71_fwdbwd.
Example C71_fwdbwd_ex : exists es, [/\ tf_para_fwdbwdpass (ex_long Qf) 4 2 3 1%:M = Some es,
  clqt_seqFwdBwdPass (ex_long Qf) 1%:M 8 None None None None None = Some es & size es = 9%N].
Proof. exact (exl_fwdbwd_tf Qf). Qed.

(** the whole solvers, with enough iterations, return what the sequential passes return *)
Theorem C71_solver (R : realFieldType) (n m p pT : nat) (P : clqt R n m p pT) (blocks steps niter : nat) (x0 : 'cV[R]_n) :
  (forall t, symm (kU P t) /\ pd (kU P t)) -> (0 < blocks)%N -> (0 < steps)%N -> (blocks <= niter.+2)%N ->
  exists Ks ds Ss vs us xs,
  [/\ clqt_seqBackwardPass P (blocks * steps) None None None None = Some (Ks, ds, Ss, vs),
      clqt_seqForwardPass P x0 Ks ds None None false = Some (us, xs)
    & tf_para_backwardforwardpass P blocks steps niter.+1 x0 = Some (xs, us)].
Proof. exact: (fun Up => @para_backwardforward_tf R n m p pT P Up blocks steps niter x0). Qed.
Print Assumptions C71_solver.
Example C71_solver_ex : exists us xs, tf_para_backwardforwardpass (ex_long Qf) 4 2 3 1%:M = Some (xs, us).
Proof. exact (exl_solver_tf Qf). Qed.
Theorem C71_solver2 (R : realFieldType) (n m p pT : nat) (P : clqt R n m p pT) (blocks steps niter : nat) (x0 : 'cV[R]_n) :
  (forall t, symm (kU P t) /\ pd (kU P t)) -> (0 < blocks)%N -> (0 < steps)%N -> (blocks <= niter.+2)%N ->
  exists Ks ds Ss vs es,
  [/\ clqt_seqBackwardPass P (blocks * steps) None None None None = Some (Ks, ds, Ss, vs),
      clqt_seqFwdBwdPass P x0 (blocks * steps) None None None None None = Some es
    & tf_para_backwardbwdfwdpass P blocks steps niter.+1 x0 = omap (fun r => (r.2, r.1)) (combineForwardBackward Ks ds Ss vs es)].
Proof. exact: (fun Up => @para_backwardbwdfwd_tf R n m p pT P Up blocks steps niter x0). Qed.
Print Assumptions C71_solver2.
Example C71_solver2_ex : exists es, [/\ tf_para_fwdbwdpass (ex_long Qf) 4 2 3 1%:M = Some es,
  clqt_seqFwdBwdPass (ex_long Qf) 1%:M 8 None None None None None = Some es & size es = 9%N].
Proof. exact (exl_fwdbwd_tf Qf). Qed.
