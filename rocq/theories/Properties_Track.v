(** C99: the tracker with constant data is the regulator of the state extended by a one. *)
From mathcomp Require Import all_ssreflect all_algebra.
From Verif Require Import MxBase LqtModel Rk4Model ClqtModel ClqrModel TrackSpec TrackExt TrackExt2 TrackPar TrackEx.
Import Order.TTheory GRing.Theory Num.Theory.
Set Implicit Arguments. Unset Strict Implicit. Unset Printing Implicit Defensive.
Local Open Scope ring_scope.
Local Notation Qf := [realFieldType of rat].

(** ** C99 *)
(** The backward passes of the tracker return the parts of the matrices which the regulator returns for the extended problem,
    exceptions included: the gains K and d from (K, -d), the value functions S and v from ((S, -v), (-v', s)). *)
Theorem C99_backward (R : realFieldType) expm (n m p pT : nat) (P : clqt R n m p pT) : constant P -> weights_ok P -> 
  (forall steps dt t0, clqt_seqBackwardPass P steps dt t0 None None =
     omap (@split_backward R n m) (clqr_seqBackwardPass expm (extended P) steps dt None Rk4)) /\
  (forall blocks steps t0, clqt_parBackwardPass P blocks steps None t0 false =
     omap (@split_backward R n m) (clqr_parBackwardPass expm (extended P) blocks steps Rk4 Rk4)).
Proof. exact (fun cP wP => conj (seq_backward_ext expm cP wP) (par_backward_ext expm cP wP)). Qed.
Print Assumptions C99_backward.
Example C99_backward_ex : constant (ex_drift Qf) /\ weights_ok (ex_drift Qf).
Proof. exact: ex_drift_hyp. Qed.

(** The forward passes with the gains (K, -d) from the extended initial state (x0, 1) return the tracker's controls, and its
    states extended by a one. *)
Theorem C99_forward (R : realFieldType) expm (n m p pT : nat) (P : clqt R n m p pT) : constant P ->
  forall x0 (Ks : seq 'M[R]_(m, n + 1)), let K := map lsubmx Ks in let d := map (fun K => - rsubmx K) Ks in
  (forall dt t0 zoh, clqt_seqForwardPass P x0 K d dt t0 zoh =
     omap (@split_states R n m) (clqr_seqForwardPass expm (extended P) (extend x0) Ks dt Rk4 zoh)) /\
  (forall blocks steps t0 forward, clqt_parForwardPass P x0 K d blocks steps None t0 forward false =
     omap (@split_states R n m) (clqr_parForwardPass expm (extended P) (extend x0) Ks blocks steps Rk4 Rk4 false)).
Proof. exact (fun cP x0 Ks => conj (seq_forward_ext expm cP x0 Ks) (par_forward_ext expm cP x0 Ks)). Qed.
Print Assumptions C99_forward.
Example C99_forward_ex : constant (ex_drift Qf) /\ weights_ok (ex_drift Qf).
Proof. exact: ex_drift_hyp. Qed.

(** The same for the forward-backward passes combined with the gains and the value functions. *)
Theorem C99_forward_backward (R : realFieldType) (n m p pT : nat) (P : clqt R n m p pT) : constant P -> weights_ok P ->
  forall x0 (Ks : seq 'M[R]_(m, n + 1)) Ss, let K := map lsubmx Ks in let d := map (fun K => - rsubmx K) Ks in
  let S := map ulsubmx Ss in let v := map (fun S => - ursubmx S) Ss in
  (forall steps dt t0, obind (combineForwardBackward K d S v) (clqt_seqFwdBwdPass P x0 steps dt t0 None None None) =
     omap (@split_states R n m) (obind (qcombineForwardBackward Ks Ss) (clqr_seqFwdBwdPass (extended P) (extend x0) steps dt None None None Rk4))) /\
  (forall blocks steps t0, clqt_parFwdBwdPass P x0 K d S v blocks steps None t0 true =
     omap (@split_states R n m) (clqr_parFwdBwdPass (extended P) (extend x0) Ks Ss blocks steps Rk4 Rk4)).
Proof. exact (fun cP wP x0 Ks Ss => conj (fun steps dt t0 => seq_fwdbwd_ext cP wP x0 steps dt t0 Ks Ss) (par_fwdbwd_ext cP wP x0 Ks Ss)). Qed.
Print Assumptions C99_forward_backward.
Example C99_forward_backward_ex : constant (ex_drift Qf) /\ weights_ok (ex_drift Qf).
Proof. exact: ex_drift_hyp. Qed.
