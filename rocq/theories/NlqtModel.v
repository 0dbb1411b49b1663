(** Model of parallel_control/nlqt_np.py and parallel_control/nlqt_tf.py. *)
From mathcomp Require Import all_ssreflect all_algebra.
From Verif Require Import ScanModel TfScan MxBase LqtModel LqtTfModel.
Import Order.TTheory GRing.Theory Num.Theory.
Set Implicit Arguments. Unset Strict Implicit. Unset Printing Implicit Defensive.
Local Open Scope ring_scope.

Section Nlqt.
Variable R : realFieldType.
Variables n m : nat.

(** the model object given to NLQT (nonlinear_model_np.py): f and the functions Fx, Fu that claim to be its
    Jacobians.  The functions are arbitrary. *)
Record nlmodel := NlModel { nf : 'cV[R]_n -> 'cV[R]_m -> 'cV[R]_n;
                            nFx : 'cV[R]_n -> 'cV[R]_m -> 'M[R]_n; nFu : 'cV[R]_n -> 'cV[R]_m -> 'M[R]_(n, m) }.
Variable M : nlmodel.

(** nlqt_np.py 33-46: body of the loop of linearize; only F, c, L of the stage are replaced *)
Definition lin_stage p (s : stage R n m p) (x : 'cV[R]_n) (u : 'cV[R]_m) : stage R n m p :=
  let f := nf M x u in
  let Fx := nFx M x u in
  let Fu := nFu M x u in
  Stage Fx Fu (sX s) (sU s) (f - Fx *m x - Fu *m u) (sH s) (sr s) (sZ s) (ss s) (sM s).
(** nlqt_np.py 25-46: linearize.  The loop is over u_list; x_list[k] and self.lqt.F[k] raise when too short;
    stages beyond the length of u_list stay as they were. *)
Fixpoint lin_loop (sts : seq (vstage R n m)) (us : seq 'cV[R]_m) (xs : seq 'cV[R]_n) : option (seq (vstage R n m)) :=
  match us with
  | [::] => Some sts
  | u :: us' =>
      match sts, xs with
      | s :: sts', x :: xs' => let? r := lin_loop sts' us' xs' in Some (VStage (lin_stage s x u) :: r)
      | _, _ => None
      end
  end.
Definition linearize (P : lqt R n m) us xs : option (lqt R n m) :=
  let? sts := lin_loop (stages P) us xs in Some (Lqt sts (XT P) (HT P) (rT P)).

(** nlqt_np.py 48-70: iterate; returns the updated tracker (linearize writes into it) and the new trajectory *)
Definition iterate (P : lqt R n m) (us : seq 'cV[R]_m) (xs : seq 'cV[R]_n) (lqt_method : nat) :
    option (lqt R n m * (seq 'cV[R]_m * seq 'cV[R]_n)) :=
  let? P' := linearize P us xs in
  if xs is x0 :: _ then
    if lqt_method == 0%N then
      let? '(Ks, ds, Ss, vs) := parBackwardPass P' in
      let? r := parForwardPass P' x0 Ks ds in Some (P', r)
    else if lqt_method == 1%N then
      let? '(Ks, ds, Ss, vs) := parBackwardPass P' in
      let? r := parFwdBwdPass P' x0 Ks ds Ss vs in Some (P', r)
    else
      let? '(Ks, ds, Ss, vs) := seqBackwardPass P' in
      let? r := seqForwardPass P' x0 Ks ds in Some (P', r)
  else None.

(** nlqt_np.py 72-88: simulate *)
Fixpoint sim_loop (x : 'cV[R]_n) (us : seq 'cV[R]_m) : seq 'cV[R]_n :=
  match us with [::] => [::] | u :: us' => let x' := nf M x u in x' :: sim_loop x' us' end.
Definition simulate x0 us := x0 :: sim_loop x0 us.

(** nlqt_np.py 90-101: cost *)
Definition nlqt_cost (P : lqt R n m) x0 us : option R := lqt_cost P us (simulate x0 us).

(** ** nlqt_tf.py; f, Fx, Fu act on a whole batch of states and controls, row by row *)
Section Tf.
Variable p : nat.
Notation cstage := (cstage R n m p).
(** nlqt_tf.py 24-48: nlqt_linearize; the stages supply Hs, rs, Xs, Us *)
Fixpoint nlqt_linearize (sts : seq cstage) (us : seq 'cV[R]_m) (xs : seq 'cV[R]_n) : option (seq cstage) :=
  match sts, us, xs with
  | [::], [::], [::] => Some [::]
  | s :: sts', u :: us', x :: xs' =>
      let? r := nlqt_linearize sts' us' xs' in
      Some (CStage (nFx M x u) (nf M x u - nFx M x u *m x - nFu M x u *m u) (nFu M x u) (cH s) (cr s) (cX s) (cU s) :: r)
  | _, _, _ => None
  end.
(** nlqt_tf.py 51-72: nlqt_simulate, a tf.scan *)
Definition tf_simulate x0 (us : seq 'cV[R]_m) : seq 'cV[R]_n := x0 :: scanl (nf M) x0 us.
(** nlqt_tf.py 75-95 *)
Definition tf_nlqt_cost x0 us (sts : seq cstage) (f : cfinal R n p) : option R := tf_lqt_cost (tf_simulate x0 us) us sts f.

(** xs[:-1] *)
Definition but_last (xs : seq 'cV[R]_n) := take (size xs).-1 xs.
(** nlqt_tf.py 98-121: nlqt_iterate_seq; returns us, xs *)
Definition nlqt_iterate_seq (us : seq 'cV[R]_m) (xs : seq 'cV[R]_n) (sts : seq cstage) (f : cfinal R n p) :
    option (seq 'cV[R]_m * seq 'cV[R]_n) :=
  let? cs := nlqt_linearize sts us (but_last xs) in
  let? '(Ss, vs, Ks, ds) := lqt_seq_backwardpass cs f in
  if xs is x0 :: _ then let? '(xs', us') := lqt_seq_forwardpass x0 cs Ks ds in Some (us', xs') else None.
(** nlqt_tf.py 123-149: nlqt_iterate_par_1 *)
Definition nlqt_iterate_par_1 (us : seq 'cV[R]_m) (xs : seq 'cV[R]_n) (sts : seq cstage) (f : cfinal R n p) (max_parallel : nat) :
    option (seq 'cV[R]_m * seq 'cV[R]_n) :=
  let? cs := nlqt_linearize sts us (but_last xs) in
  let? '(Ss, vs, Ks, ds) := lqt_par_backwardpass cs f max_parallel in
  if xs is x0 :: _ then let? '(xs', us') := lqt_par_forwardpass x0 cs Ks ds max_parallel in Some (us', xs') else None.
(** nlqt_tf.py 151-177: nlqt_iterate_par_2 *)
Definition nlqt_iterate_par_2 (us : seq 'cV[R]_m) (xs : seq 'cV[R]_n) (sts : seq cstage) (f : cfinal R n p) (max_parallel : nat) :
    option (seq 'cV[R]_m * seq 'cV[R]_n) :=
  let? cs := nlqt_linearize sts us (but_last xs) in
  let? '(Ss, vs, Ks, ds) := lqt_par_backwardpass cs f max_parallel in
  if xs is x0 :: _ then let? '(xs', us') := lqt_par_fwdbwdpass x0 cs Ss vs Ks ds max_parallel in Some (us', xs') else None.
End Tf.
End Nlqt.
