(** C79-C84: the continuous-time linear quadratic regulator of clqt_np.py (class CLQR). *)
From mathcomp Require Import all_ssreflect all_algebra.
From Verif Require Import MxBase LqtModel LqtCore LqtElem Rk4Model Rk4Spec ClqtModel ClqtSpec ClqtEx ClqrModel ClqrSpec ClqrProofs ClqrPar ClqrExact ClqrUse ClqrEx.
Import Order.TTheory GRing.Theory Num.Theory.
Set Implicit Arguments. Unset Strict Implicit. Unset Printing Implicit Defensive.
Local Open Scope ring_scope.
Local Notation Qf := [realFieldType of rat].

(** ** C79 *)
(** the regulator's sequential Runge-Kutta passes are those of the tracking problem with the same matrices *)
Theorem C79_sequential_backward (R : realFieldType) expm (n m : nat) (q : clqr R n m) (steps : nat) (dt t0 : option R) Q v :
  (0 < steps)%N -> v = None \/ v = Some 0 ->
  clqt_seqBackwardPass (tracker q) steps dt t0 Q v = omap (@no_affine R n m) (clqr_seqBackwardPass expm q steps dt Q Rk4).
Proof. exact: seq_backward_tracker. Qed.
Print Assumptions C79_sequential_backward.
Example C79_sequential_backward_ex expm : clqr_seqBackwardPass expm (ex_reg (1 : Qf) 1) 2 None None Rk4 = Some ([:: 1%:M; 1%:M], [:: 1%:M; 1%:M; 1%:M]).
Proof. exact: ex_rk4_stationary. Qed.

Theorem C79_sequential_forward (R : realFieldType) expm (n m : nat) (q : clqr R n m) x0 Ks (dt t0 : option R) zoh :
  clqt_seqForwardPass (tracker q) x0 Ks (nseq (size Ks) 0) dt t0 zoh = clqr_seqForwardPass expm q x0 Ks dt Rk4 zoh.
Proof. exact: seq_forward_tracker. Qed.
Print Assumptions C79_sequential_forward.
Example C79_sequential_forward_ex expm : clqr_seqForwardPass expm (ex_reg (1 : Qf) 1) 1%:M [:: 1%:M] None Rk4 false =
  Some ([:: (- 1)%:M], [:: 1%:M; (3%:R / (4%:R * 2%:R))%:M]).
Proof. exact: ex_rseq. Qed.

Theorem C79_sequential_forward_backward (R : realFieldType) (n m : nat) (q : clqr R n m) x0 (steps : nat) (dt t0 : option R) A b C :
  clqt_seqFwdBwdPass (tracker q) x0 steps dt t0 A b C = clqr_seqFwdBwdPass q x0 steps dt A b C Rk4.
Proof. exact: seq_fwdbwd_tracker. Qed.
Print Assumptions C79_sequential_forward_backward.

Theorem C79_combine (R : realFieldType) (n m : nat) (Ks : seq 'M[R]_(m, n)) Ss es :
  combineForwardBackward Ks (nseq (size Ks) 0) Ss (nseq (size Ss) 0) es = qcombineForwardBackward Ks Ss es.
Proof. exact: combine_tracker. Qed.
Print Assumptions C79_combine.

(** the parallel passes, exceptions included *)
Theorem C79_parallel_backward (R : realFieldType) expm (n m : nat) (q : clqr R n m) (blocks steps : nat) :
  clqt_parBackwardPass (tracker q) blocks steps None None false = omap (@no_affine R n m) (clqr_parBackwardPass expm q blocks steps Rk4 Rk4).
Proof. exact: par_backward_tracker. Qed.
Print Assumptions C79_parallel_backward.
Example C79_parallel_backward_ex expm : clqr_parBackwardPass expm (ex_reg (1 : Qf) 0) 1 1 Rk4 Rk4 = Some ([:: (ex_S0 Qf)%:M], [:: (1 / 2%:R)%:M; 1%:M]).
Proof. exact: ex_rpar. Qed.

Theorem C79_parallel_forward (R : realFieldType) expm (n m : nat) (q : clqr R n m) x0 Ks (blocks steps : nat) zoh :
  clqt_parForwardPass (tracker q) x0 Ks (nseq (size Ks) 0) blocks steps None None true zoh =
  clqr_parForwardPass expm q x0 Ks blocks steps Rk4 Rk4 zoh.
Proof. exact: par_forward_tracker. Qed.
Print Assumptions C79_parallel_forward.
Example C79_parallel_forward_ex expm : clqr_parForwardPass expm (ex_reg (1 : Qf) 1) 1%:M [:: 1%:M] 1 1 Rk4 Rk4 true =
  Some ([:: (- 1)%:M], [:: 1%:M; (3%:R / (4%:R * 2%:R))%:M]).
Proof. exact: ex_rpar_zoh. Qed.

Theorem C79_parallel_forward_backward (R : realFieldType) (n m : nat) (q : clqr R n m) x0 Ks Ss (blocks steps : nat) :
  clqt_parFwdBwdPass (tracker q) x0 Ks (nseq (size Ks) 0) Ss (nseq (size Ss) 0) blocks steps None None true =
  clqr_parFwdBwdPass q x0 Ks Ss blocks steps Rk4 Rk4.
Proof. exact: par_fwdbwd_tracker. Qed.
Print Assumptions C79_parallel_forward_backward.

(** the elements of the parallel passes, by either of the two element equations *)
Theorem C79_elements (R : realFieldType) (n m : nat) (q : clqr R n m) x0 Ks (blocks steps : nat) dt t0 forward :
  div_nats (qT q) [:: steps; blocks] = Some dt ->
  [/\ clqt_parBackwardPass_init (tracker q) blocks steps dt t0 forward = clqr_parBackwardPass_init q blocks steps Rk4 forward,
      clqt_parForwardPass_init (tracker q) x0 Ks (nseq (size Ks) 0) blocks steps dt t0 forward =
        clqr_parForwardPass_init q x0 Ks blocks steps Rk4 forward
    & clqt_parFwdBwdPass_init (tracker q) x0 blocks steps dt t0 forward = clqr_parFwdBwdPass_init q x0 blocks steps Rk4 forward].
Proof. exact: reg_elements. Qed.
Print Assumptions C79_elements.
Example C79_elements_ex : div_nats (qT (ex_reg (1 : Qf) 0)) [:: 2; 1]%N = Some (1 / 2%:R / 1%:R).
Proof. exact: erefl. Qed.

(** 'exact' and unknown methods raise where they are not offered *)
Theorem C79_unknown_methods (R : realFieldType) expm (n m : nat) (q : clqr R n m) x0 Ks Ss Q dt A b C blocks steps zoh forward meth meth' :
  [/\ clqr_seqBackwardPass expm q steps dt Q Unknown = None, clqr_seqForwardPass expm q x0 Ks dt Unknown zoh = None &
      meth <> Rk4 ->
      [/\ clqr_seqFwdBwdPass q x0 steps dt A b C meth = None, clqr_parBackwardPass_init q blocks steps meth forward = None,
          clqr_parBackwardPass expm q blocks steps meth meth' = None, clqr_parFwdBwdPass_init q x0 blocks steps meth forward = None &
          clqr_parFwdBwdPass q x0 Ks Ss blocks steps meth meth' = None /\
          ((0 < blocks)%N -> clqr_parForwardPass_init q x0 Ks blocks steps meth forward = None /\
             clqr_parForwardPass expm q x0 Ks blocks steps meth meth' zoh = None)]].
Proof. exact: reg_raises. Qed.
Print Assumptions C79_unknown_methods.

(** ** C80 *)
(** with the feedback not held, the parallel forward pass is the sequential one; wrong lengths raise *)
Theorem C80_parallel_forward_is_sequential (R : realFieldType) expm (n m : nat) (q : clqr R n m) x0 Ks (blocks steps : nat) :
  ((blocks * steps)%N = size Ks ->
     clqr_parForwardPass expm q x0 Ks blocks steps Rk4 Rk4 false = clqr_seqForwardPass expm q x0 Ks None Rk4 false) /\
  ((blocks * steps)%N <> size Ks -> clqr_parForwardPass expm q x0 Ks blocks steps Rk4 Rk4 false = None).
Proof. exact: reg_par_forward. Qed.
Print Assumptions C80_parallel_forward_is_sequential.
Example C80_parallel_forward_is_sequential_ex expm : clqr_parForwardPass expm (ex_reg (1 : Qf) 1) 1%:M [:: 1%:M] 1 1 Rk4 Rk4 false =
  Some ([:: (- 1)%:M], [:: 1%:M; (3%:R / (4%:R * 2%:R))%:M]).
Proof. exact: ex_rpar_nohold. Qed.

(** the backward pass takes symmetrised Runge-Kutta steps of the Riccati equation backwards in time *)
Theorem C80_backward_steps (R : realFieldType) expm (n m : nat) (q : clqr R n m) (steps : nat) dt Q Ks Ss :
  symm (qU q) -> pd (qU q) ->
  clqr_seqBackwardPass expm q steps dt Q Rk4 = Some (Ks, Ss) ->
  exists h, [/\ (if dt is Some h' then h = h' else h = qT q / steps%:R), size Ks = steps, size Ss = steps.+1,
    nth 0 Ss steps = (if Q is Some Q' then Q' else qXT q) &
  forall i, (i < steps)%N -> exists y,
    [/\ classical_step (V := matrix_lmodType R n n)
          (fun S _ => Some (- ((qF q)^T *m S) - S *m qF q + S *m (qL q *m invmx (qU q) *m (qL q)^T) *m S - qX q))
          (- h) (nth 0 Ss i.+1) 0 y,
        nth 0 Ss i = 2%:R^-1 *: (y + y^T) & nth 0 Ks i = invmx (qU q) *m (qL q)^T *m nth 0 Ss i]].
Proof. exact: reg_backward_steps. Qed.
Print Assumptions C80_backward_steps.
Example C80_backward_steps_ex expm : clqr_seqBackwardPass expm (ex_reg (1 : Qf) 0) 1 None None Rk4 = Some ([:: (ex_S0 Qf)%:M], [:: (ex_S0 Qf)%:M; 1%:M]).
Proof. exact: ex_rk4. Qed.

(** it returns, and every matrix in the list is symmetric *)
Theorem C80_backward_returns (R : realFieldType) expm (n m : nat) (q : clqr R n m) (steps : nat) dt Q :
  symm (qU q) -> pd (qU q) -> (0 < steps)%N \/ dt <> None ->
  exists Ks Ss, clqr_seqBackwardPass expm q steps dt Q Rk4 = Some (Ks, Ss) /\
    (symm (if Q is Some Q' then Q' else qXT q) -> forall V, V \in Ss -> symm V).
Proof. exact: reg_backward_returns. Qed.
Print Assumptions C80_backward_returns.

Theorem C80_parallel_backward (R : realFieldType) expm (n m : nat) (q : clqr R n m) (blocks steps : nat) Ks Ss :
  symm (qXT q) -> clqr_parBackwardPass expm q blocks steps Rk4 Rk4 = Some (Ks, Ss) ->
  [/\ size Ks = (blocks * steps)%N, size Ss = (blocks * steps).+1, forall V, V \in Ss -> symm V & last 0 Ss = qXT q].
Proof. exact: reg_par_backward. Qed.
Print Assumptions C80_parallel_backward.
Example C80_parallel_backward_ex expm : clqr_parBackwardPass expm (ex_reg (1 : Qf) 0) 1 1 Rk4 Rk4 = Some ([:: (ex_S0 Qf)%:M], [:: (1 / 2%:R)%:M; 1%:M]).
Proof. exact: ex_rpar. Qed.

(** the forward pass takes Runge-Kutta steps of the dynamics under the feedback *)
Theorem C80_forward_steps (R : realFieldType) expm (n m : nat) (q : clqr R n m) x0 Ks dt zoh us xs :
  clqr_seqForwardPass expm q x0 Ks dt Rk4 zoh = Some (us, xs) ->
  exists h, [/\ (if dt is Some h' then h = h' else h = qT q / (size Ks)%:R), size us = size Ks, size xs = (size Ks).+1, nth 0 xs 0 = x0 &
  forall i, (i < size Ks)%N ->
    nth 0 us i = - nth 0 Ks i *m nth 0 xs i /\
    classical_step (V := matrix_lmodType R n 1)
      (fun x _ => Some (qF q *m x + qL q *m (if zoh then nth 0 us i else - nth 0 Ks i *m x))) h (nth 0 xs i) 0 (nth 0 xs i.+1)].
Proof. exact: reg_forward_steps. Qed.
Print Assumptions C80_forward_steps.
Example C80_forward_steps_ex expm : clqr_seqForwardPass expm (ex_reg (1 : Qf) 1) 1%:M [:: 1%:M] None Rk4 true = Some ([:: (- 1)%:M], [:: 1%:M; 0]).
Proof. exact: ex_rseq_zoh. Qed.

(** ** C81 *)
(** method 'exact': the values returned lie on one solution V of the Riccati differential equation (s is the time to go),
    whatever the number of steps and the step size, and the gains are those of V *)
Theorem C81_exact_riccati (R : realFieldType) (expm : forall n, 'M[R]_n -> 'M[R]_n) (n m : nat) (q : clqr R n m) (Q : option 'M[R]_n) :
  natural_exp expm ->
  let Q0 := if Q is Some Q' then Q' else qXT q in
  let N := qL q *m invmx (qU q) *m (qL q)^T in
  symm (qU q) -> pd (qU q) -> symm (qX q) -> symm Q0 ->
  exponential_of expm (block_mx (qF q) (- N) (- qX q) (- (qF q)^T)) ->
  exists V, V 0 = Q0 /\
  forall steps dt Ks Ss, clqr_seqBackwardPass expm q steps dt Q Exact = Some (Ks, Ss) ->
  exists h, [/\ (if dt is Some h' then h = h' else h = qT q / steps%:R), size Ks = steps, size Ss = steps.+1 &
  forall i, (i <= steps)%N -> let s := (steps - i)%:R * h in
    [/\ nth 0 Ss i = V s, symm (V s), (i < steps)%N -> nth 0 Ks i = invmx (qU q) *m (qL q)^T *m V s
      & derivative V s ((qF q)^T *m V s + V s *m qF q - V s *m N *m V s + qX q)]].
Proof. exact (fun H => @exact_backward_l R expm n m q H Q). Qed.
Print Assumptions C81_exact_riccati.
Example C81_exact_riccati_ex : let q := ex_reg (1 : Qf) 0 in let N := qL q *m invmx (qU q) *m (qL q)^T in
  [/\ symm (qU q), pd (qU q), symm (qX q), symm (qXT q) & natural_exp (@exp1 Qf) /\ exponential_of (@exp1 Qf) (block_mx (qF q) (- N) (- qX q) (- (qF q)^T))].
Proof. exact: (ex_exact_hyp Qf). Qed.
Example C81_exact_riccati_ex2 : clqr_seqBackwardPass (@exp1 Qf) (ex_reg 1 0) 2 None None Exact =
  Some ([:: (1 / 2%:R)%:M; (2%:R / 3%:R)%:M], [:: (1 / 2%:R)%:M; (2%:R / 3%:R)%:M; 1%:M]).
Proof. exact: (ex_exact Qf). Qed.

(** ** C82 *)
(** method 'exact': consecutive states are joined by a solution of the closed-loop differential equation *)
Theorem C82_exact_forward (R : realFieldType) (expm : forall n, 'M[R]_n -> 'M[R]_n) (n m : nat) (q : clqr R n m) x0 Ks dt zoh us xs :
  natural_exp expm ->
  (if zoh then exponential_of expm (block_mx (qF q) (qL q) 0 (0 : 'M[R]_m))
   else forall K, K \in Ks -> exponential_of expm (qF q - qL q *m K)) ->
  clqr_seqForwardPass expm q x0 Ks dt Exact zoh = Some (us, xs) ->
  exists h, [/\ (if dt is Some h' then h = h' else h = qT q / (size Ks)%:R), size us = size Ks, size xs = (size Ks).+1, nth 0 xs 0 = x0 &
  forall i, (i < size Ks)%N ->
    nth 0 us i = - nth 0 Ks i *m nth 0 xs i /\
    exists phi, [/\ phi 0 = nth 0 xs i, phi h = nth 0 xs i.+1 & forall s,
      derivative phi s (qF q *m phi s + qL q *m (if zoh then nth 0 us i else - nth 0 Ks i *m phi s))]].
Proof. exact (fun H => @exact_forward_l R expm n m q H x0 Ks dt zoh us xs). Qed.
Print Assumptions C82_exact_forward.
Example C82_exact_forward_ex : exponential_of (@exp1 Qf) (block_mx (qF (ex_reg 1 0)) (qL (ex_reg 1 0)) 0 (0 : 'M[Qf]_1)).
Proof. exact: (ex_zoh_hyp Qf). Qed.
Example C82_exact_forward_ex2 : clqr_seqForwardPass (@exp1 Qf) (ex_reg 1 0) 1%:M [:: (1 / 2%:R)%:M] None Exact true =
  Some ([:: (- (1 / 2%:R))%:M], [:: 1%:M; (1 / 2%:R)%:M]).
Proof. exact: (ex_exact_forward Qf). Qed.
Example C82_exact_forward_ex3 : exists us xs, clqr_seqForwardPass (@exp1 Qf) (ex_double Qf) (delta_mx 1 0) [:: 0] None Exact false = Some (us, xs) /\
  nth 0 xs 1 = delta_mx 0 0 + delta_mx 1 0.
Proof. exact: (ex_nohold Qf). Qed.

(** ** C83, false of the code *)
Theorem C83_parallel_is_sequential_refuted (R : realFieldType) expm : exists (q : clqr R 1 1) r r',
  [/\ [/\ symm (qU q), pd (qU q), symm (qX q) /\ psd (qX q), symm (qXT q) & psd (qXT q)],
  clqr_parBackwardPass expm q 1 1 Rk4 Rk4 = Some r, clqr_seqBackwardPass expm q 1 None None Rk4 = Some r' & r <> r'].
Proof. exact: ex_rpar_not_seq. Qed.
Print Assumptions C83_parallel_is_sequential_refuted.

(** ** C84, false of the code *)
Theorem C84_hold_parallel_is_sequential_refuted (R : realFieldType) expm : exists (q : clqr R 1 1) x0 Ks us xs xs', [/\ size Ks = 1%N,
  clqr_seqForwardPass expm q x0 Ks None Rk4 true = Some (us, xs), clqr_parForwardPass expm q x0 Ks 1 1 Rk4 Rk4 true = Some (us, xs') & xs <> xs'].
Proof. exact: ex_rzoh_refuted. Qed.
Print Assumptions C84_hold_parallel_is_sequential_refuted.
