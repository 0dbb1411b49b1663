(** Property theorems: condensing. *)
From mathcomp Require Import all_ssreflect all_algebra.
From Verif Require Import MxBase LqtModel LqtSpec CondModel CondSpec CondProofs CondMain CondOpt CondEx.
Import Order.TTheory GRing.Theory Num.Theory.
Set Implicit Arguments. Unset Strict Implicit. Unset Printing Implicit Defensive.
Local Open Scope ring_scope.
Local Notation Qf := [realFieldType of rat].

(** C34 *)
Theorem C34_condensing_exact :
  forall (R : realFieldType) n m p q N (XT : 'M[R]_q) (HT : 'M[R]_(q, n)) (rT : 'cV[R]_q)
         (sts : seq (stage R n m p)) (bs : seq (cblock R n m N)),
  every (default_ZsM (p:=p)) sts -> every (@symmetric_weights R n m p) sts ->
  condense N sts = Some bs -> exact_condensing sts bs XT HT rT (convertUX N (size sts) bs).
Proof. exact exact_np. Qed.
Print Assumptions C34_condensing_exact.
Theorem C34_tensor_condensing_exact :
  forall (R : realFieldType) n m p q N (XT : 'M[R]_q) (HT : 'M[R]_(q, n)) (rT : 'cV[R]_q)
         (sts : seq (stage R n m p)) (bs : seq (cblock R n m N)),
  every (default_ZsM (p:=p)) sts -> every (@symmetric_weights R n m p) sts ->
  condense_tf N sts = Some bs -> exact_condensing sts bs XT HT rT (convertUX_tf N (size sts) bs).
Proof. exact exact_tf. Qed.
Print Assumptions C34_tensor_condensing_exact.
Theorem C34_tensor_version_agrees :
  forall (R : realFieldType) n m p N (sts : seq (stage R n m p)) (bs : seq (cblock R n m N)),
  every (default_ZsM (p:=p)) sts -> every (@symmetric_weights R n m p) sts ->
  condense N sts = Some bs -> condense_tf N sts = Some bs.
Proof. exact tf_agrees. Qed.
Print Assumptions C34_tensor_version_agrees.
Theorem C34_solve_through_condensing :
  forall (R : realFieldType) n m p q N (XT : 'M[R]_q) (HT : 'M[R]_(q, n)) (rT : 'cV[R]_q)
         (sts : seq (stage R n m p)) (bs : seq (cblock R n m N)) (x0 : 'cV[R]_n),
  every (default_ZsM (p:=p)) sts -> problem_ok (problem sts XT HT rT) ->
  condense N sts = Some bs -> let C := condensed bs XT HT rT in
  problem_ok C /\
  exists Ks ds Ss vs cus cxs us xs,
  [/\ seqBackwardPass C = Some (Ks, ds, Ss, vs), seqForwardPass C x0 Ks ds = Some (cus, cxs),
      convertUX N (size sts) bs cus cxs = Some (us, xs),
      unique_minimiser (problem sts XT HT rT) x0 us & xs = traj (stages (problem sts XT HT rT)) x0 us].
Proof. exact np_end_to_end. Qed.
Print Assumptions C34_solve_through_condensing.
Theorem C34_tensor_solve_through_condensing :
  forall (R : realFieldType) n m p q N (XT : 'M[R]_q) (HT : 'M[R]_(q, n)) (rT : 'cV[R]_q)
         (sts : seq (stage R n m p)) (bs : seq (cblock R n m N)) (x0 : 'cV[R]_n),
  every (default_ZsM (p:=p)) sts -> problem_ok (problem sts XT HT rT) ->
  condense_tf N sts = Some bs -> let C := condensed bs XT HT rT in
  problem_ok C /\
  exists Ks ds Ss vs cus cxs us xs,
  [/\ seqBackwardPass C = Some (Ks, ds, Ss, vs), seqForwardPass C x0 Ks ds = Some (cus, cxs),
      convertUX_tf N (size sts) bs cus cxs = Some (us, xs),
      unique_minimiser (problem sts XT HT rT) x0 us & xs = traj (stages (problem sts XT HT rT)) x0 us].
Proof. exact tf_end_to_end. Qed.
Print Assumptions C34_tensor_solve_through_condensing.
(** a scalar problem over three steps, condensed in pairs, meets the hypotheses *)
Example C34_example_default : every (default_ZsM (p:=1)) (cexs Qf).
Proof. exact (cex_default Qf). Qed.
Example C34_example_weights : every (@symmetric_weights Qf 1 1 1) (cexs Qf).
Proof. exact (cex_weights Qf). Qed.
Example C34_example_admissible : problem_ok (problem (cexs Qf) 1%:M 1%:M 0).
Proof. exact (cex_problem Qf). Qed.
Example C34_example_returns : condense 2 (cexs Qf) <> None.
Proof. exact (@cex_some Qf). Qed.

(** C64: condense accepts a problem exactly when every non-zero state at the start of a condensed step is penalised in
    that step ... *)
Theorem C64_condense_returns_iff_visible :
  forall (R : realFieldType) n m p N (sts : seq (stage R n m p)), (0 < N)%N -> sts <> [::] ->
  every (default_ZsM (p:=p)) sts -> all_stages (fun s => stage_ok s) [seq VStage s | s <- sts] ->
  condense N sts <> None <->
  forall i, (i * N < size sts)%N -> forall x : 'cV[R]_n, x != 0 -> visible (take N (drop (i * N) sts)) x.
Proof. exact condense_iff. Qed.
Print Assumptions C64_condense_returns_iff_visible.
(** ... hence not for every admissible problem *)
Theorem C64_condense_accepts_admissible_refuted :
  forall R : realFieldType, exists (sts : seq (stage R 2 1 1)) (XT : 'M[R]_2) HT rT,
  [/\ every (default_ZsM (p:=1)) sts, problem_ok (problem sts XT HT rT) & condense 1 sts = None].
Proof. exact pex_refutes. Qed.
Print Assumptions C64_condense_accepts_admissible_refuted.
