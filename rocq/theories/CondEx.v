(** Examples for condensing. *)
From mathcomp Require Import all_ssreflect all_algebra.
From Verif Require Import MxBase LqtModel LqtSpec LqtCore LqtProofs LqtEx CondModel CondSpec CondProofs CondMain CondOpt.
Import Order.TTheory GRing.Theory Num.Theory.
Set Implicit Arguments. Unset Strict Implicit. Unset Printing Implicit Defensive.
Local Open Scope ring_scope.

Section Ex.
Variable R : realFieldType.
(** a scalar system with offset and reference; its problem over three steps is condensed in pairs *)
Definition cex (k : nat) : stage R 1 1 1 := Stage (2%:R%:M) 1%:M (k.+1%:R%:M) 1%:M 1 1%:M (k%:R%:M) 1%:M 0 0.
Definition cexs : seq (stage R 1 1 1) := [:: cex 0; cex 1; cex 2].
Lemma qf_scalar n (a : R) (x : 'cV[R]_n) : qf a%:M x = a * dot x x.
Proof. by rewrite qf_dot mul_scalar_mx dotZr. Qed.
Lemma cex_ok k : stage_ok (cex k).
Proof.
apply: stage_ok_no_cross => //=.
- exact: tr_scalar_mx.
- by move=> x; rewrite qf_scalar mulr_ge0 ?ler0n ?dot_ge0.
- exact: symm1.
- exact: pd1.
- exact: unitmx1.
Qed.
Lemma cex_default : every (default_ZsM (p:=1)) cexs. Proof. by []. Qed.
Lemma cex_weights : every (@symmetric_weights R 1 1 1) cexs.
Proof. by do !split; rewrite /symm /= ?tr_scalar_mx. Qed.
Lemma cex_stages : all_stages (fun s => stage_ok s) [seq VStage s | s <- cexs].
Proof. exact: (conj (cex_ok 0) (conj (cex_ok 1) (conj (cex_ok 2) I))). Qed.
Lemma cex_visible i : (i * 2 < size cexs)%N -> forall x, x != 0 -> visible (take 2 (drop (i * 2) cexs)) x.
Proof.
have pos k (x : 'cV[R]_1) : x != 0 -> 0 < qf (sX (cex k)) (sH (cex k) *m x).
  by move=> nz; rewrite /= mul1mx qf_scalar mulr_gt0 ?ltr0Sn ?dot_gt0.
by case: i => [|[|i]] // _ x nz; left; exact: pos.
Qed.
Lemma cex_some : condense 2 cexs <> None.
Proof. by apply: condense_defined => //; [exact: cex_stages | exact: cex_visible]. Qed.
Lemma cex_problem : problem_ok (problem cexs (1%:M : 'M[R]_1) 1%:M 0).
Proof. by split; [exact: symm1 | exact/pd_psd/pd1 | exact: cex_stages]. Qed.

(** two states, only the first is penalised, one step at a time *)
Definition pex : stage R 2 1 1 := Stage 1%:M 0 1%:M 1%:M 0 (row_mx 1%:M 0 : 'M[R]_(1, 1 + 1)) 0 1%:M 0 0.
Lemma pex_ok : problem_ok (problem [:: pex] (1%:M : 'M[R]_2) 1%:M 0).
Proof.
split; [exact: symm1 | exact/pd_psd/pd1 |].
split=> //; apply: stage_ok_no_cross => //=; [exact: symm1 | exact/pd_psd/pd1 | exact: symm1 | exact: pd1 | exact: unitmx1].
Qed.
Lemma pex_none : condense 1 [:: pex] = None.
Proof.
case E: (condense 1 [:: pex]) => [bs|] //.
have [_ _ ok] := pex_ok; have D : every (default_ZsM (p:=1)) [:: pex] by [].
have nz : (col_mx 0 1%:M : 'cV[R]_(1 + 1)) != 0.
  by apply/eqP => e; have := col_mxKd (0 : 'cV[R]_1) (1%:M : 'cV[R]_1); rewrite e linear0 => /matrixP /(_ 0 0); rewrite !mxE /= => /eqP; rewrite eq_sym oner_eq0.
case: (@condense_needs _ _ _ _ 1 [:: pex] isT D ok _ 0 isT _ nz); first by rewrite E.
case=> // H; have Z : sH pex *m (col_mx 0 1%:M : 'cV[R]_(1 + 1)) = 0.
  transitivity (1%:M *m (0 : 'cV[R]_1) + (0 : 'M[R]_1) *m 1%:M); last by rewrite mul0mx mulmx0 addr0.
  exact: (@mul_row_col R 1 1 1 1).
by rewrite [_ *m _]Z qf0 ltxx in H.
Qed.
End Ex.
Lemma pex_refutes (R : realFieldType) : exists (sts : seq (stage R 2 1 1)) (XT : 'M[R]_2) (HT : 'M[R]_2) (rT : 'cV[R]_2),
  [/\ every (default_ZsM (p:=1)) sts, problem_ok (problem sts XT HT rT) & condense 1 sts = None].
Proof. by exists [:: pex R], 1%:M, 1%:M, 0; split=> //; [exact: pex_ok | exact: pex_none]. Qed.
