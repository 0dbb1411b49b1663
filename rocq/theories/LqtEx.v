(** A concrete tracking problem that meets the hypotheses of the theorems: two states, two controls, cross
    terms, a control output matrix that is not the identity, three steps. *)
From Coq Require Import Ring Field.
From mathcomp Require Import all_ssreflect all_algebra.
From Verif Require Import MxBase LqtModel LqtSpec LqtCore LqtBatchModel.
Import Order.TTheory GRing.Theory Num.Theory.
Set Implicit Arguments. Unset Strict Implicit. Unset Printing Implicit Defensive.
Local Open Scope ring_scope.

(** the admissibility condition in terms of the usual definiteness conditions *)
Section Hyp.
Variable R : realFieldType.
Variables n m p : nat.
Variable s : stage R n m p.
Lemma stage_ok_reduced : symm (sX s) -> symm (sU s) -> pd (sU s) -> sZ s \in unitmx ->
  psd (sX s - sM s *m invmx (sU s) *m (sM s)^T) -> stage_ok s.
Proof.
move=> s1 s2 p2 uZ pr; have uU := pd_unit p2; split => //.
- move=> e w.
  have -> : qf (sX s) e + qf (sU s) w + dot e (sM s *m w) *+ 2 =
    qf (sX s - sM s *m invmx (sU s) *m (sM s)^T) e + qf (sU s) (invmx (sU s) *m (sM s)^T *m e + w).
    rewrite (qfD _ _ s2) qfDl -[invmx (sU s) *m _ *m e]mulmxA.
    have -> : qf (- (sM s *m invmx (sU s) *m (sM s)^T)) e = - dot ((sM s)^T *m e) (invmx (sU s) *m ((sM s)^T *m e)).
      by rewrite qf_dot mulNmx dotNr dotMl trmxK !mulmxA.
    have -> : dot e (sM s *m w) = dot ((sM s)^T *m e) w by rewrite dotMr.
    by rewrite [qf (sU s) (invmx _ *m _)]qf_dot !mulKVmx // (dotC _ ((sM s)^T *m e)); abel.
  by rewrite addr_ge0 // pd_psd.
- by move=> u u0; apply: p2; apply: contra_neq u0 => e; apply: (unit_injB uZ).
Qed.
Lemma stage_ok_no_cross : symm (sX s) -> psd (sX s) -> symm (sU s) -> pd (sU s) -> sZ s \in unitmx -> sM s = 0 -> stage_ok s.
Proof. by move=> s1 p1 s2 p2 uZ M0; apply: stage_ok_reduced => //; rewrite M0 !mul0mx subr0. Qed.
End Hyp.

Section Ex.
Variable R : realFieldType.
Definition exF : 'M[R]_2 := \matrix_(i, j) (i <= j)%:R.
Definition exc : 'cV[R]_2 := \col_i i%:R.
Definition ex_stage (Z : 'M[R]_2) (r : R) : stage R 2 2 2 :=
  Stage exF exF^T 2%:R%:M 2%:R%:M exc exF (r *: exc) Z exc 1%:M.
Definition ex_P (Z : 'M[R]_2) : lqt R 2 2 :=
  Lqt [:: VStage (ex_stage Z 1); VStage (ex_stage Z 2%:R); VStage (ex_stage Z 3%:R)] (1%:M : 'M[R]_2) exF exc.

Lemma ex_stage_ok Z r : Z \in unitmx -> stage_ok (ex_stage Z r).
Proof.
move=> uZ; split => /=; try exact: tr_scalar_mx.
- move=> e w; rewrite !qf_dot !mul_scalar_mx scale1r !dotZr.
  have -> : 2%:R * dot e e + 2%:R * dot w w + dot e w *+ 2 = dot e e + dot w w + dot (e + w) (e + w).
    by rewrite !dotDr !dotDl (dotC w e) !mulr_natl !mulr2n; mxabel.
  by rewrite !addr_ge0 // dot_ge0.
- move=> u u0; rewrite qf_dot mul_scalar_mx dotZr mulr_gt0 ?ltr0n // dot_gt0 //.
  by apply: contra_neq u0 => e; apply: (unit_injB uZ).
Qed.
Lemma ex_problem_ok Z : Z \in unitmx -> problem_ok (ex_P Z).
Proof.
move=> uZ; split; [exact: symm1|exact: pd_psd (@pd1 R 2)|].
by do ![split; first exact: ex_stage_ok].
Qed.
Lemma unit2 : (2%:R%:M : 'M[R]_2) \in unitmx.
Proof. by rewrite unitmxE det_scalar unitfE expf_neq0 // pnatr_eq0. Qed.
Lemma ex_batch_ok T Z : Z \in unitmx -> problem_ok (batch_lqt T (fun k => ex_stage Z k%:R) 1%:M exF exc).
Proof.
move=> uZ; split; [exact: symm1|exact: pd_psd (@pd1 R 2)|].
rewrite /batch_lqt /stages /mkseq; elim: (iota 0 T) => [//|k l IH]; split; [exact: ex_stage_ok|exact: IH].
Qed.
Lemma ex_trans_ok : let P := ex_P 1%:M in
  problem_ok P /\ all_stages (fun s => sZ s = 1%:M) (stages P) /\ all_stages (fun s => vp s = 2%N) (stages P).
Proof. by split; first exact: ex_problem_ok (unitmx1 _ _). Qed.
End Ex.
