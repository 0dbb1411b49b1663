(** A problem with a non-symmetric weight on which the sequential passes are not optimal. *)
From Coq Require Import Ring Field.
From mathcomp Require Import all_ssreflect all_algebra.
From Verif Require Import MxBase LqtModel LqtSpec LqtCore LqtProofs.
Import Order.TTheory GRing.Theory Num.Theory.
Set Implicit Arguments. Unset Strict Implicit. Unset Printing Implicit Defensive.
Local Open Scope ring_scope.

Section Asym.
Variable R : realFieldType.
Add Ring Rr : (mc_ring R).
Add Field Rf : (mc_field R).
Ltac sfield := rsn R; field; exact: two_neq0.

Definition as_st : stage R 1 1 1 := Stage 1%:M 1%:M 1%:M 1%:M 0 1%:M 0 1%:M 0 0.
(** XT = [[1,1],[0,1]], HT = [1;0], rT = [0;1] *)
Definition as_XT : 'M[R]_2 := \matrix_(i, j) (i <= j)%:R.
Definition as_HT : 'M[R]_(2, 1) := \matrix_(i, j) (i == 0)%:R.
Definition as_rT : 'cV[R]_2 := \col_i (i != 0)%:R.
Definition as_P : lqt R 1 1 := Lqt [:: VStage as_st] as_XT as_HT as_rT.

Lemma big2 (f : 'I_2 -> R) : \sum_i f i = f 0 + f 1.
Proof. by rewrite big_ord_recl big_ord1; congr (_ + f _); apply/val_inj. Qed.
Lemma e1 (A : 'M[R]_1) : A = (A 0 0)%:M.
Proof. by apply/matrixP => i j; rewrite !ord1 !mxE eqxx. Qed.

Ltac nrm := rewrite /= ?(mulr1n, mulr0n) ?(mul1r, mulr1, mul0r, mulr0, addr0, add0r, subr0, sub0r).
Lemma as_S : as_HT^T *m as_XT *m as_HT = 1%:M.
Proof. by rewrite [LHS]e1; congr (_%:M); rewrite mxE big2 !mxE !big2 !mxE; nrm. Qed.
Lemma as_v : as_HT^T *m as_XT *m as_rT = 1%:M.
Proof. by rewrite [LHS]e1; congr (_%:M); rewrite mxE big2 !mxE !big2 !mxE; nrm. Qed.
Lemma as_final a : qf as_XT (as_HT *m a%:M - as_rT) = a ^+ 2 - a + 1.
Proof. rewrite /qf /sc mxE big2 !mxE !big2 !mxE /= !big_ord1 !mxE; nrm; rewrite expr2; rsn R; ring. Qed.

Lemma as_pd : pd as_XT.
Proof.
move=> x x0.
have -> : qf as_XT x = ((x 0 0 + x 1 0) ^+ 2 + (x 0 0) ^+ 2 + (x 1 0) ^+ 2) / 2%:R.
  rewrite /qf /sc mxE big2 !mxE !big2 !mxE; nrm; rewrite !expr2; sfield.
rewrite divr_gt0 ?ltr0n // -addrA; apply: ltr_paddl; first exact: sqr_ge0.
rewrite lt_def addr_ge0 ?sqr_ge0 // andbT paddr_eq0 ?sqr_ge0 // !sqrf_eq0.
apply: contra x0 => /andP [/eqP a /eqP b]; apply/eqP/matrixP => i j; rewrite ord1 mxE.
by case: i => [[|[|//]]] h; [rewrite -[RHS]a | rewrite -[RHS]b]; congr (x _ _); apply/val_inj.
Qed.

Lemma solve_pos1 (a b : R) : 0 < a -> solve_pos (a%:M : 'M[R]_1) (b%:M : 'M[R]_1) = Some ((b / a)%:M).
Proof.
move=> a0; rewrite solve_posE.
- by rewrite invmx_scalar -scalar_mxM mulrC.
- by rewrite /symm tr_scalar_mx.
- move=> x x0; rewrite [x]e1 /qf tr_scalar_mx -!scalar_mxM /sc mxE eqxx mulr1n mulrAC -expr2 pmulr_lgt0 // lt_def sqr_ge0 andbT sqrf_eq0.
  by apply: contra x0 => /eqP e; rewrite [x]e1 e raddf0.
Qed.

Ltac m1 := rewrite ?(trmx1, trmx0, mul1mx, mulmx1, mulmx0, mul0mx, add0r, addr0, subr0, oppr0).
Lemma as_gain : gain as_st 1%:M 1%:M = Some (2%:R^-1%:M, 2%:R^-1%:M).
Proof.
rewrite /gain /=; m1; have -> : 1%:M + 1%:M = (2%:R)%:M :> 'M[R]_1 by rewrite -raddfD.
rewrite !solve_pos1 ?ltr0n //= ; m1; rewrite ?trmx0 ?mul0mx ?add0r ?addr0 ?solve_pos1 ?ltr0n //=.
by rewrite !mul1r.
Qed.

Theorem asym_refuted : exists (P : lqt R 1 1) (x0 : 'cV[R]_1),
  pd (XT P) /\ all_stages (fun s => pd (sX s) /\ pd (sU s)) (stages P) /\
  exists Ks ds Ss vs us xs us' xs' c c',
  [/\ seqBackwardPass P = Some (Ks, ds, Ss, vs), seqForwardPass P x0 Ks ds = Some (us, xs) & lqt_cost P us xs = Some c] /\
  [/\ seqSimulation P x0 us' = Some xs', lqt_cost P us' xs' = Some c', size us' = size (stages P) & c' < c].
Proof.
exists as_P, 0; split; first exact: as_pd.
split; first by split => //; split => //=; exact: pd1.
have nx a : next as_st 0 a%:M = a%:M by rewrite /next /=; m1.
have C a : total_cost as_P 0 [:: a%:M] = (a ^+ 2 *+ 2 - a + 1) / 2%:R.
  rewrite /total_cost /= nx /final_cost /= as_final /stage_cost /=; m1; rewrite ?mul0mx ?mulmx0 ?subr0 ?dot0r.
  have q1 : qf 1%:M (a%:M : 'cV[R]_1) = a * a by rewrite /qf tr_scalar_mx mulmx1 -scalar_mxM /sc mxE eqxx.
  rewrite q1 ?qf0 expr2.
  by sfield.
have t a : traj (stages as_P) 0 [:: a%:M] = [:: 0; a%:M] by rewrite /= nx.
exists [:: 2%:R^-1%:M], [:: 2%:R^-1%:M].
eexists; eexists; exists [:: 2%:R^-1%:M], [:: 0; 2%:R^-1%:M], [:: (2%:R^-1 / 2%:R)%:M], [:: 0; (2%:R^-1 / 2%:R)%:M].
eexists; eexists; split; split.
- by rewrite /seqBackwardPass /= as_S as_v as_gain /=.
- rewrite /seqForwardPass /=; have -> : - 2%:R^-1%:M *m 0 + 2%:R^-1%:M = 2%:R^-1%:M :> 'cV[R]_1 by rewrite mulmx0 add0r.
  by rewrite -/(next as_st 0 _) nx.
- by rewrite -(t 2%:R^-1) lqt_costE // C.
- by rewrite /seqSimulation /= -/(next as_st 0 _) nx.
- by rewrite -(t (2%:R^-1 / 2%:R)) lqt_costE // C.
- by [].
- rewrite !C -subr_gt0.
  have -> : (2%:R^-1 ^+ 2 *+ 2 - 2%:R^-1 + 1) / 2%:R - ((2%:R^-1 / 2%:R) ^+ 2 *+ 2 - (2%:R^-1 / 2%:R) + 1) / 2%:R = (2%:R^-1 / 2%:R) * (2%:R^-1 / 2%:R) :> R.
    by rewrite !expr2; sfield.
  by rewrite mulr_gt0 // divr_gt0 // ?invr_gt0 ltr0n.
Qed.
End Asym.
