(** Concrete cases for the theorems over the real numbers. *)
From Coq Require Import Reals.
From mathcomp Require Import all_ssreflect all_algebra.
From Verif Require Import RealF MxBase LqtModel LqtCore LinModModel LinModSpec ClqtModel ClqtSpec ClqtFwd2 ClqtEx ClqrModel ClqrSpec ClqrExact ClqrEx RealExpSpec RealExp RealAssm ClqrOptSpec ClqrOpt RealDisc.
Import Order.TTheory GRing.Theory Num.Theory.
Set Implicit Arguments. Unset Strict Implicit. Unset Printing Implicit Defensive.
Local Open Scope ring_scope.

Lemma expmR_sq0 k (A : 'M[Rf]_k) : A *m A = 0 -> expmR A = 1%:M + A.
Proof.
move=> Z; rewrite (@expmR_nilpotent _ A 2%N) /=; last by rewrite mulmx1.
by rewrite !big_ord_recl big_ord0 /= addr0 !fact0 !invr1 !scale1r mulmx1.
Qed.
Lemma ex_opt_hyp : let q := ex_reg (1 : Rf) 0 in [/\ symm (qU q) /\ pd (qU q), symm (qX q) /\ psd (qX q), symm (qXT q) /\ psd (qXT q) & 0 <= qT q].
Proof.
split; [split; [by rewrite /symm trmx1 | exact: pd1] | | split; [by rewrite /symm trmx1 | exact: pd_psd (@pd1 _ _)] | exact: ler01].
by split; [by rewrite /symm /= -s0 trmx0 | move=> x; rewrite /= -s0 /qf mulmx0 mul0mx /sc mxE].
Qed.
Lemma ex_opt_pass : clqr_seqBackwardPass expmR (ex_reg (1 : Rf) 0) 2 None None Exact =
  Some ([:: (1 / 2%:R)%:M; (2%:R / 3%:R)%:M], [:: (1 / 2%:R)%:M; (2%:R / 3%:R)%:M; 1%:M]).
Proof.
rewrite -ex_exact /clqr_seqBackwardPass; case: (qdt_or _ _ _) => [dt|] //; rewrite !obindS ex_qULT !obindS.
congr (qbwd_exact _ _ _ _ _); rewrite expmR_sq0 //.
rewrite -scalemxAl -scalemxAr (_ : qham _ _ *m qham _ _ = 0) ?scaler0 //.
by rewrite /qham /= mul1mx trmx0 -s0 !oppr0 mulmx_block ?mul0mx ?mulmx0 ?addr0 block_mx0.
Qed.
(** dx/dt = x: the discretisation is multiplication by e *)
Lemma ex_disc_sol : solves (fun x => 1%:M *m x + 1%:M *m 0) (fun t => (exp t : Rf)%:M : 'cV[Rf]_1) 0 1.
Proof.
have d (t : Rf) : mderiv (fun t => (exp t : Rf)%:M : 'cV[Rf]_1) t (1%:M *m (exp t : Rf)%:M + 1%:M *m 0).
  move=> i j; rewrite mul1mx mulmx0 addr0 !ord1.
  apply: (dlim_ext (f := exp)) => [s|]; first by rewrite mxE eqxx mulr1n.
  by rewrite mxE eqxx mulr1n; exact: derivable_pt_lim_exp.
by split=> t _; [exact: mderiv_cont (d t) | exact: d].
Qed.
Lemma ex_disc_val : (lti_disc expmR 1%:M (0 : 'M[Rf]_1) None 1).1 = (exp 1 : Rf)%:M :> 'M[Rf]_1.
Proof.
have := disc_u_exact (0 : 'M_1) None ler01 (t := 0) (x := fun t => (exp t : Rf)%:M : 'cV[Rf]_1) (u := 0 : 'cV_1).
rewrite add0r => /(_ _ _ ex_disc_sol); rewrite /lti_disc_u; case: (lti_disc _ _ _ _ _) => A Q /=.
by rewrite exp_0 mulmx0 addr0 mulmx1 => ->.
Qed.
