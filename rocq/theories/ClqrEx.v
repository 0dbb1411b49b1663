(** Concrete cases for the theorems about the continuous-time regulator. *)
From Coq Require Import Ring Field.
From mathcomp Require Import all_ssreflect all_algebra.
From Verif Require Import ScanModel ScanSpec ScanProofs ScanUse MxBase LqtModel LqtSpec LqtCore LqtElem LqtMore LinComb Rk4Model Rk4Spec Rk4Proofs LinModModel.
From Verif Require Import ClqtModel ClqtPack ClqtFwd ClqtFwd2 ClqtSpec ClqtBwd ClqtVal ClqtTfModel ClqtTf ClqtTf2 ClqtTf3 ClqtTf4 ClqtEx.
From Verif Require Import ClqrModel ClqrSpec ClqrProofs ClqrPar ClqrUse.
Import Order.TTheory GRing.Theory Num.Theory.
Set Implicit Arguments. Unset Strict Implicit. Unset Printing Implicit Defensive.
Local Open Scope ring_scope.
Local Arguments rk4_x : simpl never.

(** dx/dt = l u, running cost 1/2 (x x^2 + u^2), terminal cost 1/2 x^2, on [0, 1] *)
Definition ex_reg (R : realFieldType) (l x : R) : clqr R 1 1 := Clqr 0 l%:M x%:M 1%:M 1%:M 1.
(** the exponential of a matrix with square 0 *)
Definition exp1 (R : realFieldType) (n : nat) (M : 'M[R]_n) : 'M[R]_n := 1%:M + M.

Section Ex.
Variable R : realFieldType.
Add Ring Rr : (mc_ring R).
Add Field Rf : (mc_field R).
Ltac sfield := rsn R; field; repeat split; num_neq0 R.
Ltac scal := rewrite ?s0; repeat progress rewrite ?sT ?sZ ?sM ?sN ?sD.
Local Notation V1 := (matrix_lmodType R 1 1).
Local Notation e38 := (3%:R / (4%:R * 2%:R)).

Lemma exp1_natural : natural_exp (@exp1 R).
Proof.
split=> [k A|k l A B P E]; first by rewrite /exp1 linearD /= trmx1.
by rewrite /exp1 mulmxDl mulmxDr mul1mx mulmx1 E.
Qed.
Lemma exp1_group k (M : 'M[R]_k) : M *m M = 0 -> exponential_of (@exp1 R) M.
Proof.
move=> Z; split; [|split].
- move=> a b; rewrite /exp1 mulmxDl !mulmxDr !mul1mx mulmx1 -scalemxAl -scalemxAr Z !scaler0 addr0 scalerDl.
  by rewrite -addrA [b *: M + _]addrC.
- by rewrite /exp1 addr0.
exists 1, 0; split=> // g _ i j; rewrite add0r /exp1 scale0r addr0 subrr normr0 mul0r //.
Qed.
Lemma ex_ham : let H := block_mx (0 : 'M[R]_1) (- 1%:M : 'M_1) (0 : 'M[R]_1) (- (0 : 'M[R]_1)^T) in H *m H = 0.
Proof. by move=> H; rewrite /H trmx0 oppr0 mulmx_block ?mul0mx ?mulmx0 ?addr0 block_mx0. Qed.
Lemma ex_exact_hyp : let q := ex_reg (1 : R) 0 in let N := qL q *m invmx (qU q) *m (qL q)^T in
  [/\ symm (qU q), pd (qU q), symm (qX q), symm (qXT q) & natural_exp (@exp1 R) /\ exponential_of (@exp1 R) (block_mx (qF q) (- N) (- qX q) (- (qF q)^T))].
Proof.
split; [by rewrite /symm trmx1 | exact: pd1 | by rewrite /symm /= -s0 trmx0 | by rewrite /symm trmx1 | split; first exact: exp1_natural].
apply: exp1_group; rewrite /= invmx1 !mul1mx trmx1 -s0 oppr0; exact: ex_ham.
Qed.
Lemma ex_qULT (l x : R) : qULT (ex_reg l x) = Some l%:M.
Proof. exact: (ex_ULT l x 0). Qed.
Lemma unit1 (a : R) : a != 0 -> (a%:M : 'M_1) \in unitmx.
Proof. by move=> nz; rewrite unitmxE det_scalar expr1 unitfE. Qed.
Lemma inv1 (a : R) : a != 0 -> invmx (a%:M : 'M_1) = (a^-1)%:M.
Proof. by move=> nz; rewrite -[LHS]mulmx1 -(mulKmx (unit1 nz) (a^-1)%:M) sM mulfV. Qed.
Lemma ex_exact : clqr_seqBackwardPass (@exp1 R) (ex_reg 1 0) 2 None None Exact =
  Some ([:: (1 / 2%:R)%:M; (2%:R / 3%:R)%:M], [:: (1 / 2%:R)%:M; (2%:R / 3%:R)%:M; 1%:M]).
Proof.
rewrite /clqr_seqBackwardPass -[qdt_or _ _ _]/(Some (1 / 2%:R)) obindS ex_qULT obindS /=.
set Psi := exp1 _.
have EP : Psi = block_mx 1%:M (1 / 2%:R)%:M 0 1%:M.
  rewrite /Psi /exp1 /qham /= -s0 oppr0 trmx0 oppr0 scale_block_mx scalar_mx_block add_block_mx !scaler0 !addr0 add0r mul1mx.
  by congr block_mx; scal; congr (_%:M); sfield.
have st (a b : R) : Psi *m col_mx a%:M b%:M = col_mx (a + b / 2%:R)%:M b%:M.
  by rewrite EP mul_block_col mul0mx add0r !mul1mx; scal; congr col_mx; congr (_%:M); sfield.
rewrite !st !col_mxKu !col_mxKd.
have n1 : 1 + 1 / 2%:R != 0 :> R by rewrite gt_eqF // ?addr_gt0 ?divr_gt0 ?ltr01 ?ltr0n.
have n2 : 1 + 1 / 2%:R + 1 / 2%:R != 0 :> R by rewrite gt_eqF // ?addr_gt0 ?divr_gt0 ?ltr01 ?ltr0n.
rewrite !trmx1 !sT (solve_unit _ (unit1 n1)) obindS (solve_unit _ (unit1 n2)) obindS !mulmx1 (inv1 n1) (inv1 n2) !symz1 !mul1mx.
have -> : (1 + 1 / 2%:R)^-1 = 2%:R / 3%:R :> R by sfield.
by have -> : (1 + 1 / 2%:R + 1 / 2%:R)^-1 = 1 / 2%:R :> R by sfield.
Qed.
(** held control over a unit step: x' = x + u *)
Lemma ex_zoh_hyp : exponential_of (@exp1 R) (block_mx (qF (ex_reg 1 0)) (qL (ex_reg 1 0)) 0 (0 : 'M[R]_1)).
Proof. by apply: exp1_group; rewrite mulmx_block !mul0mx !mulmx0 !addr0 block_mx0. Qed.
Lemma ex_exact_forward : clqr_seqForwardPass (@exp1 R) (ex_reg 1 0) 1%:M [:: (1 / 2%:R)%:M] None Exact true = Some ([:: (- (1 / 2%:R))%:M], [:: 1%:M; (1 / 2%:R)%:M]).
Proof.
rewrite /clqr_seqForwardPass -[qdt_or _ _ _]/(Some (1 / 1%:R)) obindS divr1 /= /exp1 scale1r scalar_mx_block add_block_mx.
rewrite block_mxKul scale1r add_block_mx block_mxKur add0r addr0 !mul1mx mulmx1.
by scal; congr (Some (_, [:: _; _])); congr (_%:M); sfield.
Qed.
(** without hold: a double integrator without feedback *)
Definition ex_double : clqr R 2 1 := Clqr (delta_mx 0 1) (delta_mx 1 0) 1%:M 1%:M 1%:M 1.
Lemma ex_nohold_hyp : forall K : 'M[R]_(1, 2), K \in [:: 0] -> exponential_of (@exp1 R) (qF ex_double - qL ex_double *m K).
Proof.
move=> K; rewrite inE => /eqP ->; rewrite mulmx0 subr0; apply: exp1_group.
by rewrite /= mul_delta_mx_0.
Qed.
Lemma ex_nohold : exists us xs, clqr_seqForwardPass (@exp1 R) ex_double (delta_mx 1 0) [:: 0] None Exact false = Some (us, xs) /\
  nth 0 xs 1 = delta_mx 0 0 + delta_mx 1 0.
Proof.
rewrite /clqr_seqForwardPass -[qdt_or _ _ _]/(Some (1 / 1%:R)) obindS divr1 /= /exp1 scale1r; do 2 eexists; split; first by [].
by rewrite /= mulmx0 subr0 mulmxDl mul1mx mul_delta_mx addrC.
Qed.

(** ** Runge-Kutta *)
Lemma ex_rk4 expm : clqr_seqBackwardPass expm (ex_reg 1 0) 1 None None Rk4 = Some ([:: (ex_S0 R)%:M], [:: (ex_S0 R)%:M; 1%:M]).
Proof.
rewrite /clqr_seqBackwardPass -[qdt_or _ _ _]/(Some (1 / 1%:R)) obindS ex_qULT obindS divr1 qbwdS (form_x _ _ _ 0) rk4_total obindS /=.
set y := (X in symz X); suff -> : y = (ex_S0 R)%:M by rewrite symz1 mul1mx.
by rewrite /y /qriccati /=; rewrite trmx0; scal; congr (_%:M); rewrite /ex_S0; sfield.
Qed.
Lemma ex_rk4_stationary expm : clqr_seqBackwardPass expm (ex_reg (1 : R) 1) 2 None None Rk4 = Some ([:: 1%:M; 1%:M], [:: 1%:M; 1%:M; 1%:M]).
Proof.
rewrite /clqr_seqBackwardPass -[qdt_or _ _ _]/(Some (1 / 2%:R)) obindS ex_qULT obindS.
have Z : qriccati (ex_reg (1 : R) 1) (1%:M *m 1%:M) 1%:M = 0.
  by rewrite /qriccati /= trmx0 oppr0 mul0mx mulmx0 !mul1mx subr0 add0r subrr.
have S : rk4_x (V := V1) (fun Q => Some (qriccati (ex_reg 1 1) (qL (ex_reg 1 1) *m 1%:M) Q)) (- (1 / 2%:R)) 1%:M = Some 1%:M.
  rewrite (form_x _ _ _ 0); apply/rk4_classical; exists 0, 0, 0, 0.
  by split; rewrite ?scaler0 ?addr0 ?scaler0 ?addr0 //= Z.
by rewrite -[or_else _ _]/(1%:M : 'M[R]_1) qbwdS S obindS symz1 qbwdS S obindS symz1 /= !mul1mx.
Qed.
(** one block of one step: the value 1/2 at its beginning *)
Lemma ex_qblock (dt : R) : qblock_elem (ex_reg 1 0) dt 1 false = Some (Elem 1%:M 0 dt%:M 0 0).
Proof.
rewrite -(block_elem_tracker _ _ 0 _ _ 0) /block_elem -[for_ _ _ _]/(obind _ (elem_step _ _ _ _)).
rewrite (@elem_step_const _ _ _ _ _ (Elem 0 0 (- 1)%:M 0 0)).
  rewrite obindS; congr Some; apply: elem_eq; rewrite /elem_lin [LHS]/= [RHS]/=; scal; rewrite ?symz1; congr (_%:M); rsn R; ring.
move=> a s; rewrite -abcej_pack_lin bw_ode_tracker /qbwpass_bw_ode_f ex_qULT obindS abcej_unpack; apply: some_pack; apply: elem_eq; rewrite /qbw_rhs /elem_lin [LHS]/= [RHS]/=; scal; congr (_%:M); rsn R; ring.
Qed.
Lemma ex_rpar expm : clqr_parBackwardPass expm (ex_reg 1 0) 1 1 Rk4 Rk4 = Some ([:: (ex_S0 R)%:M], [:: (1 / 2%:R)%:M; 1%:M]).
Proof.
rewrite /clqr_parBackwardPass /clqr_parBackwardPass_init -[div_nats _ _]/(Some (1 / 1%:R / 1%:R)) obindS !divr1 ex_qblock !obindS.
rewrite -[rcons _ _]/[:: Elem 1%:M 0 1%:M 0 0; Elem 0 0 0 0 1%:M].
set e := Elem _ _ _ _ _; set f := Elem _ _ _ _ _.
have ok : List.Forall (@elem_ok R 1) (rcons [:: e] f).
  have oke : elem_ok e by split; [exact: symm1 | exact/pd_psd/pd1 | exact: symm0 | exact: psd0].
  have okf : elem_ok f by split; [exact: symm0 | exact: psd0 | exact: symm1 | exact/pd_psd/pd1].
  exact: List.Forall_cons _ oke (List.Forall_cons _ okf (List.Forall_nil _)).
have n2 : 1 + 1 != 0 :> R by rewrite -[1 + 1]/(2%:R) pnatr_eq0.
have E : combine_abcej e f = Some (Elem 0 0 0 0 (1 / 2%:R)%:M).
  rewrite /combine_abcej /e /f /= !mulmx1 !sD !(solve_unit _ (unit1 n2)) !obindS (inv1 n2); congr Some.
  by apply: elem_eq; rewrite [LHS]/= [RHS]/=; scal; congr (_%:M); rewrite -?[1 + 1]/(2%:R); rsn R; try ring; field; num_neq0 R.
rewrite /LqtModel.par_backward_pass_scan (scan_scanr (@elem_ok R 1) _ (@combine_closed R 1) (@combine_assoc R 1)) //.
rewrite -[scanr_o _ _]/(match combine_abcej e f with Some g => Some [:: g; f] | None => None end) E obindS.
rewrite /clqr_parBackwardPass_extract -[div_nats _ _]/(Some (1 / 1%:R / 1%:R)) obindS !divr1 qextract_cons -[eJ f]/(1%:M).
have -> : clqr_seqBackwardPass expm (ex_reg 1 0) 1 (Some 1) (Some 1%:M) Rk4 = clqr_seqBackwardPass expm (ex_reg (1 : R) 0) 1 None None Rk4.
  by rewrite /clqr_seqBackwardPass -[qdt_or _ None _]/(Some (1 / 1%:R)) divr1.
by rewrite ex_rk4.
Qed.
Lemma ex_rpar_not_seq expm : exists (q : clqr R 1 1) r r', [/\ [/\ symm (qU q), pd (qU q), symm (qX q) /\ psd (qX q), symm (qXT q) & psd (qXT q)],
  clqr_parBackwardPass expm q 1 1 Rk4 Rk4 = Some r, clqr_seqBackwardPass expm q 1 None None Rk4 = Some r' & r <> r'].
Proof.
exists (ex_reg 1 0); do 2! eexists; split; [|exact: ex_rpar|exact: ex_rk4|].
  split; [by rewrite /symm trmx1 | exact: pd1 | | by rewrite /symm trmx1 | exact/pd_psd/pd1].
  by rewrite /= -s0; split; [rewrite /symm trmx0 | exact: psd0].
by case=> /esym /ex_S0_neq.
Qed.
(** ** forward passes *)
Lemma ex_rseq_zoh expm : clqr_seqForwardPass expm (ex_reg (1 : R) 1) 1%:M [:: 1%:M] None Rk4 true = Some ([:: (- 1)%:M], [:: 1%:M; 0]).
Proof.
rewrite -(seq_forward_tracker _ _ _ _ _ None) -(ex_seq_zoh (1 : R)) /clqt_seqForwardPass -[dt_or _ None _]/(Some (1 / 1%:R)) divr1.
by [].
Qed.
Lemma ex_rpar_zoh expm : clqr_parForwardPass expm (ex_reg (1 : R) 1) 1%:M [:: 1%:M] 1 1 Rk4 Rk4 true = Some ([:: (- 1)%:M], [:: 1%:M; e38%:M]).
Proof.
rewrite -par_forward_tracker -(ex_par_zoh (1 : R) true) /clqt_parForwardPass -[dt_or _ None _]/(Some (1 / 1%:R / 1%:R)) !divr1.
by [].
Qed.
Lemma ex_rzoh_refuted expm : exists (q : clqr R 1 1) x0 Ks us xs xs', [/\ size Ks = 1%N,
  clqr_seqForwardPass expm q x0 Ks None Rk4 true = Some (us, xs), clqr_parForwardPass expm q x0 Ks 1 1 Rk4 Rk4 true = Some (us, xs') & xs <> xs'].
Proof.
exists (ex_reg 1 1), 1%:M, [:: 1%:M], [:: (- 1)%:M], [:: 1%:M; 0], [:: 1%:M; e38%:M]; split; [by []|exact: ex_rseq_zoh|exact: ex_rpar_zoh|].
case=> /matrixP /(_ 0 0); rewrite !mxE /= mulr1n => /esym /eqP; rewrite mulf_eq0 invr_eq0 mulf_eq0 => /orP [|/orP []]; by rewrite pnatr_eq0.
Qed.
Lemma ex_rseq expm : clqr_seqForwardPass expm (ex_reg (1 : R) 1) 1%:M [:: 1%:M] None Rk4 false = Some ([:: (- 1)%:M], [:: 1%:M; e38%:M]).
Proof.
rewrite -(seq_forward_tracker _ _ _ _ _ None) /clqt_seqForwardPass -[dt_or _ None _]/(Some (1 / 1%:R)) obindS divr1 ClqtFwd2.fwd_loop_cons.
have -> : cstep (tracker (ex_reg 1 1)) 1 (or_else None 0 + 0%:R * 1) 1%:M 0 1%:M = (1 * e38)%:M := @ex_cstep R 1 1 (0 + 0%:R * 1) 1 (erefl 1).
by rewrite mul1r /= addr0 mulNmx mul1mx; scal.
Qed.
Lemma ex_rpar_nohold expm : clqr_parForwardPass expm (ex_reg (1 : R) 1) 1%:M [:: 1%:M] 1 1 Rk4 Rk4 false = Some ([:: (- 1)%:M], [:: 1%:M; e38%:M]).
Proof. by have [-> // _] := reg_par_forward expm (ex_reg (1 : R) 1) 1%:M [:: 1%:M] 1 1; exact: ex_rseq. Qed.
End Ex.
