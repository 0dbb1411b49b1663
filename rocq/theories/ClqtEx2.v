(** More concrete cases for the theorems about the continuous-time tracker. *)
From Coq Require Import Ring Field.
From mathcomp Require Import all_ssreflect all_algebra.
From Verif Require Import ScanModel ScanSpec ScanProofs ScanUse MxBase LqtModel LqtSpec LqtCore LqtElem LqtMore LinComb Rk4Model Rk4Spec Rk4Proofs.
From Verif Require Import ClqtModel ClqtPack ClqtFwd ClqtFwd2 ClqtSpec ClqtBwd ClqtVal ClqtTfModel ClqtTf ClqtTf2 ClqtTf3 ClqtTf4 ClqtHjb ClqtEx.
Import Order.TTheory GRing.Theory Num.Theory.
Set Implicit Arguments. Unset Strict Implicit. Unset Printing Implicit Defensive.
Local Open Scope ring_scope.

Section Ex.
Variable R : realFieldType.
Add Ring Rr : (mc_ring R).
Add Field Rf : (mc_field R).
Ltac sfield := rsn R; field; repeat split; num_neq0 R.
Ltac scal := rewrite ?s0; repeat progress rewrite ?sT ?sZ ?sM ?sN ?sD.

Lemma ex_pack : let e : elem R 1 := Elem 1%:M 2%:R%:M 3%:R%:M 4%:R%:M 6%:R%:M in
  [/\ forall i, ent (pack_abcej e) i 0 = 1, forall i, ent (pack_abcej e) i 1 = 3%:R, forall i, ent (pack_abcej e) i 2 = 6%:R,
      forall i, ent (pack_abcej e) i 3 = 2%:R & forall i, ent (pack_abcej e) i 4 = 4%:R].
Proof.
move=> e; suff H i j (h : (j < 5)%N) : ent (pack_abcej e) i j = nth 0 [:: 1; 3%:R; 6%:R; 2%:R; 4%:R] j by split=> i; rewrite H.
rewrite /pack_abcej !ent_set // !ord1.
by case: j h => [|[|[|[|[|//]]]]] _ /=; rewrite (@ent_lt R 1 1 _ _ 0 isT) mxE /= mulr1n.
Qed.
Lemma ex_pack_tf : forall i, ent (tf_pack_abcej (Elem (1%:M : 'M[R]_1) 2%:R%:M 3%:R%:M 4%:R%:M 6%:R%:M)) i 1 = 3%:R.
Proof. by move=> i; rewrite abcej_tf_np; case: ex_pack => _ ->. Qed.
(** the block equations of a concrete element *)
Lemma ex_ode (t : R) : exists y, bwpass_bw_ode_f (ex_problem 1 1) (pack_abcej (Elem 1%:M 0 0 0 1%:M)) t = Some y /\
  unpack_abcej y = Elem 1%:M 0 (- 1%:M) (- 1%:M) 0.
Proof.
rewrite /bwpass_bw_ode_f ex_ULT obindS abcej_unpack; eexists; split; first by []; rewrite abcej_unpack.
by apply: elem_eq; rewrite /bw_rhs [LHS]/= [RHS]/=; scal; congr (_%:M); rsn R; ring.
Qed.
Lemma ex_fode (t : R) : exists y, bwpass_fw_ode_f (ex_problem 1 1) (pack_abcej (Elem 1%:M 0 1%:M 0 0)) t = Some y /\
  unpack_abcej y = Elem (- 1%:M) 1%:M 0 1%:M 1%:M.
Proof.
rewrite /bwpass_fw_ode_f ex_ULT obindS abcej_unpack; eexists; split; first by []; rewrite abcej_unpack.
by apply: elem_eq; rewrite /fw_rhs [LHS]/= [RHS]/=; scal; congr (_%:M); rsn R; ring.
Qed.
Lemma ex_riccati (t : R) : exists y, riccati_ode_f (ex_problem 1 1) (pack_Sv (2%:R%:M, 1%:M)) t = Some y /\
  unpack_Sv y = (3%:R%:M, 1%:M).
Proof.
rewrite /riccati_ode_f ex_ULT obindS Sv_unpack; eexists; split; first by []; rewrite Sv_unpack.
by rewrite /riccati_rhs /=; scal; congr (_%:M, _%:M); rsn R; ring.
Qed.
Lemma ex_init dt t0 : clqt_parBackwardPass_init (ex_problem 1 0) 2 1 dt t0 false =
  Some [:: Elem 1%:M 0 (dt * (1 * 1))%:M 0 0; Elem 1%:M 0 (dt * (1 * 1))%:M 0 0; Elem 0 0 0 1%:M 1%:M] :> option (seq (elem R 1)).
Proof.
have e1 : ST (ex_problem 1 0 : clqt R 1 1 1 1) = 1%:M by rewrite /ST /= trmx1 !mul1mx.
have e2 : vT (ex_problem 1 0 : clqt R 1 1 1 1) = 1%:M by rewrite /vT /= trmx1 !mul1mx.
rewrite /clqt_parBackwardPass_init e1 e2.
rewrite -[omap_seq _ _]/(let? y := block_elem (ex_problem 1 0) dt t0 1 false 0 in let? ys := (let? y := block_elem (ex_problem 1 0) dt t0 1 false 1 in Some [:: y]) in Some (y :: ys)).
by rewrite !ex_block !obindS.
Qed.
Lemma ex_combine : combineForwardBackward [::] [::] [:: 1%:M] [:: 0] [:: (0, 1%:M, 1%:M)] = Some ([::], [:: (1 / 2%:R)%:M]) :> option (seq 'cV[R]_1 * seq 'cV[R]_1).
Proof.
have u2 : ((1 + 1 : R)%:M : 'M_1) \in unitmx by rewrite unitmxE det_scalar expr1 unitfE -[1 + 1]/(2%:R) pnatr_eq0.
have i2 : invmx ((1 + 1 : R)%:M : 'M_1) = (1 / 2%:R)%:M.
  by rewrite -[LHS]mulmx1 -(mulKmx u2 (1 / 2%:R)%:M) sM; congr (_ *m _%:M); sfield.
rewrite -[LHS]/(let? x := solve (1%:M + 1%:M *m 1%:M) (1%:M + 1%:M *m 0) in Some ([::], [:: x])).
have -> : 1%:M + 1%:M *m 1%:M = (1 + 1 : R)%:M :> 'M_1 by scal; rewrite mulr1.
by rewrite (solve_unit _ u2) i2 obindS mulmx0 addr0; scal; rewrite mulr1.
Qed.
Lemma ex_blocks_psd dt t0 (d0 : 0 <= dt) k e : block_elem (ex_problem (1 : R) 0) dt t0 1 false k = Some e -> psd (eC e) /\ psd (eJ e).
Proof.
rewrite ex_block => -[<-]; split; last exact: psd0.
move=> x; rewrite -[eC _]/((dt * (1 * 1))%:M) qf_dot !mulr1 mul_scalar_mx dotZr mulr_ge0 ?dot_ge0 //.
Qed.
Lemma ex_blocks_psd1 k e : block_elem (ex_problem (1 : R) 0) 1 0 1 false k = Some e -> psd (eC e) /\ psd (eJ e).
Proof. by move/ex_blocks_psd; apply; exact: ler01. Qed.
End Ex.
