(** Concrete models that meet the hypotheses of the theorems about the nonlinear tracker: an affine one, and
    f(x, u) = x + u + x^2 with a trajectory at rest, which is a fixed point. *)
From Coq Require Import Ring Field.
From mathcomp Require Import all_ssreflect all_algebra.
From Verif Require Import MxBase LqtModel LqtSpec LqtCore LqtEx LqtTfModel LqtTfSpec NlqtModel NlqtSpec NlqtProofs NlqtMain.
Import Order.TTheory GRing.Theory Num.Theory.
Set Implicit Arguments. Unset Strict Implicit. Unset Printing Implicit Defensive.
Local Open Scope ring_scope.

Section Ex.
Variable R : realFieldType.
Definition ex_affine : nlmodel R 2 2 :=
  NlModel (fun x u => exF R *m x + (exF R)^T *m u + exc R) (fun _ _ => exF R) (fun _ _ => (exF R)^T).
Lemma ex_affine_ok : affine_model ex_affine.
Proof. by exists (exF R), (exF R)^T, (exc R) => x u. Qed.

Definition ex_square : nlmodel R 1 1 :=
  NlModel (fun x u => x + u + (x 0 0 ^+ 2)%:M) (fun x _ => (1 + 2%:R * x 0 0)%:M) (fun _ _ => 1%:M).
Lemma vnorm1 (v : 'cV[R]_1) : vnorm v = `|v 0 0|.
Proof. by rewrite /vnorm big_ord_recl big_ord0 addr0. Qed.
Add Ring Rr : (mc_ring R).
Lemma ex_square_diff : differentiable ex_square.
Proof.
move=> x u eps e0; exists eps => // h k lt /=.
have -> : x + h + (u + k) + ((x + h) 0 0 ^+ 2)%:M - (x + u + (x 0 0 ^+ 2)%:M) - ((1 + 2%:R * x 0 0)%:M *m h + 1%:M *m k) = (h 0 0 ^+ 2)%:M :> 'cV[R]_1.
  apply/colP => i; rewrite (ord1 i) mul1mx mul_scalar_mx !mxE eqxx !mulr1n !expr2.
  by move: (x 0 0) (h 0 0) (u 0 0) (k 0 0) => a b c d; rsn R; ring.
rewrite (vnorm1 _%:M) mxE eqxx mulr1n expr2 normrM.
have hk : `|h 0 0| <= vnorm h + vnorm k by rewrite -vnorm1 ler_addl vnorm_ge0.
apply: ler_pmul; rewrite ?normr_ge0 //; exact: (ltW (le_lt_trans hk lt)).
Qed.
Definition ex_rest_stage : vstage R 1 1 := VStage (Stage 0 0 1%:M 1%:M 0 (1%:M : 'M[R]_1) 0 1%:M 0 0).
Definition ex_rest : lqt R 1 1 := Lqt [:: ex_rest_stage; ex_rest_stage] (1%:M : 'M[R]_1) 1%:M 0.
Lemma ex_rest_ok : problem_ok ex_rest.
Proof.
have ok : stage_ok ex_rest_stage.
  apply: stage_ok_no_cross => //=; [exact: symm1|exact: pd_psd (@pd1 R 1)|exact: symm1|exact: pd1|exact: unitmx1].
by split; [exact: symm1|exact: pd_psd (@pd1 R 1)|].
Qed.
Lemma sq0 : nf ex_square 0 0 = 0.
Proof. by rewrite /= !addr0 mxE expr0n /= add0r raddf0. Qed.
Lemma ex_rest_follows : follows ex_square 0 [:: 0; 0] [:: 0; 0; 0].
Proof. exact: (conj erefl (conj (esym sq0) (esym sq0))). Qed.
Lemma ex_rest_stationary : stationary (nlqt_cost ex_square ex_rest 0) [:: 0; 0].
Proof.
apply/(stationary_lin 0 ex_rest_ok (erefl _ : size [:: 0; 0] = 2%N) ex_square_diff) => - [|a [|b []]] // _.
cbn [stages ex_rest lin_along lin]; rewrite !(sq0, next_lin).
have z1 : gx (lin_stage ex_square ex_rest_stage 0 0) 0 0 = 0 by rewrite /gx /= !(mulmx0, mul0mx, subr0, addr0).
have z2 : gu (lin_stage ex_square ex_rest_stage 0 0) 0 0 = 0 by rewrite /gu /= !(mulmx0, mul0mx, subr0, addr0).
have z3 : gT ex_rest 0 = 0 by rewrite /gT /= !(mulmx0, mul0mx, subr0, addr0).
by rewrite z1 z2 z3 !dot0l !addr0.
Qed.
End Ex.
