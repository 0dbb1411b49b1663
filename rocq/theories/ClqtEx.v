(** Concrete cases for the theorems about the continuous-time tracker. *)
From Coq Require Import Ring Field.
From mathcomp Require Import all_ssreflect all_algebra.
From Verif Require Import ScanModel ScanSpec ScanProofs ScanUse MxBase LqtModel LqtSpec LqtCore LqtElem LqtMore LinComb Rk4Model Rk4Spec Rk4Proofs.
From Verif Require Import ClqtModel ClqtPack ClqtFwd ClqtFwd2 ClqtSpec ClqtBwd ClqtVal ClqtTfModel ClqtTf ClqtTf2 ClqtTf3 ClqtTf4.
Import Order.TTheory GRing.Theory Num.Theory.
Set Implicit Arguments. Unset Strict Implicit. Unset Printing Implicit Defensive.
Local Open Scope ring_scope.

(** dx/dt = l u, running cost 1/2 (q (x - 1)^2 + u^2), terminal cost 1/2 (x - 1)^2, on [0, 1] *)
Definition ex_problem (R : realFieldType) (l q : R) : clqt R 1 1 1 1 :=
  Clqt (fun _ => 0) (fun _ => l%:M) (fun _ => q%:M) (fun _ => 1%:M) 1%:M (fun _ => 0) (fun _ => 1%:M) (fun _ => 1%:M) 1%:M 1%:M 1.

Section Ex.
Variable R : realFieldType.
Add Ring Rr : (mc_ring R).
Add Field Rf : (mc_field R).
Ltac sfield := rsn R; field; repeat split; num_neq0 R.
Local Notation V1 := (matrix_lmodType R 1 1).

Lemma ex_ULT (l q t : R) : ULT (ex_problem l q) t = Some l%:M.
Proof.
rewrite /ULT /= solve_posE; first by rewrite invmx1 mul1mx tr_scalar_mx.
  by rewrite /symm trmx1.
by move=> x nz; exact: pd1.
Qed.
Lemma ex_U (l q t : R) : symm (kU (ex_problem l q) t) /\ pd (kU (ex_problem l q) t).
Proof. by split; [rewrite /symm /= trmx1 | exact: pd1]. Qed.

(** one by one matrices *)
Lemma sD (a b : R) : a%:M + b%:M = (a + b)%:M :> 'M_1. Proof. by rewrite -raddfD. Qed.
Lemma sN (a : R) : - a%:M = (- a)%:M :> 'M_1. Proof. by rewrite -raddfN. Qed.
Lemma sM (a b : R) : a%:M *m b%:M = (a * b)%:M :> 'M_1. Proof. by rewrite -scalar_mxM. Qed.
Lemma sZ (a b : R) : a *: b%:M = (a * b)%:M :> 'M_1. Proof. by rewrite scale_scalar_mx. Qed.
Lemma sT (a : R) : a%:M^T = a%:M :> 'M_1. Proof. exact: tr_scalar_mx. Qed.
Lemma s0 : (0 : 'M[R]_1) = 0%:M. Proof. by rewrite raddf0. Qed.
Ltac scal := rewrite ?s0; repeat progress rewrite ?sT ?sZ ?sM ?sN ?sD.

(** states 1, 3/8, 9/64 under the feedback u = -x *)
Lemma ex_cstep (q h t : R) (a : R) : h = 1 -> cstep (ex_problem 1 q) h t 1%:M 0 a%:M = (a * (3%:R / (4%:R * 2%:R)))%:M.
Proof. by move=> ->; rewrite /cstep /tF /tc /=; scal; congr (_%:M); sfield. Qed.
Lemma ex_seq_forward (q : R) :
  clqt_seqForwardPass (ex_problem 1 q) 1%:M [:: 1%:M; 1%:M] [:: 0; 0] (Some 1) None false =
  Some ([:: (- 1)%:M; (- (3%:R / (4%:R * 2%:R)))%:M],
        [:: 1%:M; (3%:R / (4%:R * 2%:R))%:M; (3%:R / (4%:R * 2%:R) * (3%:R / (4%:R * 2%:R)))%:M]).
Proof.
rewrite /clqt_seqForwardPass -[dt_or _ _ _]/(Some (1 : R)) obindS -[or_else _ _]/(0 : R) 2!fwd_loop_cons !ex_cstep // mul1r.
by rewrite [fwd_loop _ _ _ _ _ _ _ _]/= !obindS; scal; rewrite !mulN1r !addr0.
Qed.
Lemma ex_par_forward (q : R) forward :
  clqt_parForwardPass (ex_problem 1 q) 1%:M [:: 1%:M; 1%:M] [:: 0; 0] 2 1 (Some 1) None forward false =
  Some ([:: (- 1)%:M; (- (3%:R / (4%:R * 2%:R)))%:M],
        [:: 1%:M; (3%:R / (4%:R * 2%:R))%:M; (3%:R / (4%:R * 2%:R) * (3%:R / (4%:R * 2%:R)))%:M]).
Proof. by rewrite par_forward_eq_l // ex_seq_forward. Qed.
Lemma ex_par_forward_tf (q : R) forward :
  tf_par_forwardpass (ex_problem 1 q) 2 1 1%:M [:: 1%:M; 1%:M] [:: 0; 0] 1 0 forward false 2 =
  Some ([:: 1%:M; (3%:R / (4%:R * 2%:R))%:M; (3%:R / (4%:R * 2%:R) * (3%:R / (4%:R * 2%:R)))%:M],
        [:: (- 1)%:M; (- (3%:R / (4%:R * 2%:R)))%:M]).
Proof. by rewrite par_forward_tf // -[Some (0 : R)]/(Some 0); have := ex_par_forward q forward; rewrite /clqt_parForwardPass -[or_else None _]/(or_else (Some 0) (0 : R)) => ->. Qed.

(** zero-order hold: the sequential pass ends at 0, the parallel one at 3/8 *)
Lemma ex_seq_zoh (q : R) : clqt_seqForwardPass (ex_problem 1 q) 1%:M [:: 1%:M] [:: 0] (Some 1) None true = Some ([:: (- 1)%:M], [:: 1%:M; 0]).
Proof.
rewrite /clqt_seqForwardPass -[dt_or _ _ _]/(Some (1 : R)) obindS -[or_else _ _]/(0 : R).
have E : rk4_xt (V := V1) (cl_ode (ex_problem 1 q) true 1%:M 0 (- 1%:M *m 1%:M + 0)) 1 1%:M (0 + 0%:R * 1) = Some (0 : 'cV_1).
  rewrite (@rk4_ext R V1 _ (fun _ _ => Some ((- 1)%:M))); last by move=> z s; rewrite /cl_ode /=; congr Some; rewrite mul0mx; scal; congr (_%:M); rsn R; ring.
  by rewrite rk4_total; congr Some; cbv zeta; scal; congr (_%:M); sfield.
rewrite -[fwd_loop _ _ _ _ _ _ _ _]/(let? x' := rk4_xt (V := V1) (cl_ode (ex_problem 1 q) true 1%:M 0 (- 1%:M *m 1%:M + 0)) 1 1%:M (0 + 0%:R * 1) in
  let? '(us, xs) := Some ([::], [::]) in Some ((- 1%:M *m 1%:M + 0) :: us, x' :: xs)).
by rewrite E !obindS; scal; rewrite mulr1 addr0.
Qed.
Lemma ex_par_zoh (q : R) forward : clqt_parForwardPass (ex_problem 1 q) 1%:M [:: 1%:M] [:: 0] 1 1 (Some 1) None forward true =
  Some ([:: (- 1)%:M], [:: 1%:M; (3%:R / (4%:R * 2%:R))%:M]).
Proof.
rewrite /clqt_parForwardPass -[dt_or _ _ _]/(Some (1 : R)) obindS -[or_else _ _]/(0 : R).
have [//|e [E A]] := @block_psiE R 1 1 1 1 (ex_problem 1 q) [:: 1%:M] [:: 0] 1 0 1 forward 0.
have A1 := A 1%:M; rewrite /= /cs ex_cstep // mul1r in A1.
rewrite -[clqt_parForwardPass_init _ _ _ _ _ _ _ _ _]/(let? es := let? y := block_psi (ex_problem 1 q) 1 0 [:: 1%:M] [:: 0] 1 forward 0 in Some [:: y] in Some ((1%:M, 1%:M) :: es)) E !obindS.
rewrite -[clqt_parForwardPass_extract _ _ _ _ _ _ _ _]/(let? '(bus, bxs) := clqt_seqForwardPass (ex_problem 1 q) 1%:M [:: 1%:M] [:: 0] (Some 1) (Some (0 + 0%:R * 1%:R * 1)) true in
   Some (bus ++ [::], take (size bus) bxs ++ [:: (combine_fc (1%:M, 1%:M) e).2])).
have := ex_seq_zoh q; rewrite /clqt_seqForwardPass -[or_else None _]/(0 : R) mul0r mul0r addr0 -[or_else (Some 0) _]/(0 : R) => ->.
rewrite obindS -[take _ _ ++ _]/[:: 1%:M; (combine_fc (1%:M, 1%:M) e).2] -[_ ++ [::]]/[:: (- 1)%:M].
by congr (Some (_, [:: _; _])); rewrite -A1.
Qed.
Lemma ex_zoh_refuted forward : exists (P : clqt R 1 1 1 1) x0 Ks ds us xs xs', [/\ size Ks = 1%N, size ds = 1%N,
  clqt_seqForwardPass P x0 Ks ds (Some 1) None true = Some (us, xs),
  clqt_parForwardPass P x0 Ks ds 1 1 (Some 1) None forward true = Some (us, xs') & xs <> xs'].
Proof.
exists (ex_problem 1 1), 1%:M, [:: 1%:M], [:: 0], [:: (- 1)%:M], [:: 1%:M; 0], [:: 1%:M; (3%:R / (4%:R * 2%:R))%:M].
split=> //; [exact: ex_seq_zoh | exact: ex_par_zoh |].
case=> /matrixP /(_ 0 0); rewrite !mxE /= mulr1n => /esym /eqP; rewrite mulf_eq0 invr_eq0 mulf_eq0 => /orP [|/orP []]; by rewrite pnatr_eq0.
Qed.

(** ** Backward passes *)
Lemma Sv_stepE (P : clqt R 1 1 1 1) g h t e :
  (forall x s, riccati_ode_f P x s = Some (pack_Sv (g (unpack_Sv x) s))) ->
  rk4_xt (V := matrix_lmodType R 1 (1 + 1)) (riccati_ode_f P) h (pack_Sv e) t = Some (pack_Sv (rkp g h e t)).
Proof.
move=> H; have := @psi_stepE R 1 1 (fun x s _ => riccati_ode_f P x s) g h t (0, 0) e H.
rewrite /psi_step form_xtp -[pack_Sv e]/(pack_Psiphi e); case: (rk4_xt _ _ _ _) => [y|]; last by [].
rewrite obindS; move: (rkp g h e t) => w E; have {}E : unpack_Psiphi y = w by case: E.
by rewrite -E -[pack_Sv _]/(pack_Psiphi (unpack_Psiphi y)) Psiphi_pack.
Qed.
Lemma ex_bwd_step (l q dt t0 : R) k Sv : let r := rkp (fun e s => riccati_rhs (ex_problem l q) s (l%:M *m l%:M) e) (- dt) Sv (t0 + k.+1%:R * dt) in
  bwd_step (ex_problem l q) dt t0 k Sv = Some (symz r.1, r.2).
Proof.
move=> r; rewrite /bwd_step (@Sv_stepE _ (fun e s => riccati_rhs (ex_problem l q) s (l%:M *m l%:M) e)).
  by rewrite obindS Sv_unpack -/r; case: (r).
by move=> x s; rewrite /riccati_ode_f ex_ULT obindS.
Qed.
Lemma symz1 (a : R) : symz (a%:M : 'M_1) = a%:M.
Proof. by rewrite /symz; scal; congr (_%:M); sfield. Qed.
Lemma rkp_fix g (h t : R) (e : 'M[R]_1 * 'cV[R]_1) : (forall s, g e s = (0, 0)) -> rkp g h e t = e.
Proof. by move=> Z; rewrite /rkp; do 4! rewrite ?Z ?scaler0 ?addr0 -?surjective_pairing /fst /snd; rewrite ?scaler0 ?addr0 -surjective_pairing. Qed.
(** l = q = 1: the value function 1/2 (x - 1)^2 is stationary *)
Lemma ex_stationary (dt t0 : R) k : bwd_step (ex_problem 1 1) dt t0 k (1%:M, 1%:M) = Some (1%:M, 1%:M).
Proof.
have Z t : riccati_rhs (ex_problem 1 1) t (1%:M *m 1%:M) (1%:M : 'M[R]_1, 1%:M) = (0, 0).
  by rewrite /riccati_rhs /=; congr pair; scal; congr (_%:M); rsn R; ring.
by rewrite ex_bwd_step rkp_fix //= symz1.
Qed.
Lemma ex_seq_backward : clqt_seqBackwardPass (ex_problem (1 : R) 1) 2 None None None None =
  Some ([:: 1%:M; 1%:M], [:: 1%:M; 1%:M], [:: 1%:M; 1%:M; 1%:M], [:: 1%:M; 1%:M; 1%:M]).
Proof.
have e1 : ST (ex_problem 1 1 : clqt R 1 1 1 1) = 1%:M by rewrite /ST /= trmx1 !mul1mx.
have e2 : vT (ex_problem 1 1 : clqt R 1 1 1 1) = 1%:M by rewrite /vT /= trmx1 !mul1mx.
rewrite /clqt_seqBackwardPass /or_else e1 e2 -[dt_or _ _ _]/(Some (1 / 2%:R)) obindS.
have B k K d Q v : bwd_loop (ex_problem (1 : R) 1) (1 / 2%:R) 0 k.+1 (1%:M, 1%:M) (K, d, Q, v) =
    bwd_loop (ex_problem 1 1) (1 / 2%:R) 0 k (1%:M, 1%:M) (1%:M :: K, 1%:M :: d, 1%:M :: Q, 1%:M :: v).
  rewrite -[LHS]/(let? Sv' := bwd_step (ex_problem 1 1) (1 / 2%:R) 0 k (1%:M, 1%:M) in
      let? '(K', d') := bwd_gain (ex_problem 1 1) (1 / 2%:R) 0 k Sv' in
      bwd_loop (ex_problem 1 1) (1 / 2%:R) 0 k Sv' (K' :: K, d' :: d, Sv'.1 :: Q, Sv'.2 :: v)).
  by rewrite ex_stationary obindS /bwd_gain ex_ULT !obindS /= mul1mx.
by rewrite 2!B.
Qed.

(** block elements whose equations have constant slope *)
Lemma elem_step_const ode (h t : R) (e d : elem R 1) :
  (forall a s, ode (a *: pack_abcej d + pack_abcej e) s = Some (pack_abcej d)) ->
  elem_step ode h t e = Some (Elem (eA (elem_lin h d e)) (eb (elem_lin h d e)) (symz (eC (elem_lin h d e))) (eeta (elem_lin h d e)) (symz (eJ (elem_lin h d e)))).
Proof.
move=> H; rewrite /elem_step.
have -> : rk4_xt (V := matrix_lmodType R 1 (3 * 1 + 2)) ode h (pack_abcej e) t = Some (pack_abcej (elem_lin h d e)).
  apply/rk4_classical; exists (pack_abcej d), (pack_abcej d), (pack_abcej d), (pack_abcej d).
  have H' a s : ode (pack_abcej e + a *: pack_abcej d) s = Some (pack_abcej d) by rewrite addrC H.
  split=> //; first by have := H' 0 t; rewrite scale0r addr0.
  rewrite abcej_pack_lin; set w := pack_abcej d; set z := pack_abcej e; lmod0 R (matrix_lmodType R 1 (3 * 1 + 2)); sfield.
by rewrite obindS abcej_unpack.
Qed.
Lemma elem_eq (e f : elem R 1) : eA e = eA f -> eb e = eb f -> eC e = eC f -> eeta e = eeta f -> eJ e = eJ f -> e = f.
Proof. by case: e f => [? ? ? ? ?] [? ? ? ? ?] /= -> -> -> -> ->. Qed.
Lemma some_pack (e f : elem R 1) : e = f -> Some (pack_abcej e) = Some (pack_abcej f).
Proof. by move=> ->. Qed.
(** without running cost: the block has transition 1 and C = l^2 dt *)
Lemma ex_block (l dt t0 : R) forward k : block_elem (ex_problem l 0) dt t0 1 forward k = Some (Elem 1%:M 0 (dt * (l * l))%:M 0 0).
Proof.
rewrite /block_elem; case: forward; rewrite -[for_ _ _ _]/(obind _ (elem_step _ _ _ _)).
  rewrite (@elem_step_const _ _ _ _ (Elem 0 0 (l * l)%:M 0 0)).
    rewrite obindS; congr Some; apply: elem_eq; rewrite /elem_lin [LHS]/= [RHS]/=; scal; rewrite ?symz1; congr (_%:M); rsn R; ring.
  move=> a s; rewrite -abcej_pack_lin /bwpass_fw_ode_f ex_ULT obindS abcej_unpack; apply: some_pack; apply: elem_eq; rewrite /fw_rhs /elem_lin [LHS]/= [RHS]/=; scal; congr (_%:M); rsn R; ring.
rewrite (@elem_step_const _ _ _ _ (Elem 0 0 (- (l * l))%:M 0 0)).
  rewrite obindS; congr Some; apply: elem_eq; rewrite /elem_lin [LHS]/= [RHS]/=; scal; rewrite ?symz1; congr (_%:M); rsn R; ring.
move=> a s; rewrite -abcej_pack_lin /bwpass_bw_ode_f ex_ULT obindS abcej_unpack; apply: some_pack; apply: elem_eq; rewrite /bw_rhs /elem_lin [LHS]/= [RHS]/=; scal; congr (_%:M); rsn R; ring.
Qed.

(** one block of one step without running cost: the exact value 1/2 against one Runge-Kutta step of dS/dt = S^2 *)
Definition ex_S0 : R := 1 - (1 + 1 / 2%:R + ((4%:R + 3%:R) * (4%:R + 3%:R)) / (4%:R * 4%:R * 2%:R) + ((4%:R * 4%:R - 1) * (4%:R * 4%:R - 1)) / (4%:R * 4%:R * 4%:R * 4%:R * 4%:R * 4%:R)) / 6%:R.
Lemma ex_gap : ex_S0 = 1 / 2%:R - (4%:R * 4%:R * 2%:R * (6%:R + 4%:R + 1) + 1) / (3%:R * (4%:R * 4%:R * 4%:R * 4%:R * 4%:R * 4%:R) * 2%:R).
Proof. by rewrite /ex_S0; sfield. Qed.
Lemma ex_S0_neq : (ex_S0%:M : 'M_1) <> (1 / 2%:R)%:M.
Proof.
move=> /matrixP /(_ 0 0); rewrite !mxE /= !mulr1n ex_gap => /eqP; rewrite -subr_eq0 addrC addKr oppr_eq0.
rewrite mulf_eq0 invr_eq0 => /orP []; last by rewrite !mulf_eq0 !pnatr_eq0.
by apply/negP; rewrite gt_eqF // ?addr_gt0 ?mulr_gt0 ?addr_gt0 ?mulr_gt0 ?addr_gt0 ?mulr_gt0 // ?ltr0n // ltr01.
Qed.
Lemma ex_bwd_step_S0 (t0 : R) : bwd_step (ex_problem 1 0) 1 t0 0 (1%:M, 1%:M) = Some (ex_S0%:M, ex_S0%:M).
Proof.
rewrite ex_bwd_step; congr Some; set r := rkp _ _ _ _.
suff -> : r = (ex_S0%:M, ex_S0%:M) by rewrite symz1.
rewrite /r /rkp /riccati_rhs /=; congr pair; rewrite /ex_S0; scal; congr (_%:M); sfield.
Qed.
Lemma ex_seq_half : clqt_seqBackwardPass (ex_problem 1 0) 1 (Some 1) None None None =
  Some ([:: ex_S0%:M], [:: ex_S0%:M], [:: ex_S0%:M; 1%:M], [:: ex_S0%:M; 1%:M]).
Proof.
have e1 : ST (ex_problem 1 0 : clqt R 1 1 1 1) = 1%:M by rewrite /ST /= trmx1 !mul1mx.
have e2 : vT (ex_problem 1 0 : clqt R 1 1 1 1) = 1%:M by rewrite /vT /= trmx1 !mul1mx.
rewrite /clqt_seqBackwardPass e1 e2 -[dt_or _ _ _]/(Some (1 : R)) obindS -[or_else _ (0 : R)]/(0 : R) -[or_else None _]/(1%:M : 'M[R]_1).
rewrite -[LHS]/(let? Sv' := bwd_step (ex_problem (1 : R) 0) 1 0 0 (1%:M, 1%:M) in
      let? '(K', d') := bwd_gain (ex_problem 1 0) 1 0 0 Sv' in
      Some ([:: K'], [:: d'], [:: Sv'.1; 1%:M], [:: Sv'.2; 1%:M])).
by rewrite ex_bwd_step_S0 obindS /bwd_gain ex_ULT !obindS /= !mul1mx.
Qed.
Lemma ex_par_half forward : clqt_parBackwardPass (ex_problem 1 0) 1 1 (Some 1) None forward =
  Some ([:: ex_S0%:M], [:: ex_S0%:M], [:: (1 / 2%:R)%:M; 1%:M], [:: (1 / 2%:R)%:M; 1%:M]).
Proof.
have e1 : ST (ex_problem 1 0 : clqt R 1 1 1 1) = 1%:M by rewrite /ST /= trmx1 !mul1mx.
have e2 : vT (ex_problem 1 0 : clqt R 1 1 1 1) = 1%:M by rewrite /vT /= trmx1 !mul1mx.
rewrite /clqt_parBackwardPass -[dt_or _ _ _]/(Some (1 : R)) obindS -[or_else _ (0 : R)]/(0 : R) /clqt_parBackwardPass_init e1 e2.
rewrite -[omap_seq _ _]/(let? y := block_elem (ex_problem 1 0) 1 0 1 forward 0 in Some [:: y]) ex_block !obindS.
set e := Elem _ _ _ _ _; set f := Elem _ _ _ _ _.
have ok : List.Forall (@elem_ok R 1) (rcons [:: e] f).
  have s1 : (1 * (1 * 1) : R)%:M = 1%:M :> 'M_1 by rewrite !mulr1.
  have oke : elem_ok e by rewrite /e s1; split; [exact: symm1 | exact/pd_psd/pd1 | exact: symm0 | exact: psd0].
  have okf : elem_ok f by split; [exact: symm0 | exact: psd0 | exact: symm1 | exact/pd_psd/pd1].
  exact: List.Forall_cons _ oke (List.Forall_cons _ okf (List.Forall_nil _)).
have u2 : ((1 + 1 : R)%:M : 'M_1) \in unitmx by rewrite unitmxE det_scalar expr1 unitfE -[1 + 1]/(2%:R) pnatr_eq0.
have i2 : invmx ((1 + 1 : R)%:M : 'M_1) = (1 / 2%:R)%:M.
  by rewrite -[LHS]mulmx1 -(mulKmx u2 (1 / 2%:R)%:M) sM; congr (_ *m _%:M); sfield.
have E : combine_abcej e f = Some (Elem 0 0 0 (1 / 2%:R)%:M (1 / 2%:R)%:M).
  rewrite /combine_abcej /e /f /=.
  have -> : 1%:M + (1 * (1 * 1) : R)%:M *m 1%:M = (1 + 1)%:M :> 'M_1 by scal; rewrite !mulr1.
  have -> : 1%:M + 1%:M *m (1 * (1 * 1) : R)%:M = (1 + 1)%:M :> 'M_1 by scal; rewrite !mulr1.
  rewrite !(solve_unit _ u2) !obindS i2; congr Some; apply: elem_eq; rewrite [LHS]/= [RHS]/=; scal; congr (_%:M); rsn R; ring.
rewrite /LqtModel.par_backward_pass_scan (scan_scanr (@elem_ok R 1) _ (@combine_closed R 1) (@combine_assoc R 1)) //.
rewrite -[scanr_o _ _]/(match combine_abcej e f with Some g => Some [:: g; f] | None => None end) E obindS.
rewrite /clqt_parBackwardPass_extract /par_extract_loop -[eJ f]/(1%:M) -[eeta f]/(1%:M).
have -> : clqt_seqBackwardPass (ex_problem 1 0) 1 (Some 1) (Some (0 + 0%:R * 1 * 1%:R)) (Some 1%:M) (Some 1%:M) = clqt_seqBackwardPass (ex_problem (1 : R) 0) 1 (Some 1) None None None.
  by rewrite /clqt_seqBackwardPass e1 e2 !mul0r addr0.
by rewrite ex_seq_half.
Qed.
Lemma ex_par_not_seq forward : exists (P : clqt R 1 1 1 1) r r', [/\ [/\ forall t, symm (kU P t) /\ pd (kU P t), forall t, symm (kX P t) /\ psd (kX P t), symm (kXT P) & psd (kXT P)],
  clqt_parBackwardPass P 1 1 (Some 1) None forward = Some r, clqt_seqBackwardPass P 1 (Some 1) None None None = Some r' & r <> r'].
Proof.
exists (ex_problem 1 0); do 2! eexists; split; [|exact: ex_par_half|exact: ex_seq_half|].
  split; [by move=> t; exact: ex_U | | by rewrite /symm trmx1 | exact/pd_psd/pd1].
  by move=> t; split; rewrite /= -s0; [rewrite /symm trmx0 | exact: psd0].
by case=> /esym /ex_S0_neq.
Qed.
End Ex.
