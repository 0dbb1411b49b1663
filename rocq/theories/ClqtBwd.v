(** Differential equations of the block parameters; symmetry, lengths; combination of value functions. *)
From Coq Require Import Ring Field.
From mathcomp Require Import all_ssreflect all_algebra zify.
From Verif Require Import ScanModel ScanSpec ScanProofs ScanUse BracketSpec ScanRel MxBase LqtModel LqtSpec LqtCore LqtElem LinComb Rk4Model Rk4Spec Rk4Proofs ClqtModel ClqtPack ClqtSpec ClqtExp ClqtFwd ClqtFwd2.
Import Order.TTheory GRing.Theory Num.Theory.
Set Implicit Arguments. Unset Strict Implicit. Unset Printing Implicit Defensive.
Local Open Scope ring_scope.

Section Bwd.
Variable R : realFieldType.
Variables n m p pT : nat.
Variable P : clqt R n m p pT.
Add Ring Rr : (mc_ring R).
Add Field Rf : (mc_field R).

(** ** first-order expansions *)
Definition short_block (t : R) (LULT : 'M[R]_n) (h : R) : elem R n :=
  Elem (1%:M + h *: kF P t) (h *: kc P t) (h *: LULT) (h *: ((kH P t)^T *m kX P t *m kr P t)) (h *: ((kH P t)^T *m kX P t *m kH P t)).

Lemma solve_pos_scale k l (A : 'M[R]_k) (B : 'M_(k, l)) (h : R) : h != 0 -> symm A -> pd A -> 0 < h ->
  solve_pos (h *: A) (h *: B) = solve_pos A B.
Proof.
move=> h0 sA pA hp.
have sA' : symm (h *: A) by rewrite /symm linearZ /= sA.
have pA' : pd (h *: A) by move=> x x0; rewrite qf_dot -scalemxAl dotZr -qf_dot mulr_gt0 // pA.
by rewrite !solve_posE // invmxZ ?unitmxZ ?pd_unit ?unitfE // -scalemxAl -scalemxAr scalerA mulVf // scale1r.
Qed.
Theorem short_block_euler t h ult : 0 < h -> symm (kU P t) -> pd (kU P t) -> ULT P t = Some ult ->
  stage_elem (euler_stage P t h) = Some (short_block t (kL P t *m ult) h).
Proof.
move=> hp sU pU E; rewrite /stage_elem /euler_stage /=.
have uU : h *: kU P t *m 1%:M \in unitmx by rewrite mulmx1 unitmxZ ?pd_unit // unitfE gt_eqF.
rewrite !(solve_unit _ uU) /= (solve_unit _ (unitmx1 _ _)) /= trmx1 mul1mx mulmx1 linearZ /=.
rewrite solve_pos_scale ?gt_eqF // -/(ULT P t) E /= mulmx1 in uU *.
rewrite (solve_unit _ uU) /= /short_block trmx0 !mul0mx !mulmx0 ?subr0 ?addr0.
by rewrite -!scalemxAr -!scalemxAl.
Qed.

Let near4 (A B C D E : R -> Prop) : near A -> near B -> near C -> near D -> near E -> near (fun h => [/\ A h, B h, C h, D h & E h]).
Proof.
move=> a b c d e; apply: near_imp (near_and a (near_and b (near_and c (near_and d e)))) _ => h [? [? [? [? ?]]]]; by split.
Qed.
Let exp2_elem (f : R -> option (elem R n)) (e d : elem R n) FA Fb FC Feta FJ :
  near (fun h => f h = Some (Elem (FA h) (Fb h) (FC h) (Feta h) (FJ h))) ->
  exp2 FA (eA e) (eA d) -> exp2 Fb (eb e) (eb d) -> exp2 FC (eC e) (eC d) -> exp2 Feta (eeta e) (eeta d) -> exp2 FJ (eJ e) (eJ d) ->
  exists delta B, [/\ 0 < delta, 0 <= B & forall h, `|h| <= delta -> exists e', f h = Some e' /\ elem_within (B * h ^+ 2) e' (elem_move h d e)].
Proof.
move=> nf /exp2_bound [B1 p1 n1] /exp2_bound [B2 p2 n2] /exp2_bound [B3 p3 n3] /exp2_bound [B4 p4 n4] /exp2_bound [B5 p5 n5].
have [delta d0 H] := near_and nf (near4 n1 n2 n3 n4 n5).
exists delta, (B1 + B2 + B3 + B4 + B5); split => //; first by rewrite !addr_ge0.
move=> h /H [-> [a1 a2 a3 a4 a5]]; eexists; split; first by [].
have w k l (M N : 'M[R]_(k, l)) B : within (B * h ^+ 2) M N -> B <= B1 + B2 + B3 + B4 + B5 ->
    within ((B1 + B2 + B3 + B4 + B5) * h ^+ 2) M N.
  by move=> H' le i j; apply: le_trans (H' i j) _; rewrite ler_wpmul2r // sqr_ge0.
split; [apply: (w _ _ _ _ B1) | apply: (w _ _ _ _ B2) | apply: (w _ _ _ _ B3) | apply: (w _ _ _ _ B4) | apply: (w _ _ _ _ B5)] => //.
- by rewrite -!addrA ler_addl !addr_ge0.
- have -> : B1 + B2 + B3 + B4 + B5 = B2 + (B1 + B3 + B4 + B5) by rsn R; ring.
  by rewrite ler_addl !addr_ge0.
- have -> : B1 + B2 + B3 + B4 + B5 = B3 + (B1 + B2 + B4 + B5) by rsn R; ring.
  by rewrite ler_addl !addr_ge0.
- have -> : B1 + B2 + B3 + B4 + B5 = B4 + (B1 + B2 + B3 + B5) by rsn R; ring.
  by rewrite ler_addl !addr_ge0.
- by rewrite ler_addr !addr_ge0.
Qed.

Let exp2_eq k l (F : R -> 'M[R]_(k, l)) F0 F1 G0 G1 : exp2 F F0 F1 -> F0 = G0 -> F1 = G1 -> exp2 F G0 G1.
Proof. by move=> H <- <-. Qed.
Ltac exps := repeat first [exact: exp2_const | exact: exp2_h | exact: exp2_inv | apply: exp2_add | apply: exp2_opp | apply: exp2_mul | apply: exp2_tr].
Ltac simp0 := rewrite ?(mulmx0, mul0mx, mulmx1, mul1mx, trmx0, trmx1, add0r, addr0, oppr0, subr0).

(** prepending a short block follows the backward equation *)
Theorem bw_first_order t ult e : ULT P t = Some ult ->
  exists delta B, [/\ 0 < delta, 0 <= B & forall h, `|h| <= delta ->
    exists e', combine_abcej (short_block t (kL P t *m ult) h) e = Some e' /\
      elem_within (B * h ^+ 2) e' (elem_move (- h) (bw_rhs P t (kL P t *m ult) e) e)].
Proof.
move=> _; set N := kL P t *m ult; case: e => A b C eta J.
pose neg (e : elem R n) := Elem (- eA e) (- eb e) (- eC e) (- eeta e) (- eJ e).
set e := Elem A b C eta J.
have mv h : elem_move (- h) (bw_rhs P t N e) e = elem_move h (neg (bw_rhs P t N e)) e.
  by rewrite /elem_move /= !scaleNr !scalerN.
pose W := fun h : R => invmx (1%:M + h *: (N *m J)).
pose V := fun h : R => invmx (1%:M + h *: (J *m N)).
case: (@exp2_elem (fun h => combine_abcej (short_block t N h) e) e (neg (bw_rhs P t N e))
  (fun h => A *m (W h *m (1%:M + h *: kF P t)))
  (fun h => A *m (W h *m (h *: kc P t + (h *: N) *m eta)) + b)
  (fun h => A *m (W h *m ((h *: N) *m A^T)) + C)
  (fun h => (1%:M + h *: kF P t)^T *m (V h *m (eta - J *m (h *: kc P t))) + h *: ((kH P t)^T *m kX P t *m kr P t))
  (fun h => (1%:M + h *: kF P t)^T *m (V h *m (J *m (1%:M + h *: kF P t))) + h *: ((kH P t)^T *m kX P t *m kH P t))).
- apply: near_imp (near_and (near_unit (N *m J)) (near_unit (J *m N))) _ => h [[u1 _] [u2 _]].
  rewrite /combine_abcej /= -scalemxAl -scalemxAr !(solve_unit _ u1) /= !(solve_unit _ u2) /=.
  by rewrite -?scalemxAl.
- apply: exp2_eq; first (rewrite /W; exps); rewrite /=; simp0 => //; mxabel.
- apply: exp2_eq; first (rewrite /W; exps); rewrite /=; simp0 => //; mxabel.
- apply: exp2_eq; first (rewrite /W; exps); rewrite /=; simp0 => //; mxabel.
- apply: exp2_eq; first (rewrite /V; exps); rewrite /=; simp0 => //; mxabel.
- apply: exp2_eq; first (rewrite /V; exps); rewrite /=; simp0 => //; mxabel.
- move=> delta [B [d0 B0 H]]; exists delta, B; split => // h /H [e' [E w]]; exists e'; split => //.
  by rewrite mv.
Qed.
(** appending one follows the forward equation *)
Theorem fw_first_order t ult e : ULT P t = Some ult ->
  exists delta B, [/\ 0 < delta, 0 <= B & forall h, `|h| <= delta ->
    exists e', combine_abcej e (short_block t (kL P t *m ult) h) = Some e' /\
      elem_within (B * h ^+ 2) e' (elem_move h (fw_rhs P t (kL P t *m ult) e) e)].
Proof.
move=> _; set N := kL P t *m ult; case: e => A b C eta J; set e := Elem A b C eta J.
pose Q := (kH P t)^T *m kX P t *m kH P t; pose q := (kH P t)^T *m kX P t *m kr P t.
pose W := fun h : R => invmx (1%:M + h *: (C *m Q)).
pose V := fun h : R => invmx (1%:M + h *: (Q *m C)).
apply: (@exp2_elem (fun h => combine_abcej e (short_block t N h)) e (fw_rhs P t N e)
  (fun h => (1%:M + h *: kF P t) *m (W h *m A))
  (fun h => (1%:M + h *: kF P t) *m (W h *m (b + C *m (h *: q))) + h *: kc P t)
  (fun h => (1%:M + h *: kF P t) *m (W h *m (C *m (1%:M + h *: kF P t)^T)) + h *: N)
  (fun h => A^T *m (V h *m (h *: q - (h *: Q) *m b)) + eta)
  (fun h => A^T *m (V h *m ((h *: Q) *m A)) + J)).
- apply: near_imp (near_and (near_unit (C *m Q)) (near_unit (Q *m C))) _ => h [[u1 _] [u2 _]].
  rewrite /combine_abcej /= -/q -/Q -[C *m (h *: Q)]scalemxAr -[(h *: Q) *m C]scalemxAl.
  by rewrite !(solve_unit _ u1) /= !(solve_unit _ u2).
- apply: exp2_eq; first (rewrite /W; exps); rewrite /=; simp0 => //; rewrite /Q; mxabel.
- apply: exp2_eq; first (rewrite /W; exps); rewrite /=; simp0 => //; rewrite /Q /q; mxabel.
- apply: exp2_eq; first (rewrite /W; exps); rewrite /=; simp0 => //; rewrite /Q; mxabel.
- apply: exp2_eq; first (rewrite /V; exps); rewrite /=; simp0 => //; rewrite /Q /q; mxabel.
- apply: exp2_eq; first (rewrite /V; exps); rewrite /=; simp0 => //; rewrite /Q; mxabel.
Qed.

(** ** J and eta follow the Riccati equation of the sequential pass; A, b and C those of the forward value function *)
Definition Jeta (e : elem R n) := (eJ e, eeta e).
Definition Abc (e : elem R n) := (eA e, eb e, eC e).
Lemma bw_riccati t N e : Jeta (bw_rhs P t N e) = riccati_rhs P t N (Jeta e).
Proof. by case: e => A b C eta J; rewrite /Jeta /=; congr pair; mxabel. Qed.
Lemma fw_abc t N e : Abc (fw_rhs P t N e) = abc_rhs P t N (Abc e).
Proof. by case: e. Qed.

Definition rstep (h t : R) (Sv : 'M[R]_n * 'cV[R]_n) : option ('M[R]_n * 'cV[R]_n) :=
  let? x := rk4_xt (V := matrix_lmodType R n (n + 1)) (riccati_ode_f P) h (pack_Sv Sv) t in
  let: (Q, v) := unpack_Sv x in Some (symz Q, v).
Lemma bwd_stepE dt t0 k Sv : bwd_step P dt t0 k Sv = rstep (- dt) (t0 + k.+1%:R * dt) Sv.
Proof. by []. Qed.

Lemma elem_step_Jeta h t e : omap Jeta (elem_step (bwpass_bw_ode_f P) h t e) = rstep h t (Jeta e).
Proof.
pose T (x : 'M[R]_(n, 3 * n + 2)) : 'M[R]_(n, n + 1) := pack_Sv (Jeta (unpack_abcej x)).
have lin : linear_map (V := matrix_lmodType R n (3 * n + 2)) (W := matrix_lmodType R n (n + 1)) T.
  by move=> a x y; rewrite /T abcej_unpack_lin -[pack_Sv _ in RHS]addr0 addr0 -Psiphi_pack_lin.
have cov z s : riccati_ode_f P (T z + 0) s = omap T (bwpass_bw_ode_f P z s).
  rewrite addr0 /riccati_ode_f /bwpass_bw_ode_f; case: (ULT P s) => [ult|]; last by [].
  rewrite -[LHS]/(Some (pack_Sv (riccati_rhs P s (kL P s *m ult) (unpack_Sv (T z))))).
  rewrite -[RHS]/(Some (T (pack_abcej (bw_rhs P s (kL P s *m ult) (unpack_abcej z))))).
  by rewrite /T Sv_unpack abcej_unpack bw_riccati.
have := @C41_affine_l R (matrix_lmodType R n (3 * n + 2)) (matrix_lmodType R n (n + 1)) T 0 (bwpass_bw_ode_f P) (riccati_ode_f P) h (pack_abcej e) t lin cov.
rewrite addr0 {1}/T abcej_unpack /elem_step /rstep => ->.
case: (rk4_xt _ _ _ _) => [y|] //; rewrite /omap !obindS addr0 /T Sv_unpack.
by [].
Qed.
Definition astep (h t : R) (e : 'M[R]_n * 'cV[R]_n * 'M[R]_n) := abc_step P h t e.
Lemma elem_step_Abc h t e : omap Abc (elem_step (bwpass_fw_ode_f P) h t e) = abc_step P h t (Abc e).
Proof.
pose T (x : 'M[R]_(n, 3 * n + 2)) : 'M[R]_(n, 2 * n + 1) := pack_abc (Abc (unpack_abcej x)).
have lin : linear_map (V := matrix_lmodType R n (3 * n + 2)) (W := matrix_lmodType R n (2 * n + 1)) T.
  by move=> a x y; rewrite /T abcej_unpack_lin -abc_pack_lin.
have cov z s : fwdbwdpass_ode_f P (T z + 0) s = omap T (bwpass_fw_ode_f P z s).
  rewrite addr0 /fwdbwdpass_ode_f /bwpass_fw_ode_f; case: (ULT P s) => [ult|]; last by [].
  rewrite -[LHS]/(Some (pack_abc (abc_rhs P s (kL P s *m ult) (unpack_abc (T z))))).
  rewrite -[RHS]/(Some (T (pack_abcej (fw_rhs P s (kL P s *m ult) (unpack_abcej z))))).
  by rewrite /T abc_unpack abcej_unpack fw_abc.
have := @C41_affine_l R (matrix_lmodType R n (3 * n + 2)) (matrix_lmodType R n (2 * n + 1)) T 0 (bwpass_fw_ode_f P) (fwdbwdpass_ode_f P) h (pack_abcej e) t lin cov.
rewrite addr0 {1}/T abcej_unpack /elem_step /abc_step => ->.
case: (rk4_xt _ _ _ _) => [y|] //; rewrite /omap !obindS addr0 /T abc_unpack.
by [].
Qed.

Lemma rstep_ULT h t Sv Sv' : rstep h t Sv = Some Sv' -> exists ult, ULT P (t + h) = Some ult.
Proof.
rewrite /rstep; case e: (rk4_xt _ _ _ _) => [x|] // _; move: e => /rk4_classical [k1 [k2 [k3 [k4 [_ _ _]]]]].
by rewrite /riccati_ode_f; case: (ULT P _) => [ult|] // _ _; exists ult.
Qed.

Definition heads (r : bwd_res R n m) : option ('M[R]_n * 'cV[R]_n) :=
  let: (_, _, Ss, vs) := r in if (Ss, vs) is (Q :: _, v :: _) then Some (Q, v) else None.
Lemma bwd_loop_Jeta dt t0 t1 (a l : nat) e Ks ds Ss vs : t1 = t0 + a%:R * dt ->
  omap Jeta (for_ (rev (iota 0 l)) (fun i e => elem_step (bwpass_bw_ode_f P) (- dt) (t0 + (a + i + 1)%:R * dt) e) e) =
  obind heads (bwd_loop P dt t1 l (Jeta e) (Ks, ds, eJ e :: Ss, eeta e :: vs)).
Proof.
move=> ht; elim: l e Ks ds Ss vs => [|l IH] e Ks ds Ss vs //.
have ri : rev (iota 0 l.+1) = l :: rev (iota 0 l) by rewrite -{1}[l.+1]addn1 iotaD rev_cat add0n.
rewrite ri for_cons -[bwd_loop _ _ _ _.+1 _ _]/(let? Sv' := bwd_step P dt t1 l (Jeta e) in
      let? '(K, d) := bwd_gain P dt t1 l Sv' in
      bwd_loop P dt t1 l Sv' (K :: Ks, d :: ds, Sv'.1 :: eJ e :: Ss, Sv'.2 :: eeta e :: vs)) bwd_stepE.
have tE : t1 + l.+1%:R * dt = t0 + (a + l + 1)%:R * dt by rewrite ht -addrA -mulrDl -natrD addn1 addnS.
rewrite tE; have := elem_step_Jeta (- dt) (t0 + (a + l + 1)%:R * dt) e.
case: (elem_step _ _ _ _) => [e'|] /= E; last by rewrite -E.
have [ult U] := rstep_ULT (esym E); rewrite -E /= /bwd_gain.
have -> : t1 + l%:R * dt = t0 + (a + l + 1)%:R * dt - dt.
  by rewrite ht natrD mulrDl mul1r -addrA -addrA addrK -mulrDl -natrD.
by rewrite U /= (IH e' (ult *m eJ e' :: Ks) (ult *m eeta e' :: ds) (eJ e :: Ss) (eeta e :: vs)).
Qed.
Theorem block_Jeta dt t0 steps k :
  omap Jeta (block_elem P dt t0 steps false k) =
  obind heads (clqt_seqBackwardPass P steps (Some dt) (Some (t0 + (k * steps)%:R * dt)) (Some 0) (Some 0)).
Proof. by rewrite /block_elem (@bwd_loop_Jeta dt t0 (t0 + (k * steps)%:R * dt) (k * steps) steps (Elem 1%:M 0 0 0 0) [::] [::] [::] [::]). Qed.

Definition olast {X} (l : seq X) : option X := if l is x :: l' then Some (last x l') else None.
Lemma abc_loop_ne dt t1 s i e : abc_loop P dt t1 s i e <> Some [::].
Proof. by case: s => //= s; case: (abc_step _ _ _ _) => //= e'; case: (abc_loop _ _ _ _ _ _). Qed.
Lemma abc_loop_Abc dt t0 t1 (a l i : nat) e : t1 = t0 + a%:R * dt ->
  omap Abc (for_ (iota i l) (fun i e => elem_step (bwpass_fw_ode_f P) dt (t0 + (a + i)%:R * dt) e) e) =
  obind olast (abc_loop P dt t1 l i (Abc e)).
Proof.
move=> ht; elim: l i e => [|l IH] i e //.
rewrite -[iota i l.+1]/(i :: iota i.+1 l) for_cons.
rewrite -[abc_loop _ _ _ _.+1 _ _]/(let? e' := abc_step P dt (t1 + i%:R * dt) (Abc e) in let? l := abc_loop P dt t1 l i.+1 e' in Some (Abc e :: l)).
have -> : t1 + i%:R * dt = t0 + (a + i)%:R * dt by rewrite ht natrD mulrDl addrA.
rewrite -elem_step_Abc; case: (elem_step _ _ _ _) => [e'|] //=.
rewrite IH; have := @abc_loop_ne dt t1 l i.+1 (Abc e').
by case: (abc_loop _ _ _ _ _ _) => [[|x r]|].
Qed.
Theorem block_Abc dt t0 steps k x0 :
  omap Abc (block_elem P dt t0 steps true k) =
  obind olast (clqt_seqFwdBwdPass P x0 steps (Some dt) (Some (t0 + (k * steps)%:R * dt)) (Some 1%:M) (Some 0) (Some 0)).
Proof. by rewrite /block_elem (@abc_loop_Abc dt t0 (t0 + (k * steps)%:R * dt) (k * steps) steps 0 (Elem 1%:M 0 0 0 0)). Qed.
End Bwd.
