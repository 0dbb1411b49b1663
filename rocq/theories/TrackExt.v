(** The tracker's passes for constant data are the regulator's passes for the extended state. *)
From Coq Require Import Ring Field.
From mathcomp Require Import all_ssreflect all_algebra zify.
From Verif Require Import ScanModel ScanSpec ScanProofs ScanUse MxBase LqtModel LqtCore LqtElem LqtMore LinComb Rk4Model Rk4Spec Rk4Proofs ClqtModel ClqtPack ClqtFwd ClqtFwd2 ClqtBwd ClqtVal ScanRel ClqrModel ClqrSpec ClqrProofs TrackSpec.
Import Order.TTheory GRing.Theory Num.Theory.
Set Implicit Arguments. Unset Strict Implicit. Unset Printing Implicit Defensive.
Local Open Scope ring_scope.
Local Arguments rk4_xt : simpl never.
Local Arguments rk4_xtp : simpl never.
Local Arguments rk4_x : simpl never.
Local Arguments rk4_xp : simpl never.

Lemma orel_bind {A B C D} (P : A -> B -> Prop) (Q : C -> D -> Prop) o o' (f : A -> option C) (g : B -> option D) :
  orel P o o' -> (forall a b, P a b -> orel Q (f a) (g b)) -> orel Q (obind f o) (obind g o').
Proof. by case: o; case: o' => //= b a Pab /(_ _ _ Pab). Qed.

(** two Runge-Kutta steps in step *)
Section Rel.
Variable R : realFieldType.
Variables V W : lmodType R.
Variables (P dP : V -> W -> Prop).
Hypothesis PD : forall v w dv dw, P v w -> dP dv dw -> P (v + dv) (w + dw).
Hypothesis dZ : forall a v w, dP v w -> dP (a *: v) (a *: w).
Hypothesis dD : forall v w v' w', dP v w -> dP v' w' -> dP (v + v') (w + w').
Variables (f : V -> R -> option V) (g : W -> option W).
Hypothesis fg : forall v w s, P v w -> orel dP (f v s) (g w).
Lemma rk4_rel h v w t : P v w -> orel P (rk4_xt f h v t) (rk4_x g h w).
Proof.
move=> Pv; rewrite /rk4_xt /rk4_x.
apply: orel_bind (fg _ Pv) _ => k1 l1 d1.
apply: orel_bind (fg _ (PD Pv (dZ _ (dZ h d1)))) _ => k2 l2 d2.
apply: orel_bind (fg _ (PD Pv (dZ _ (dZ h d2)))) _ => k3 l3 d3.
apply: orel_bind (fg _ (PD Pv (dZ h d3))) _ => k4 l4 d4 /=.
by apply: PD Pv _; apply: (dZ); do ?[apply: dD|apply: (dZ)|done].
Qed.
End Rel.

Lemma trD (R : realFieldType) k l (A B : 'M[R]_(k, l)) : (A + B)^T = A^T + B^T. Proof. exact: linearD. Qed.
Lemma trN (R : realFieldType) k l (A : 'M[R]_(k, l)) : (- A)^T = - A^T. Proof. exact: linearN. Qed.
Lemma get0 (R : realFieldType) k w lo l : get_cols lo l (0 : 'M[R]_(k, w)) = 0.
Proof. by apply/matrixP => i j; rewrite !mxE ent0. Qed.
Lemma symz_block (R : realFieldType) n k (A : 'M[R]_n) B (D : 'M[R]_k) : symz (block_mx A B B^T D) = block_mx (symz A) B B^T (symz D).
Proof.
rewrite /symz tr_block_mx trmxK add_block_mx scale_block_mx -!mulr2n -!scaler_nat !scalerA mulVf ?scale1r //.
by rewrite pnatr_eq0.
Qed.
Lemma symz1 (R : realFieldType) (D : 'M[R]_1) : symz D = D.
Proof.
rewrite /symz [D in D^T]mx11_scalar tr_scalar_mx -mx11_scalar -mulr2n -scaler_nat scalerA mulVf ?scale1r //.
by rewrite pnatr_eq0.
Qed.

Section Ext.
Variable R : realFieldType.
Variable expm : forall n, 'M[R]_n -> 'M[R]_n.
Variables n m p pT : nat.
Variable P : clqt R n m p pT.
Hypothesis cP : constant P.
Hypothesis wP : weights_ok P.
Local Notation q := (extended P).
Local Notation ult := (invmx (kU P 0) *m (kL P 0)^T).
Local Notation N := (kL P 0 *m ult).
Local Notation ult1 := (row_mx ult (0 : 'cV[R]_m)).
Local Notation N1 := (block_mx N (0 : 'cV[R]_n) (0 : 'rV[R]_n) (0 : 'M[R]_1)).

Lemma ULT_const t : ULT P t = Some ult.
Proof. by rewrite /ULT; case: (cP t) => -[_ ->] [_ ->] _ _ _; case: wP => _ _ sU pU; rewrite solve_posE. Qed.
Lemma qULT_ext : qULT q = Some ult1.
Proof. by rewrite /qULT /=; case: wP => _ _ sU pU; rewrite solve_posE // tr_col_mx trmx0 mul_mx_row mulmx0. Qed.
Lemma N_ext : qL q *m ult1 = N1.
Proof. by rewrite /= mul_col_row mulmx0 !mul0mx. Qed.
Lemma N_symm : N^T = N.
Proof. by case: wP => _ _ sU pU; rewrite !trmx_mul trmxK trmx_inv sU mulmxA. Qed.
Lemma X_ext : qX q = block_mx ((kH P 0)^T *m kX P 0 *m kH P 0) (- ((kH P 0)^T *m kX P 0 *m kr P 0))
  (- ((kH P 0)^T *m kX P 0 *m kr P 0)^T) ((kr P 0)^T *m kX P 0 *m kr P 0).
Proof.
rewrite /= tr_row_mx mul_col_mx mul_col_row; case: wP => sX _ _ _.
by rewrite !mulmxN !linearN /= !mulNmx opprK !trmx_mul trmxK sX mulmxA.
Qed.
Lemma XT_ext : qXT q = block_mx (ST P) (- vT P) (- (vT P)^T) ((krT P)^T *m kXT P *m krT P).
Proof.
rewrite /= tr_row_mx mul_col_mx mul_col_row; case: wP => _ sX _ _.
by rewrite !mulmxN !linearN /= !mulNmx opprK /vT !trmx_mul trmxK sX mulmxA.
Qed.

(** ** value functions *)
Definition vext (Sv : 'M[R]_n * 'cV[R]_n) (y : 'M[R]_(n + 1)) : Prop :=
  symm Sv.1 /\ exists s, y = block_mx Sv.1 (- Sv.2) (- Sv.2^T) s.
Lemma vextD Sv Sv' y y' : vext Sv y -> vext Sv' y' -> vext (Sv.1 + Sv'.1, Sv.2 + Sv'.2) (y + y').
Proof.
move=> [s1 [s ->]] [s2 [s' ->]]; split; first by rewrite /symm linearD /= s1 s2.
by exists (s + s'); rewrite add_block_mx [(_ + _)^T]linearD /= !opprD.
Qed.
Lemma vextZ a Sv y : vext Sv y -> vext (a *: Sv.1, a *: Sv.2) (a *: y).
Proof.
move=> [s1 [s ->]]; split; first by rewrite /symm linearZ /= s1.
by exists (a *: s); rewrite scale_block_mx [(_ *: _)^T]linearZ /= !scalerN.
Qed.
Lemma vext_riccati t Sv y : vext Sv y -> vext (riccati_rhs P t N Sv) (qriccati q N1 y).
Proof.
case: Sv => S v [/= sS [s ->]]; rewrite /riccati_rhs; move: N N_symm => M sM.
case: (cP t) => -[-> _] [-> _] -> -> ->; case: wP => sX _ _ _; split.
  rewrite /symm /= !(linearD, linearN) /= !trmx_mul !trmxK sX sS sM !linearN /= trmxK ?mulNmx ?mulmxN !mulmxA.
  by congr (_ + _ - _); rewrite addrC.
rewrite /qriccati X_ext [qF q]/= tr_block_mx !trmx0 !mulmx_block !opp_block_mx !mulmx_block ?opp_block_mx !add_block_mx /=.
rewrite !(mulmx0, mul0mx, addr0, add0r, oppr0, sub0r, subr0, mulmxN, mulNmx, opprK).
eexists; congr block_mx.
- by rewrite ?opprD ?opprK; abel.
rewrite !(trD, trN) !(trmx_mul _ v, trmx_mul S, trmx_mul (S *m M), trmx_mul _^T v) sS sM trmxK !opprD !opprK !mulmxA.
by abel.
Qed.

Lemma vext_symz Sv y : vext Sv y -> vext (symz Sv.1, Sv.2) (symz y).
Proof.
move=> [sS [s ->]]; split; last by exists s; rewrite -trN symz_block symz1.
by rewrite /symm /symz linearZ /= trD trmxK addrC.
Qed.
Lemma Sv_lin x x' a : unpack_Sv (a *: x + x' : 'M[R]_(n, n + 1)) = (a *: (unpack_Sv x).1 + (unpack_Sv x').1, a *: (unpack_Sv x).2 + (unpack_Sv x').2).
Proof. exact: Psiphi_unpack_lin. Qed.
Lemma bwd_step_ext dt t0 k Sv y : vext Sv y ->
  orel vext (bwd_step P dt t0 k Sv)
    (let? Q' := rk4_x (V := matrix_lmodType R (n + 1) (n + 1)) (fun Q => Some (qriccati q (qL q *m ult1) Q)) (- dt) y in Some (symz Q')).
Proof.
move=> h; rewrite /bwd_step N_ext.
apply: (@orel_bind _ _ _ _ (fun (x : 'M[R]_(n, n + 1)) y => vext (unpack_Sv x) y)); last first.
  by move=> x y' hx; case E: (unpack_Sv x) => [Q v]; rewrite E in hx; exact: (vext_symz hx).
apply: (@rk4_rel R (matrix_lmodType R n (n + 1)) (matrix_lmodType R (n + 1) (n + 1)) _ (fun (x : 'M[R]_(n, n + 1)) y => vext (unpack_Sv x) y)).
- by move=> v w dv dw h1 h2; have := Sv_lin v dv 1; rewrite !scale1r => ->; exact: vextD h1 h2.
- by move=> a v w h1; have := Sv_lin v 0 a; rewrite addr0 => ->; rewrite /= !get0 !addr0; exact: (vextZ a h1).
- by move=> v w dv dw h1 h2; have := Sv_lin v dv 1; rewrite !scale1r => ->; exact: vextD h1 h2.
- by move=> v w s h1; rewrite /riccati_ode_f ULT_const obindS /orel Sv_unpack; case: (cP s) => -[_ ->] _ _ _ _; exact: vext_riccati.
by rewrite Sv_unpack.
Qed.
Lemma bwd_loop_ext dt t0 k Sv y acc : vext Sv y ->
  bwd_loop P dt t0 k Sv (split_backward acc) = omap (@split_backward R n m) (qbwd_rk4 q ult1 dt k y acc).
Proof.
elim: k Sv y acc => [|k IH] Sv y acc h; first by [].
rewrite -[LHS]/(let? Sv' := bwd_step P dt t0 k Sv in let? '(K, d) := bwd_gain P dt t0 k Sv' in
   bwd_loop P dt t0 k Sv' (K :: map lsubmx acc.1, d :: map (fun K => - rsubmx K) acc.1, Sv'.1 :: map ulsubmx acc.2, Sv'.2 :: map (fun S => - ursubmx S) acc.2)).
rewrite -[qbwd_rk4 q ult1 dt k.+1 y acc]/(let? Q' := rk4_x (V := matrix_lmodType R (n + 1) (n + 1)) (fun Q => Some (qriccati q (qL q *m ult1) Q)) (- dt) y in
   qbwd_rk4 q ult1 dt k (symz Q') (ult1 *m symz Q' :: acc.1, symz Q' :: acc.2)).
have := bwd_step_ext dt t0 k h; case: (bwd_step _ _ _ _ _) => [Sv'|]; case: (rk4_x _ _ _) => [Q'|] //= h'.
rewrite /bwd_gain ULT_const /= -(IH _ _ _ h') {IH}; congr bwd_loop.
case: h' => _ [s ->]; rewrite /split_backward /= mul_row_block !mul0mx !addr0 row_mxKl row_mxKr block_mxKul block_mxKur.
by rewrite mulmxN !opprK.
Qed.
Lemma seq_backward_start steps dt t0 S v y : vext (S, v) y ->
  clqt_seqBackwardPass P steps dt t0 (Some S) (Some v) = omap (@split_backward R n m) (clqr_seqBackwardPass expm q steps dt (Some y) Rk4).
Proof.
move=> h; rewrite /clqt_seqBackwardPass /clqr_seqBackwardPass /qdt_or /dt_or [qT q]/= qULT_ext.
case: (match dt with Some _ => _ | None => _ end) => [d|//]; rewrite !obindS -(bwd_loop_ext _ (or_else t0 0) _ _ h) /split_backward /=.
by case: h => _ [s ->]; rewrite block_mxKul block_mxKur opprK.
Qed.
Lemma ST_symm : symm (ST P).
Proof. by case: wP => _ sX _ _; rewrite /symm /ST !trmx_mul trmxK sX mulmxA. Qed.
Lemma vext_T : vext (ST P, vT P) (qXT q).
Proof. by split; [exact: ST_symm|rewrite XT_ext; eexists]. Qed.
Theorem seq_backward_ext steps dt t0 :
  clqt_seqBackwardPass P steps dt t0 None None = omap (@split_backward R n m) (clqr_seqBackwardPass expm q steps dt None Rk4).
Proof. exact: (seq_backward_start steps dt t0 vext_T). Qed.

(** ** forward pass *)
Definition xext (x : 'cV[R]_n) (y : 'cV[R]_(n + 1)) := y = extend x.
Lemma fwd_step_ext dt zoh K d u x t : 
  orel xext (rk4_xt (V := matrix_lmodType R n 1) (cl_ode P zoh K d u) dt x t) (qfwd_rk4 q dt zoh (row_mx K (- d)) u (extend x)).
Proof.
rewrite /qfwd_rk4.
apply: (@rk4_rel R (matrix_lmodType R n 1) (matrix_lmodType R (n + 1) 1) xext (fun x y => y = col_mx x 0)) => //.
- by move=> v w dv dw -> ->; rewrite /xext /extend add_col_mx addr0.
- by move=> a v w ->; rewrite scale_col_mx scaler0.
- by move=> v w dv dw -> ->; rewrite add_col_mx addr0.
move=> v w s ->; rewrite /cl_ode; case: (cP s) => -[-> ->] _ -> _ _; case: zoh => /=.
  by rewrite /extend mul_block_col mul_col_mx add_col_mx !mul0mx mulmx1 !addr0 addrAC.
rewrite mul_col_row !mul0mx opp_block_mx add_block_mx /extend mul_block_col !oppr0 !addr0 !mul0mx !mulmx1 addr0; congr col_mx.
by rewrite mulmxN opprK mulmxBl mulmxDr mulNmx mulmxN -mulmxA; abel.
Qed.
Lemma fwd_loop_ext dt t0 zoh (Ks : seq 'M[R]_(m, n + 1)) k x :
  fwd_loop P dt t0 zoh (map lsubmx Ks) (map (fun K => - rsubmx K) Ks) k x = omap (@split_states R n m) (qfwd_loop (qfwd_rk4 q dt zoh) Ks (extend x)).
Proof.
elim: Ks k x => //= K Ks IH k x.
have -> : - K *m extend x = - lsubmx K *m x - rsubmx K.
  by rewrite -{1}(hsubmxK K) /extend opp_row_mx mul_row_col mulmx1.
have := fwd_step_ext dt zoh (lsubmx K) (- rsubmx K) (- lsubmx K *m x - rsubmx K) x (t0 + k%:R * dt); rewrite opprK hsubmxK.
case: (rk4_xt _ _ _ _) => [x'|]; case: (qfwd_rk4 _ _ _ _ _ _) => [y'|] //= ->.
rewrite IH; case: (qfwd_loop _ _ _) => [[us xs]|] //=.
by rewrite /split_states /= /extend col_mxKu.
Qed.
Theorem seq_forward_ext x0 (Ks : seq 'M[R]_(m, n + 1)) dt t0 zoh :
  clqt_seqForwardPass P x0 (map lsubmx Ks) (map (fun K => - rsubmx K) Ks) dt t0 zoh =
  omap (@split_states R n m) (clqr_seqForwardPass expm q (extend x0) Ks dt Rk4 zoh).
Proof.
rewrite /clqt_seqForwardPass /clqr_seqForwardPass /qdt_or /dt_or [qT q]/= size_map.
case: (match dt with Some _ => _ | None => _ end) => [d|//]; rewrite !obindS fwd_loop_ext; case: (qfwd_loop _ _ _) => [[us xs]|] //=.
by rewrite /split_states /= /extend col_mxKu.
Qed.
End Ext.
