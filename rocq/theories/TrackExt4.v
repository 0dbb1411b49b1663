(** The parallel passes of the extended state. *)
From Coq Require Import Ring Field List.
From mathcomp Require Import all_ssreflect all_algebra zify.
From Verif Require Import ScanModel ScanSpec ScanProofs ScanUse MxBase LqtModel LqtCore LqtElem LqtMore LinComb Rk4Model Rk4Spec Rk4Proofs ClqtModel ClqtPack ClqtFwd ClqtFwd2 ClqtBwd ClqtVal ScanRel ClqrModel ClqrSpec ClqrProofs ClqrPar TrackSpec TrackExt TrackExt2 TrackExt3.
Import Order.TTheory GRing.Theory Num.Theory.
Set Implicit Arguments. Unset Strict Implicit. Unset Printing Implicit Defensive.
Local Open Scope ring_scope.
Local Arguments rk4_xt : simpl never.
Local Arguments rk4_xtp : simpl never.
Local Arguments rk4_x : simpl never.
Local Arguments rk4_xp : simpl never.

Lemma f2_rev {A B} (Rel : A -> B -> Prop) l l' : Forall2 Rel l l' -> Forall2 Rel (List.rev l) (List.rev l').
Proof. by elim=> [|x y l1 l2 h _ IH] /=; [constructor|apply: Forall2_app IH _; constructor; [exact: h|constructor]]. Qed.
Lemma f2_flip {A B} (Rel : A -> B -> Prop) l l' : Forall2 Rel l l' -> Forall2 (fun y x => Rel x y) l' l.
Proof. by elim=> *; constructor. Qed.
Section ScanRel2.
Context {A B : Type} (Rel : A -> B -> Prop).
Lemma scan_fwd_rel (op : A -> A -> option A) (op2 : B -> B -> option B) : (forall x x' y y', Rel x x' -> Rel y y' -> orel Rel (op x y) (op2 x' y')) ->
  forall a a', Forall2 Rel a a' -> orel (Forall2 Rel) (scan_fwd op a) (scan_fwd op2 a').
Proof.
move=> H a a' h; case E: (scan_fwd op a) => [r|].
  have [|r' [-> h']] := @scan_fwd_sim _ _ Rel op op2 _ a a' r h E => // x y z x' y' hx hy Ez.
  by have := H _ _ _ _ hx hy; rewrite Ez; case: (op2 _ _) => // z' hz; exists z'.
case E': (scan_fwd op2 a') => [r'|] //.
have [|r [E1 _]] := @scan_fwd_sim _ _ (fun y x => Rel x y) op2 op _ a' a r' (f2_flip h) E'; last by rewrite E1 in E.
move=> x y z x' y' hx hy Ez.
by have := H _ _ _ _ hx hy; rewrite Ez; case: (op _ _) => // z' hz; exists z'.
Qed.
Lemma scan_rel (op : A -> A -> option A) (op2 : B -> B -> option B) : (forall x x' y y', Rel x x' -> Rel y y' -> orel Rel (op x y) (op2 x' y')) ->
  forall a a' b, Forall2 Rel a a' -> orel (Forall2 Rel) (my_assoc_scan op a b) (my_assoc_scan op2 a' b).
Proof.
move=> H a a' [] h; last exact: scan_fwd_rel.
rewrite /my_assoc_scan; have := @scan_fwd_rel (fun x y => op y x) (fun x y => op2 y x) _ _ _ (f2_rev h).
case: (scan_fwd _ _) => [r|]; case: (scan_fwd _ _) => [r'|] // h'; first by apply: f2_rev; apply: h' => *; exact: H.
- by apply: h' => *; exact: H.
by apply: h' => *; exact: H.
Qed.
End ScanRel2.

Section Ext.
Variable R : realFieldType.
Variable expm : forall n, 'M[R]_n -> 'M[R]_n.
Variables n m p pT : nat.
Variable P : clqt R n m p pT.
Hypothesis cP : constant P.
Hypothesis wP : weights_ok P.
Local Notation q := (extended P).
Local Notation ult := (invmx (kU P 0) *m (kL P 0)^T).
Local Notation N := (kL P 0 *m ult).
Local Notation ult1 := (row_mx ult (0 : 'cV[R]_m)).
Local Notation N1 := (block_mx N (0 : 'cV[R]_n) (0 : 'rV[R]_n) (0 : 'M[R]_1)).
Local Notation xelem := (elem R (n + 1)).
Local Notation elem := (elem R n).

Definition einner (z : 'M[R]_1) (e : elem) (e' : xelem) : Prop :=
  [/\ symm (eJ e), eC e' = blk0 (eC e), eeta e' = 0 /\ eb e' = 0, exists s, eJ e' = blkJ (eJ e) (eeta e) s &
    eA e' = block_mx (eA e) (eb e) 0 z].
Lemma einner_lin a z z' e e' f f' : einner z e e' -> einner z' f f' -> einner (a *: z + z') (elem_lin a e f) (elem_lin a e' f').
Proof.
move=> [sJ hC [he hb] [s hJ] hA] [sJ' hC' [he' hb'] [s' hJ'] hA']; split=> /=.
- by rewrite /symm trD linearZ /= sJ sJ'.
- by rewrite hC hC' /blk0 scale_block_mx add_block_mx !scaler0 !addr0.
- by rewrite he he' hb hb' !scaler0 !addr0.
- by rewrite hJ hJ' /blkJ scale_block_mx add_block_mx !scalerN -!opprD trD linearZ; eexists.
by rewrite hA hA' scale_block_mx add_block_mx scaler0 addr0.
Qed.
Lemma XsymmE : ((kH P 0)^T *m kX P 0 *m kH P 0)^T = (kH P 0)^T *m kX P 0 *m kH P 0.
Proof. by case: wP => sX _ _ _; rewrite !trmx_mul trmxK sX mulmxA. Qed.
Lemma einner_of z e e' : symm (eJ e) -> eC e' = blk0 (eC e) -> eeta e' = 0 -> eb e' = 0 ->
  (exists s, eJ e' = blkJ (eJ e) (eeta e) s) -> eA e' = block_mx (eA e) (eb e) 0 z -> einner z e e'.
Proof. by []. Qed.
Lemma bw_rhs_ext t e e' : einner 1%:M e e' -> einner 0 (bw_rhs P t N e) (qbw_rhs q N1 e').
Proof.
case: e => A b C eta J; case: e' => A' b' C' eta' J' [sJ hC [he hb] hJ hA].
have {hJ} hJ : vext (J, eta) J' := conj sJ hJ.
have hr := vext_riccati cP wP t hJ.
have {}hb : b' = 0 := hb; have {}he : eta' = 0 := he; have {}hA : A' = block_mx A b 0 1%:M := hA.
have EJ : eJ (bw_rhs P t N (Elem A b C eta J)) = (riccati_rhs P t N (J, eta)).1.
  by rewrite /bw_rhs /riccati_rhs /fst /eJ !mulNmx; abel.
have Ee : eeta (bw_rhs P t N (Elem A b C eta J)) = (riccati_rhs P t N (J, eta)).2.
  by rewrite /bw_rhs /riccati_rhs /snd /eeta !mulNmx; abel.
have EJ' : eJ (qbw_rhs q N1 (Elem A' b' C' eta' J')) = qriccati q N1 J'.
  by rewrite /qbw_rhs /qriccati /eJ !mulNmx; abel.
have [sr [s' hs]] := hr; have [_ [s hs0]] := hJ.
have {}hs0 : J' = block_mx J (- eta) (- eta^T) s := hs0.
apply: einner_of.
- by rewrite EJ.
- rewrite /bw_rhs /qbw_rhs /eC hA /blk0 tr_block_mx trmx0 !opp_block_mx !mulmx_block.
  by rewrite !(mulmx0, mul0mx, addr0, add0r, oppr0).
- by rewrite /qbw_rhs /eeta he !mulmx0 subr0.
- by rewrite /qbw_rhs /eb he !mulmx0.
- by exists s'; rewrite EJ Ee EJ' hs.
rewrite /bw_rhs /qbw_rhs /eA /eb hA hs0 [qF q]/= !mulmx_block opp_block_mx add_block_mx.
case: (cP t) => -[-> _] _ -> _ _.
by rewrite !(mulmx0, mul0mx, addr0, add0r, oppr0, sub0r, subr0, mulmxN, mulNmx).
Qed.
Lemma fw_rhs_ext t e e' : einner 1%:M e e' -> einner 0 (fw_rhs P t N e) (qfw_rhs q N1 e').
Proof.
case: e => A b C eta J; case: e' => A' b' C' eta' J' [sJ hC [he hb] hJ hA].
have {}hb : b' = 0 := hb; have {}he : eta' = 0 := he; have {}hA : A' = block_mx A b 0 1%:M := hA.
have {}hC : C' = blk0 C := hC.
move: N => M.
have -> : fw_rhs P t M (Elem A b C eta J) = fw_rhs P 0 M (Elem A b C eta J).
  by rewrite /fw_rhs; case: (cP t) => -[-> _] [-> _] -> -> ->.
have sXE := XsymmE.
apply: einner_of.
- by rewrite /symm /fw_rhs /eJ -[A^T *m _ *m _]mulmxA -[A^T *m _ *m _]mulmxA trmx_mul trmx_mul sXE trmxK mulmxA.
- rewrite /fw_rhs /qfw_rhs /eC hC X_ext // [qF q]/= /blk0 !tr_block_mx trmx0 !mulmx_block !opp_block_mx !add_block_mx.
  by rewrite !(mulmx0, mul0mx, addr0, add0r, oppr0, trmx0, sub0r, subr0, mulmxN, mulNmx) !mulmxA.
- by rewrite /qfw_rhs /eeta hb !mulmx0.
- by rewrite /qfw_rhs /eb hb !mulmx0 subr0.
- rewrite /fw_rhs /qfw_rhs /eJ /eeta hA X_ext // !tr_block_mx trmx0 trmx1 !mulmx_block.
  rewrite !(mulmx0, mul0mx, addr0, add0r, oppr0, sub0r, subr0, mulmxN, mulNmx, mulmx1, mul1mx).
  rewrite /blkJ; eexists; congr block_mx.
  + by rewrite !mulmxA.
  + by rewrite !mulmxA opprB addrC.
  have -> : A^T *m (kH P 0)^T *m kX P 0 *m kr P 0 = A^T *m ((kH P 0)^T *m kX P 0 *m kr P 0) by rewrite !mulmxA.
  have -> : A^T *m (kH P 0)^T *m kX P 0 *m kH P 0 *m b = A^T *m ((kH P 0)^T *m kX P 0 *m kH P 0 *m b) by rewrite !mulmxA.
  rewrite trD trN [(A^T *m _)^T]trmx_mul [(A^T *m (_ *m b))^T]trmx_mul [(_ *m b)^T]trmx_mul sXE trmxK mulmxBl opprB.
  by [].
rewrite /fw_rhs /qfw_rhs /eA /eb hA hC X_ext // [qF q]/= /blk0 !mulmx_block !opp_block_mx !add_block_mx.
rewrite !(mulmx0, mul0mx, addr0, add0r, oppr0, sub0r, subr0, mulmxN, mulNmx, mulmx1).
by rewrite opprD opprK !mulmxA; congr block_mx; abel.
Qed.
Lemma unpackD k (v w : 'M[R]_(k, 3 * k + 2)) : unpack_abcej (v + w) = elem_lin 1 (unpack_abcej v) (unpack_abcej w).
Proof. by rewrite -abcej_unpack_lin scale1r. Qed.
Lemma unpack0 k : unpack_abcej (0 : 'M[R]_(k, 3 * k + 2)) = Elem 0 0 0 0 0.
Proof. by rewrite /unpack_abcej !get0. Qed.
Lemma unpackZ k a (v : 'M[R]_(k, 3 * k + 2)) : unpack_abcej (a *: v) = elem_lin a (unpack_abcej v) (Elem 0 0 0 0 0).
Proof. by rewrite -(unpack0 k) -abcej_unpack_lin addr0. Qed.
Lemma einner0 : einner 0 (Elem 0 0 0 0 0) (Elem 0 0 0 0 0).
Proof.
apply: einner_of => //=; rewrite /symm ?trmx0 ?block_mx_const //; first by rewrite /blk0 block_mx_const.
by exists 0; rewrite /blkJ trmx0 !oppr0 block_mx_const.
Qed.
Lemma einner1 : einner 1%:M (Elem 1%:M 0 0 0 0) (Elem 1%:M 0 0 0 0).
Proof.
apply: einner_of => //=; rewrite /symm ?trmx0 ?one_block //; first by rewrite /blk0 block_mx_const.
by exists 0; rewrite /blkJ trmx0 !oppr0 block_mx_const.
Qed.
Lemma symz_symm k (A : 'M[R]_k) : symm (symz A).
Proof. by rewrite /symm /symz linearZ /= trD trmxK addrC. Qed.
Lemma symz_blk0 (C : 'M[R]_n) : symz (blk0 C) = blk0 (symz C).
Proof. by have := symz_block C (0 : 'cV_n) (0 : 'M_1); rewrite trmx0 symz1. Qed.
Lemma elem_step_ext ode ode' h t e e' :
  (forall v w s, einner 1%:M (unpack_abcej v) (unpack_abcej w) ->
    orel (fun v w => einner 0 (unpack_abcej v) (unpack_abcej w)) (ode v s) (ode' w)) ->
  einner 1%:M e e' -> orel (einner 1%:M) (elem_step ode h t e) (qelem_step ode' h e').
Proof.
move=> ho he; rewrite /elem_step /qelem_step.
apply: (@orel_bind _ _ _ _ (fun (x : 'M[R]_(n, 3 * n + 2)) (y : 'M[R]_(n + 1, 3 * (n + 1) + 2)) => einner 1%:M (unpack_abcej x) (unpack_abcej y))).
  apply: (@rk4_rel R (matrix_lmodType R n (3 * n + 2)) (matrix_lmodType R (n + 1) (3 * (n + 1) + 2)) _
    (fun (x : 'M[R]_(n, 3 * n + 2)) (y : 'M[R]_(n + 1, 3 * (n + 1) + 2)) => einner 0 (unpack_abcej x) (unpack_abcej y))) => //.
  - by move=> v w dv dw h1 h2; rewrite !unpackD; have := einner_lin 1 h1 h2; rewrite scale1r addr0.
  - by move=> a v w h1; rewrite !unpackZ; have := einner_lin a h1 einner0; rewrite scaler0 addr0.
  - by move=> v w dv dw h1 h2; rewrite !unpackD; have := einner_lin 1 h1 h2; rewrite scale1r addr0.
  by rewrite !abcej_unpack.
move=> x y; case: (unpack_abcej x) => A b C eta J; case: (unpack_abcej y) => A' b' C' eta' J' [sJ hC [h1 h2] [s hJ] hA].
have {}hC : C' = blk0 C := hC; have {}hJ : J' = blkJ J eta s := hJ.
apply: einner_of => //.
- exact: symz_symm.
- rewrite -[LHS]/(symz C') -[eC _]/(symz C) hC symz_blk0; exact: erefl.
by exists s; rewrite -[LHS]/(symz J') hJ /blkJ -trN symz_block symz1 trN.
Qed.
Lemma block_ext dt t0 steps fl forward k : orel (eext fl) (block_elem P dt t0 steps forward k) (qblock_elem q dt steps forward).
Proof.
have H : orel (einner 1%:M) (block_elem P dt t0 steps forward k) (qblock_elem q dt steps forward).
  have hf v w s : einner 1%:M (unpack_abcej v) (unpack_abcej w) ->
      orel (fun v w => einner 0 (unpack_abcej v) (unpack_abcej w)) (bwpass_fw_ode_f P v s) (qbwpass_fw_ode_f q w).
    move=> h; rewrite /bwpass_fw_ode_f /qbwpass_fw_ode_f ULT_const // qULT_ext // !obindS /orel !abcej_unpack N_ext.
    by case: (cP s) => -[_ ->] _ _ _ _; exact: fw_rhs_ext.
  have hb v w s : einner 1%:M (unpack_abcej v) (unpack_abcej w) ->
      orel (fun v w => einner 0 (unpack_abcej v) (unpack_abcej w)) (bwpass_bw_ode_f P v s) (qbwpass_bw_ode_f q w).
    move=> h; rewrite /bwpass_bw_ode_f /qbwpass_bw_ode_f ULT_const // qULT_ext // !obindS /orel !abcej_unpack N_ext.
    by case: (cP s) => -[_ ->] _ _ _ _; exact: bw_rhs_ext.
  have L l ode ode' h (g : nat -> R) : 
      (forall v w s, einner 1%:M (unpack_abcej v) (unpack_abcej w) ->
        orel (fun v w => einner 0 (unpack_abcej v) (unpack_abcej w)) (ode v s) (ode' w)) ->
      forall e e', einner 1%:M e e' ->
      orel (einner 1%:M) (for_ l (fun i e => elem_step (n := n) ode h (g i) e) e) (for_ l (fun _ e => qelem_step (n := n + 1) ode' h e) e').
    move=> ho; elim: l => // i l IH e e' he; rewrite !for_cons.
    by have := elem_step_ext h (g i) ho he; case: (elem_step _ _ _ _) => [a|]; case: (qelem_step _ _ _) => [b|] //; exact: IH.
  by rewrite /block_elem /qblock_elem; case: forward; apply: (L) einner1.
case E: (block_elem P dt t0 steps forward k) H => [e|]; case: (qblock_elem _ _ _ _) => [e'|] // [sJ hC [h1 h2] hJ hA].
by split=> //; [exact: block_symm E|left].
Qed.
End Ext.
