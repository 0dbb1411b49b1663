(** The scan of the parallel forward-backward pass is stable in all five parts of the elements, and the block element of the
    forward equations converges with order four. *)
From Coq Require Import Reals Lra.
From mathcomp Require Import all_ssreflect all_algebra zify.
From Verif Require Import RealF MxBase LqtModel LqtCore ScanModel ScanSeg ClqtFwd2 ClqtModel ClqtSpec ClqtPack Rk4Model Rk4Spec Rk4Proofs ClqrModel ClqrSpec ClqrExact ClqrPar ClqrElem RealExpSpec RealExp RealAssm ClqrOptSpec ClqrOpt RkConvA RkConvSpec RkQuadAlg RkConvB RkConvC RkConv RkConvP ParAlg ParConvA ParConvB ParConvC FbAlg FbConvA.
Import Order.TTheory GRing.Theory Num.Theory.
Set Implicit Arguments. Unset Strict Implicit. Unset Printing Implicit Defensive.
Local Open Scope ring_scope.
Delimit Scope R_scope with Re.
Local Arguments rk4_x : simpl never.

Section Comb.
Variable n : nat.
Implicit Types e f g : elem Rf n.
Definition fd e f : Rf := ed e f + (nrm (eb e - eb f) + nrm (eeta e - eeta f)).
Lemma fd_ed e f eps : fd e f <= eps -> ed e f <= eps.
Proof. by apply: le_trans; rewrite ler_addl addr_ge0 ?nrm_ge0. Qed.
Lemma fdb e f eps : fd e f <= eps -> nrm (eb e - eb f) <= eps.
Proof. by apply: le_trans; rewrite /fd addrCA ler_addl addr_ge0 ?nrm_ge0 ?ed_ge0. Qed.
Lemma fdt e f eps : fd e f <= eps -> nrm (eeta e - eeta f) <= eps.
Proof. by apply: le_trans; rewrite /fd addrA ler_addr addr_ge0 ?nrm_ge0 ?ed_ge0. Qed.
Definition cb e f := eA f *m (invmx (cL e f) *m (eb e + eC e *m eeta f)) + eb f.
Definition ct e f := (eA e)^T *m (invmx (cR e f) *m (eeta f - eJ f *m eb e)) + eeta e.
Lemma combine_inv' e f g : combine_abcej e f = Some g -> eb g = cb e f /\ eeta g = ct e f.
Proof.
rewrite {1}/combine_abcej -/(cL e f) -/(cR e f).
case E1: (solve (cL e f) (eA e)) => [x1|] //; have [u _] := (solveP _ _ _).1 E1; rewrite !(solve_unit _ u) !obindS.
case E2: (solve (cR e f) (eeta f - eJ f *m eb e)) => [y1|] //; have [v _] := (solveP _ _ _).1 E2; rewrite !(solve_unit _ v) !obindS => -[<-].
by split=> //; rewrite /cb /ct /=; move: E2; rewrite (solve_unit _ v) => -[<-].
Qed.
Variables e0 f0 g0 : elem Rf n.
Hypothesis C0 : combine_abcej e0 f0 = Some g0.
Definition nearf (eps : Rf) (x : elem Rf n * elem Rf n) : Prop := fd x.1 e0 <= eps /\ fd x.2 f0 <= eps.
Lemma combine_lipf : exists2 L, 0 <= L & forall eps e f, 0 <= eps -> eps * L <= 1 -> fd e e0 <= eps -> fd f f0 <= eps ->
  exists2 g, combine_abcej e f = Some g & fd g g0 <= L * eps.
Proof.
have [u v _] := combine_inv C0; have [Eb Et] := combine_inv' C0; have [L1 L10 H1] := combine_lip C0.
pose lp k l := @lip (elem Rf n * elem Rf n) nearf k l.
have one k l (F : elem Rf n * elem Rf n -> 'M[Rf]_(k, l)) y : (forall eps x, nearf eps x -> nrm (F x - y) <= eps) -> lp k l F y.
  by move=> H; exists 1; rewrite ?ler01 // => eps x e0' _ hn; rewrite mul1r; exact: H.
have A1 : lp _ _ (fun x => eA x.1) (eA e0) by apply: one => eps x [h _]; apply: edA; exact: fd_ed.
have A2 : lp _ _ (fun x => eA x.2) (eA f0) by apply: one => eps x [_ h]; apply: edA; exact: fd_ed.
have C1 : lp _ _ (fun x => eC x.1) (eC e0) by apply: one => eps x [h _]; apply: edC; exact: fd_ed.
have J2 : lp _ _ (fun x => eJ x.2) (eJ f0) by apply: one => eps x [_ h]; apply: edJ; exact: fd_ed.
have b1 : lp _ _ (fun x => eb x.1) (eb e0) by apply: one => eps x [h _]; exact: fdb.
have b2 : lp _ _ (fun x => eb x.2) (eb f0) by apply: one => eps x [_ h]; exact: fdb.
have t1 : lp _ _ (fun x => eeta x.1) (eeta e0) by apply: one => eps x [h _]; exact: fdt.
have t2 : lp _ _ (fun x => eeta x.2) (eeta f0) by apply: one => eps x [_ h]; exact: fdt.
have opp k l (F : elem Rf n * elem Rf n -> 'M[Rf]_(k, l)) y : lp k l F y -> lp k l (fun x => - F x) (- y).
  by case=> L L0 H; exists L => // eps x h1 h2 h3; rewrite -opprD nrmN; exact: H.
have LL : lp _ _ (fun x => cL x.1 x.2) (cL e0 f0) by apply: lip_add (lip_cst _ _) (lip_mul C1 J2).
have LR : lp _ _ (fun x => cR x.1 x.2) (cR e0 f0) by apply: lip_add (lip_cst _ _) (lip_mul J2 C1).
have [IL _] := lip_inv LL u; have [IR _] := lip_inv LR v.
have [b bp HB] : lp _ _ (fun x => cb x.1 x.2) (cb e0 f0) by exact: lip_add (lip_mul A2 (lip_mul IL (lip_add b1 (lip_mul C1 t2)))) b2.
have [t tp HT] : lp _ _ (fun x => ct x.1 x.2) (ct e0 f0).
  exact: lip_add (lip_mul (lip_tr A1) (lip_mul IR (lip_add t2 (opp _ _ _ _ (lip_mul J2 b1))))) t1.
exists (L1 + (b + t)) => [|eps e f eps0 hl he hf]; first by rewrite !addr_ge0.
have dom L : L <= L1 + (b + t) -> eps * L <= 1 by move=> le; exact: lip_dom le eps0 hl.
have hn : nearf eps (e, f) by [].
have [|g Eg hg] := H1 eps e f eps0 _ (fd_ed he) (fd_ed hf); first by apply: dom; rewrite ler_addl addr_ge0.
have [gb gt] := combine_inv' Eg.
exists g => //; rewrite /fd gb gt Eb Et mulrDl; apply: ler_add => //; rewrite mulrDl; apply: ler_add.
  by apply: (HB eps (e, f)) => //; apply: dom; rewrite addrCA ler_addl addr_ge0.
by apply: (HT eps (e, f)) => //; apply: dom; rewrite addrA ler_addr addr_ge0.
Qed.
End Comb.

Section Scan.
Variables (n B : nat) (ex : nat -> nat -> elem Rf n).
Hypothesis exC : forall i j k, (i < j)%N -> (j < k)%N -> (k <= B)%N -> combine_abcej (ex i j) (ex j k) = Some (ex i k).
Lemma comb_uniff : exists2 L, 1 <= L & forall i j k, (i < j)%N -> (j < k)%N -> (k <= B)%N -> forall eps e f, 0 <= eps -> eps * L <= 1 ->
  fd e (ex i j) <= eps -> fd f (ex j k) <= eps -> exists2 g, combine_abcej e f = Some g & fd g (ex i k) <= L * eps.
Proof.
pose P i j k (L : Rf) := (i < j)%N -> (j < k)%N -> (k <= B)%N -> forall eps e f, 0 <= eps -> eps * L <= 1 ->
  fd e (ex i j) <= eps -> fd f (ex j k) <= eps -> exists2 g, combine_abcej e f = Some g & fd g (ex i k) <= L * eps.
have mono i j k L L' : L <= L' -> P i j k L -> P i j k L'.
  move=> le H h1 h2 h3 eps e f e0 hl he hf; have [g E hg] := H h1 h2 h3 eps e f e0 (lip_dom le e0 hl) he hf.
  by exists g => //; exact: lip_weak hg.
have [|i iB|L L0 HL] := @fin_unif (fun i L => forall j k, (j < B.+1)%N -> (k < B.+1)%N -> P i j k L) B.+1.
- by move=> i L L' le H j k hj hk; exact: mono (H j k hj hk).
- have [|j jB|L L0 HL] := @fin_unif (fun j L => forall k, (k < B.+1)%N -> P i j k L) B.+1.
  + by move=> j L L' le H k hk; exact: mono (H k hk).
  + have [|k kB|L L0 HL] := @fin_unif (fun k L => P i j k L) B.+1; first by move=> k L L'; exact: mono.
      case: (ltnP i j) => h1; last by exists 0 => h; move: h1; rewrite leqNgt h.
      case: (ltnP j k) => h2; last by exists 0 => _ h; move: h2; rewrite leqNgt h.
      by have [L L0 HL] := combine_lipf (exC h1 h2 kB); exists L => _ _ _.
    by exists L => k hk; exact: HL.
  by exists L => j k hj hk; exact: HL.
exists (Order.max 1 L); first by rewrite le_maxr lexx.
move=> i j k h1 h2 h3; have [hi hj hk] : [/\ (i < B.+1)%N, (j < B.+1)%N & (k < B.+1)%N] by split; lia.
by apply: (mono i j k L _ _ (HL i hi j k hj hk)) h1 h2 h3; rewrite le_maxr lexx orbT.
Qed.
Theorem scan_stablef : exists2 L, 0 <= L & forall eps (es : seq (elem Rf n)), 0 <= eps -> eps * L <= 1 -> es <> [::] -> size es = B ->
  (forall i e, List.nth_error es i = Some e -> fd e (ex i i.+1) <= eps) ->
  exists r, par_fwdbwd_pass_scan es = Some r /\ size r = B /\ forall k e, List.nth_error r k = Some e -> fd e (ex 0%N k.+1) <= L * eps.
Proof.
have [L L1 HL] := comb_uniff.
have L0 : 0 <= L by exact: le_trans ler01 L1.
exists (L ^+ B.+1); first exact: exprn_ge0.
move=> eps es e0 hl nz sz he.
pose Inv i j e := fd e (ex i j) <= L ^+ (j - i) * eps.
have [||r [E [sr Hr]]] := @scan_seg _ (@combine_abcej Rf n) Inv es false nz.
- move=> i j k x y /ssrnat.ltP ij /ssrnat.ltP jk; rewrite -[length es]/(size es) sz => /ssrnat.leP kB hx hy.
  have d : 0 <= L ^+ (k - i).-1 * eps by rewrite mulr_ge0 ?exprn_ge0.
  have p a : (a <= (k - i).-1)%N -> L ^+ a * eps <= L ^+ (k - i).-1 * eps by move=> le; rewrite ler_wpmul2r // ler_weexpn2l.
  have [|||g E hg] := HL i j k ij jk kB (L ^+ (k - i).-1 * eps) x y d.
  + rewrite mulrAC -exprSr mulrC; apply: le_trans hl; rewrite ler_wpmul2l // ler_weexpn2l //; lia.
  + by apply: le_trans hx _; apply: p; lia.
  + by apply: le_trans hy _; apply: p; lia.
  exists g; split=> //; apply: le_trans hg _; rewrite mulrA -exprS prednK //; lia.
- move=> i x hx; rewrite /Inv subSnn expr1; apply: le_trans (he i x hx) _; by rewrite ler_pemull.
exists r; split=> //; split; first by rewrite -sz.
move=> k e hk; have h : Inv 0%N k.+1 e := Hr k e hk; rewrite /Inv in h; apply: le_trans h _; rewrite ler_wpmul2r // ler_weexpn2l //.
case: (ltnP k (size r)) => kr; last by move: hk; rewrite nthe_none.
by move: kr; rewrite -[size r]/(length r) sr -[length es]/(size es) sz; lia.
Qed.
End Scan.

Section Block.
Variables n m : nat.
Variable q : clqr Rf n m.
Hypotheses (sU : symm (qU q)) (pU : pd (qU q)) (sX : symm (qX q)) (pX : psd (qX q)).
Local Notation ulT := (ulT q).
Local Notation N := (qL q *m ulT).
Local Notation F := (qF q).
Local Notation X := (qX q).
Local Notation P12 := (P12 expmR q ulT).
Local Notation P21 := (P21 expmR q ulT).
Local Notation P22 := (P22 expmR q ulT).
Local Notation P11 := (P11 expmR q ulT).
Local Notation As := (As expmR q ulT).
Local Notation Cs := (Cs expmR q ulT).
Local Notation Js := (Js expmR q ulT).
Lemma P21_deriv' (t : Rf) : mderiv P21 t (P21 t *m - F + P22 t *m X).
Proof. by have := mderiv_lsub (mderiv_dsub (EE_deriv q t)); rewrite H_comm EEH -/(dlsubmx _) block_mxKdl. Qed.
Lemma comm21 (t : Rf) : X *m P11 t + F^T *m P21 t = P21 t *m - F + P22 t *m X.
Proof. by have := congr1 (fun M => dlsubmx M) (H_comm q t); rewrite HEE EEH !block_mxKdl. Qed.
Lemma Js_deriv' (t : Rf) : 0 <= t -> mderiv Js t ((As t)^T *m X *m As t).
Proof.
move=> t0; have := Js_deriv sU pU pX t0; congr (mderiv _ _ _); rewrite (AsTE sU pU sX pX t0).
exact: (fwJ_alg (PA sU pU sX pX t0) (esym (Js_P11 (goodt sU pU pX t0))) (comm21 t) (comm11 q t)).
Qed.
Local Notation Z := ('M[Rf]_(n, n + (n + n))).
Definition wc : Z := mkz 0 N 0.
Definition wB (z : Z) : Z := mkz (F *m zA z) (F *m zC z + zC z *m F^T) 0.
Definition wb (y z : Z) : Z := mkz (- (zC y *m X *m zA z)) (- (zC y *m X *m zC z)) ((zA y)^T *m X *m zA z).
Lemma wB_lin : linear_map (V := matrix_lmodType Rf n (n + (n + n))) (W := matrix_lmodType Rf n (n + (n + n))) wB.
Proof.
move=> a x y; rewrite /wB; case: (zparts_lin a x y) => -> -> _.
rewrite [RHS]mkz_lin !mulmxDl !mulmxDr -!scalemxAl -!scalemxAr scaler0 addr0; congr mkz.
by rewrite addrACA scalerDr.
Qed.
Lemma wb_bil : bilinear_map (k := n) (l := n + (n + n)) wb.
Proof.
split=> z a x y; rewrite /wb; case: (zparts_lin a x y) => eA eC _; rewrite ?eA ?eC [RHS]mkz_lin.
  by rewrite !mulmxDr -!scalemxAr !opprD -!scalerN.
have -> : (a *: zA x + zA y)^T = a *: (zA x)^T + (zA y)^T by rewrite linearP.
by rewrite !mulmxDl -!scalemxAl !opprD -!scalerN.
Qed.
Lemma wfE A C J : RkQuadAlg.f wc wB wb (mkz A C J) = mkz (F *m A - C *m X *m A) (F *m C - C *m X *m C + C *m F^T + N) (A^T *m X *m A).
Proof.
rewrite /RkQuadAlg.f /wc /wB /wb; case: (mkzK A C J) => -> -> _; rewrite !mkz_add !add0r; congr mkz; exact: perm4.
Qed.
Lemma ws_solves T : solves (RkQuadAlg.f wc wB wb) (zs q) 0 T.
Proof.
have d (t : Rf) : 0 <= t -> mderiv (zs q) t (RkQuadAlg.f wc wB wb (zs q t)).
  by move=> t0; rewrite wfE; apply: mderiv_row (As_deriv' sU pU sX pX t0) (mderiv_row (Cs_deriv' sU pU sX pX t0) (Js_deriv' t0)).
by split=> t /andP [h1 h2]; [exact: mderiv_cont (d t h1) | exact: d (ltW h1)].
Qed.
(** ** one step *)
Local Notation wstep := (stp (R := Rf) (k := n) (l := n + (n + n)) wc wB wb).
Definition elz (z : Z) : elem Rf n := Elem (zA z) 0 (zC z) 0 (zJ z).
Lemma elzK z : zel (elz z) = z.
Proof. by rewrite /zel /= -mkz_parts. Qed.
Lemma step_elz h z : qelem_step (qbwpass_fw_ode_f q) h (elz z) = Some (elz (zsym (wstep h z))).
Proof.
pose T (z : Z) : 'M[Rf]_(n, 3 * n + 2) := pack_abcej (elz z).
have lin : linear_map (V := matrix_lmodType Rf n (n + (n + n))) (W := matrix_lmodType Rf n (3 * n + 2)) T.
  move=> a x y; rewrite /T -[RHS]abcej_pack_lin; congr pack_abcej; rewrite /elz /elem_lin /=.
  by case: (zparts_lin a x y) => -> -> ->; rewrite !scaler0 !addr0.
have cov w (s : Rf) : (fun z (_ : Rf) => qbwpass_fw_ode_f q z) (T w + 0) s = omap T ((fun z (_ : Rf) => Some (RkQuadAlg.f wc wB wb z)) w s).
  rewrite addr0 /qbwpass_fw_ode_f ultS // obindS; congr Some; rewrite /T; congr pack_abcej.
  rewrite abcej_unpack {2}(mkz_parts w) wfE /elz; case: (mkzK (F *m zA w - zC w *m X *m zA w) (F *m zC w - zC w *m X *m zC w + zC w *m F^T + N) ((zA w)^T *m X *m zA w)) => -> -> ->.
  by rewrite /qfw_rhs !mulmx0 subr0.
have := @C41_affine_l Rf (matrix_lmodType Rf n (n + (n + n))) (matrix_lmodType Rf n (3 * n + 2)) T 0 (fun z _ => Some (RkQuadAlg.f wc wB wb z)) (fun z _ => qbwpass_fw_ode_f q z) h z 0 lin cov.
rewrite addr0 -(form_x (V := matrix_lmodType Rf n (n + (n + n)))) -(form_x (V := matrix_lmodType Rf n (3 * n + 2))).
rewrite rk4_stp /qelem_step => ->; rewrite obindS addr0 /T abcej_unpack /elz /zsym.
by case: (mkzK (zA (wstep h z)) (symz (zC (wstep h z))) (symz (zJ (wstep h z)))) => -> -> ->.
Qed.
Lemma wblock_loop h (l : seq nat) z : for_ l (fun _ e => qelem_step (qbwpass_fw_ode_f q) h e) (elz z) = Some (elz (iter (size l) (fun z => zsym (wstep h z)) z)).
Proof.
elim: l z => [|i l IH] z; first by [].
by rewrite for_cons step_elz IH [size _]/= iterSr.
Qed.
Lemma wblock_conv (tau : Rf) : 0 <= tau -> exists2 D, 0 <= D & forall M, (0 < M)%N -> D <= M%:R ->
  exists2 e, qblock_elem q (tau / M%:R) M true = Some e & fd e (exact_elem expmR q ulT tau) <= D / M%:R ^+ 4.
Proof.
move=> tau0.
have [D D0 H] := @rk_order4_from n (n + (n + n)) wc wB wb wB_lin wb_bil (zs q) tau tau0 (ws_solves tau) 0 (lexx _).
exists D => // M M0 DM.
have z0 : Elem 1%:M 0 0 0 0 = elz (mkz 1%:M 0 0) by rewrite /elz; case: (mkzK (1%:M : 'M[Rf]_n) 0 0) => -> -> ->.
have E := wblock_loop (tau / M%:R) (iota 0 M) (mkz 1%:M 0 0); rewrite -z0 size_iota in E.
pose xs i : Z := iter i (fun z => zsym (wstep (tau / M%:R) z)) (mkz 1%:M 0 0).
exists (elz (xs M)); first exact: E.
have Mp : 0 < M%:R :> Rf by rewrite ltr0n.
have tN : M%:R * (tau / M%:R) = tau by rewrite mulrC divfK ?lt0r_neq0.
have h0 : nrm (xs 0%N - zs q 0) <= 0 / M%:R ^+ 4 by rewrite zs0 subrr nrm0 mul0r.
rewrite /fd /= subrr !nrm0 addr0 addr0 -zel_dist elzK.
have := H M M0 DM xs h0 _ M (leqnn M); rewrite tN; apply=> i iM.
have ti : 0 <= i.+1%:R * (tau / M%:R) by rewrite mulr_ge0 ?ler0n // divr_ge0 // ltW.
have [_ zCE zJE] := mkzK (As (i.+1%:R * (tau / M%:R))) (Cs (i.+1%:R * (tau / M%:R))) (Js (i.+1%:R * (tau / M%:R))).
by apply: zsym_dist; rewrite /zs ?zCE ?zJE; [exact: Csym | exact: Jsym].
Qed.
End Block.
