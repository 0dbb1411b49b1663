(** The elements of the parallel backward pass integrated forward in time. *)
From Coq Require Import Reals.
From mathcomp Require Import all_ssreflect all_algebra zify.
From Verif Require Import RealF MxBase LqtModel LqtSpec LqtCore LqtElem LinComb ScanModel ClqtModel ClqtSpec ClqtPack ClqtFwd2 RealExpSpec RealExp ClqrOpt RealDisc RkConvA RkConvC RkConv RkConvP
  FbConvC TrackOptSpec TvarSpec TvarInv TvarLip TvarPack TvarRk Tvar TvarBwd OdeLin TvarExistSpec TvarExist TvarCost ClqrPar ParConvB TvarParA TvarParB TvarParC.
Import Order.TTheory GRing.Theory Num.Theory.
Set Implicit Arguments. Unset Strict Implicit. Unset Printing Implicit Defensive.
Local Open Scope ring_scope.
Delimit Scope R_scope with Re.

Lemma flat_le k l (g : R -> 'M[Rf]_(k, l)) (T : Rf) : (forall t : Rf, 0 <= t <= T -> mcont g t) -> (forall t : Rf, 0 < t < T -> mderiv g t 0) ->
  forall t : Rf, 0 <= t <= T -> forall i j, g 0 i j <= g t i j.
Proof.
move=> c d t /andP [t0 tT] i j; case: (ltgtP 0 t) t0 => // [t0 _|<- //].
apply: (mono0 (f := fun t => g t i j) t0) => s /andP [h1 h2]; first by apply: c; rewrite h1 (le_trans h2).
by exists 0 => //; have := d s _ i j; rewrite mxE h1 (lt_le_trans h2 tT) => /(_ isT).
Qed.
Lemma flat_const k l (g : R -> 'M[Rf]_(k, l)) (T : Rf) : (forall t : Rf, 0 <= t <= T -> mcont g t) -> (forall t : Rf, 0 < t < T -> mderiv g t 0) ->
  forall t : Rf, 0 <= t <= T -> g t = g 0.
Proof.
move=> c d t ht; apply/matrixP => i j; apply/eqP; rewrite eq_le (flat_le c d ht) andbT.
have c' (s : Rf) : 0 <= s <= T -> mcont (fun t => 0 - g t) s by move=> hs; apply: mcont_sub; [exact: mcont_const | exact: c].
have d' (s : Rf) : 0 < s < T -> mderiv (fun t => 0 - g t) s 0.
  by move=> hs; have := mderiv_add (mderiv_const 0 s) (mderiv_opp (d s hs)); rewrite oppr0 addr0.
by have := flat_le c' d' ht i j; rewrite !mxE !sub0r ler_opp2.
Qed.

Section Alg.
Variables (R : realFieldType) (n : nat).
Implicit Types A C J F N X Q G S M W : 'M[R]_n.
Lemma M_alg F N Q S C : (- F^T *m S - S *m F + S *m N *m S - Q) *m C + S *m (F *m C - C *m Q *m C + C *m F^T + N) =
  - (F^T *m (1%:M + S *m C)) + (1%:M + S *m C) *m F^T + S *m N *m (1%:M + S *m C) - (1%:M + S *m C) *m (Q *m C).
Proof. rewrite !mulmxDr !mulmxDl !mulmx1 !mul1mx; mxexp; abel. Qed.
Lemma G_alg F N Q S C G M : G *m M = 1%:M -> M *m G = 1%:M ->
  - (G *m (- (F^T *m M) + M *m F^T + S *m N *m M - M *m (Q *m C)) *m G) = G *m F^T - F^T *m G - G *m S *m N + Q *m C *m G.
Proof.
move=> GM MG.
have e1 : G *m (F^T *m M) *m G = G *m F^T by rewrite -!mulmxA MG mulmx1.
have e2 : G *m (M *m F^T) *m G = F^T *m G by rewrite mulmxA GM mul1mx.
have e3 : G *m (S *m N *m M) *m G = G *m S *m N by rewrite -!mulmxA MG mulmx1.
have e4 : G *m (M *m (Q *m C)) *m G = Q *m C *m G by rewrite mulmxA GM mul1mx.
rewrite mulmxBr !mulmxDr mulmxN mulmxBl !mulmxDl mulNmx e1 e2 e3 e4; abel.
Qed.
Lemma W_alg F N Q S C G A : symm C -> symm Q -> G *m (1%:M + S *m C) = 1%:M ->
  (F *m A - C *m Q *m A)^T *m (G *m S) *m A +
  A^T *m ((G *m F^T - F^T *m G - G *m S *m N + Q *m C *m G) *m S + G *m (- F^T *m S - S *m F + S *m N *m S - Q)) *m A +
  A^T *m (G *m S) *m (F *m A - C *m Q *m A) + A^T *m Q *m A = 0.
Proof.
move=> sC sQ GM; have {5}-> : Q = (G + G *m S *m C) *m Q by rewrite -[(_ + _) *m Q]/((G + G *m S *m C) *m Q) -{1}[G]mulmx1 -mulmxA -mulmxDr GM mul1mx.
mxexp; rewrite sC sQ; mxexp; abel.
Qed.
Lemma y_alg F N Q S C G A (v b c x : 'cV[R]_n) : symm C -> symm Q -> G *m (1%:M + S *m C) = 1%:M ->
  (F *m A - C *m Q *m A)^T *m (G *m (v - S *m b)) +
  A^T *m ((G *m F^T - F^T *m G - G *m S *m N + Q *m C *m G) *m (v - S *m b) +
    G *m ((- x + S *m c - F^T *m v + S *m N *m v) - ((- F^T *m S - S *m F + S *m N *m S - Q) *m b + S *m (F *m b + C *m x - C *m Q *m b + c)))) +
  (A^T *m x - A^T *m Q *m b) = 0.
Proof.
move=> sC sQ GM; have h k (z : 'M[R]_(n, k)) : z = G *m z + G *m S *m C *m z.
  by rewrite -mulmxDl -{1}[G]mulmx1 -mulmxA -mulmxDr GM mul1mx.
have -> : A^T *m x - A^T *m Q *m b = A^T *m (G *m x + G *m S *m C *m x) - A^T *m (G *m Q + G *m S *m C *m Q) *m b by rewrite -!h.
mxexp; rewrite sC sQ; mxexp; abel.
Qed.
End Alg.

Section Exact.
Variables n m p pT : nat.
Variable P : clqt Rf n m p pT.
Local Notation T := (kT P).
Hypothesis T0 : 0 <= T.
Hypothesis pw : forall t : Rf, 0 <= t <= T -> [/\ symm (kX P t), psd (kX P t), symm (kU P t) & pd (kU P t)].
Hypothesis lP : lipschitz_data P.
Local Notation lip := (lipschitz_on T).
Local Notation N := (nn P).
Local Notation P0 := (term P (0 : 'M[Rf]_n) 0 0).
Let wt : tracking_weights P0 0. Proof. exact: w0. Qed.
Let cw : convex_weights P0. Proof. exact: cw0. Qed.
Definition qq (t : Rf) : 'M[Rf]_n := (kH P t)^T *m kX P t *m kH P t.
Lemma qq_lip : lip qq.
Proof. by apply: lip_mul; [apply: lip_mul; [apply: lip_tr; exact: (H_lip lP) | exact: (X_lip lP)] | exact: (H_lip lP)]. Qed.
Lemma qq_ok (t : Rf) : 0 <= t <= T -> symm (qq t) /\ psd (qq t).
Proof. by move=> ht; have [sX pX _ _] := pw ht; split; [exact: symm_cong | exact: psd_cong]. Qed.
Lemma elem_ex_fw : exists A b C eta J, let e := emap A b C eta J in [/\ e 0 = Elem 1%:M 0 0 0 0,
  forall t : Rf, 0 <= t <= T -> [/\ mcont A t, mcont b t, mcont C t, mcont eta t & mcont J t] /\ elem_ok (e t) &
  forall t : Rf, 0 < t < T -> let r := fw_rhs P t (N t) (e t) in
    [/\ mderiv A t (eA r), mderiv b t (eb r), mderiv C t (eC r), mderiv eta t (eeta r) & mderiv J t (eJ r)]].
Proof.
have [b [C [[b0 C0 cbC dbC] lb lC pC]]] := @forw_ex _ _ _ _ P0 T0 cw lP 0.
have lM : lip (fun t : Rf => kF P t - C t *m qq t) by apply: lipB; [exact: (F_lip lP) | apply: lip_mul => //; exact: qq_lip].
have [A [A0 lA cA dA]] := affine_ex T0 (1%:M : 'M[Rf]_n) lM (lipC T (0 : 'M[Rf]_n)).
have lAT : lip (fun t => (A t)^T) by exact: lip_tr.
pose q (t : Rf) := (A t)^T *m qq t *m A t.
have lq : lip q by apply: lip_mul => //; apply: lip_mul => //; exact: qq_lip.
have qok (t : Rf) : 0 <= t <= T -> symm (q t) /\ psd (q t) by move=> ht; have [h1 h2] := qq_ok ht; split; [exact: symm_cong | exact: psd_cong].
have [J [J0 lJ wJ dJ]] := @riccati_ex T T0 n (fun _ => 0) (fun _ => 0) q 0 (lipC T (0 : 'M[Rf]_n)) (lipC T (0 : 'M[Rf]_n)) lq
   (fun _ _ => conj (s0 n) (p0 (k := n))) qok (s0 n) (p0 (k := n)).
have la : lip (fun t : Rf => (A t)^T *m ((kH P t)^T *m kX P t *m kr P t - qq t *m b t)).
  apply: lip_mul => //; apply: lipB; last by apply: lip_mul => //; exact: qq_lip.
  by apply: lip_mul; [apply: lip_mul; [apply: lip_tr; exact: (H_lip lP) | exact: (X_lip lP)] | exact: (r_lip lP)].
have [eta [eta0 leta ceta deta]] := affine_ex T0 (0 : 'cV[Rf]_n) (lipC T (0 : 'M[Rf]_n)) la.
exists A, b, C, eta, J; split.
- by rewrite /emap A0 b0 C0 eta0 J0.
- move=> t ht; have [c1 c2 c3] := cbC t ht; have [d1 d2 d3] := wJ t ht; split; last by split=> //; exact: pC.
  by split=> //; first [exact: cA | exact: ceta].
move=> t ht; have i : 0 <= t <= T by case/andP: ht => h1 h2; rewrite !ltW.
have [A' [dA' [db [dC [E hb hC]]]]] := dbC t ht isT; have [_ Eb EC] := abc_E wt i E.
split.
- by move: (dA t ht); congr (mderiv _ _ _); rewrite addr0 mulmxBl /qq /= !mulmxA.
- by move: hb; congr (mderiv _ _ _); rewrite Eb.
- by move: hC; congr (mderiv _ _ _); rewrite EC.
- by move: (deta t ht); congr (mderiv _ _ _); rewrite mul0mx add0r mulmxBr /qq /= !mulmxA.
- by move: (dJ t ht); congr (mderiv _ _ _); rewrite trmx0 !mulmx0 !mul0mx !(add0r, addr0, oppr0) /q /qq /= !mulmxA.
Qed.

Section Given.
Variables (A C J : R -> 'M[Rf]_n) (b eta : R -> 'cV[Rf]_n).
Local Notation e := (emap A b C eta J).
Hypothesis e0 : e 0 = Elem 1%:M 0 0 0 0.
Hypothesis ec : forall t : Rf, 0 <= t <= T -> [/\ mcont A t, mcont b t, mcont C t, mcont eta t & mcont J t] /\ elem_ok (e t).
Hypothesis edr : forall t : Rf, 0 < t < T -> let r := fw_rhs P t (N t) (e t) in
  [/\ mderiv A t (eA r), mderiv b t (eb r), mderiv C t (eC r), mderiv eta t (eeta r) & mderiv J t (eJ r)].
Lemma elem_value_fw S v : follows P S v -> (forall t : Rf, 0 <= t <= T -> psd (S t)) -> forall t : Rf, 0 <= t <= T ->
  forall f, eJ f = S t -> eeta f = v t -> cJ (e t) f = S 0 /\ ceta (e t) f = v 0.
Proof.
move=> [cSv dSv] pS.
pose G (t : R) := invmx (1%:M + S t *m C t).
have un (t : Rf) : 0 <= t <= T -> 1%:M + S t *m C t \in unitmx.
  by move=> ht; have [_ [sC pC _ _]] := ec ht; have [_ _ sS] := cSv t ht; apply: unit_ICJ => //; exact: pS.
pose gS (t : R) := (A t)^T *m (G t *m S t) *m A t + J t.
pose gv (t : R) := (A t)^T *m (G t *m (v t - S t *m b t)) + eta t.
have cG (t : Rf) : 0 <= t <= T -> mcont G t.
  move=> ht; have [[cA cb cC _ _] _] := ec ht; have [cS cv _] := cSv t ht.
  by apply: mcont_invmx; [exact: un | apply: mcont_add; [exact: mcont_const | exact: mcont_mul]].
have cT (t : Rf) : 0 <= t <= T -> mcont (fun t => (A t)^T) t.
  by move=> ht i j; have [[cA _ _ _ _] _] := ec ht; apply: (cont_ext _ (cA j i)) => s; rewrite mxE.
have cgS (t : Rf) : 0 <= t <= T -> mcont gS t.
  move=> ht; have [[cA cb cC ceta' cJ'] _] := ec ht; have [cS cv _] := cSv t ht.
  apply: mcont_add => //; apply: mcont_mul => //; apply: mcont_mul; first exact: cT.
  by apply: mcont_mul => //; exact: cG.
have cgv (t : Rf) : 0 <= t <= T -> mcont gv t.
  move=> ht; have [[cA cb cC ceta' cJ'] _] := ec ht; have [cS cv _] := cSv t ht.
  apply: mcont_add => //; apply: mcont_mul; first exact: cT.
  by apply: mcont_mul; [exact: cG | apply: mcont_sub => //; exact: mcont_mul].
have D (t : Rf) : 0 < t < T -> mderiv gS t 0 /\ mderiv gv t 0.
  move=> ht; have i : 0 <= t <= T by case/andP: ht => h1 h2; rewrite !ltW.
  have [_ [sC pC sJ pJ]] := ec i; have [_ _ sS] := cSv t i; have [sQ _] := qq_ok i.
  have [dA db dC deta dJ] : [/\ mderiv A t (kF P t *m A t - C t *m qq t *m A t),
     mderiv b t (kF P t *m b t + C t *m ((kH P t)^T *m kX P t *m kr P t) - C t *m qq t *m b t + kc P t),
     mderiv C t (kF P t *m C t - C t *m qq t *m C t + C t *m (kF P t)^T + N t),
     mderiv eta t ((A t)^T *m ((kH P t)^T *m kX P t *m kr P t) - (A t)^T *m qq t *m b t) & mderiv J t ((A t)^T *m qq t *m A t)].
    by have := edr ht; rewrite /qq /= !mulmxA.
  have [dS [dv [E hS hv]]] := dSv t ht.
  have := ric_E (P := P0) wt i E => -[]; rewrite -[nn P0 t]/(N t) /= -/(qq t) => ES Ev; subst dS dv.
  have GM : G t *m (1%:M + S t *m C t) = 1%:M by exact: mulVmx (un t i).
  have MG : (1%:M + S t *m C t) *m G t = 1%:M by exact: mulmxV (un t i).
  have {sC} sC : symm (C t) := sC.
  have dM := mderiv_add (mderiv_const 1%:M t) (mderiv_mul hS dC); rewrite add0r M_alg in dM.
  have dG := mderiv_invmx (un t i) dM.
  rewrite -/(G t) (G_alg _ _ _ _ _ GM MG) in dG.
  have sQ' : symm (qq t) := sQ.
  split.
    have := mderiv_add (mderiv_mul (mderiv_mul (mderiv_tr dA) (mderiv_mul dG hS)) dA) dJ; congr (mderiv _ _ _).
    by rewrite mulmxDl; apply: W_alg sC sQ' GM.
  have dy := mderiv_mul dG (mderiv_add hv (mderiv_opp (mderiv_mul hS db))).
  have := mderiv_add (mderiv_mul (mderiv_tr dA) dy) deta; congr (mderiv _ _ _).
  rewrite (_ : - (kH P t)^T *m kX P t *m kr P t = - ((kH P t)^T *m kX P t *m kr P t)); last by rewrite !mulNmx.
  by apply: y_alg sC sQ' GM.
have FS := flat_const cgS (fun t ht => (D t ht).1); have Fv := flat_const cgv (fun t ht => (D t ht).2).
move=> t ht f fJ feta.
have [eA eb eC eeta eJ] : [/\ A 0 = 1%:M, b 0 = 0, C 0 = 0, eta 0 = 0 & J 0 = 0] by case: e0.
have -> : cJ (e t) f = gS t by rewrite /cJ /cR /= fJ /gS /G !mulmxA.
have -> : ceta (e t) f = gv t by rewrite /ceta /cR /= fJ feta /gv /G.
rewrite FS // Fv // /gS /gv /G eA eb eC eeta eJ !(mulmx0, addr0, invmx1, mul1mx, trmx1, mulmx1, subr0, oppr0); by [].
Qed.
Local Notation V := 'M[Rf]_(n, 3 * n + 2).
Definition ef (y : V) (s : Rf) : V := pack_abcej (fw_rhs P s (N s) (unpack_abcej y)).
Definition zf (s : Rf) : V := pack_abcej (e s).
Lemma zf_cont (t : Rf) : 0 <= t <= T -> mcont zf t.
Proof. by move=> ht; have [[h1 h2 h3 h4 h5] _] := ec ht; exact: mcont_abcej. Qed.
Lemma zf_deriv (t : Rf) : 0 < t < T -> mderiv zf t (ef (zf t) t).
Proof.
move=> ht; have [h1 h2 h3 h4 h5] := edr ht.
by have := mderiv_abcej h1 h2 h3 h4 h5; congr (mderiv _ _ _); rewrite /ef /zf abcej_unpack.
Qed.
Ltac blt := repeat first [exact: (@bl_F _ _ _ _ P lP) | exact: (@bl_L _ _ _ _ P lP) | exact: (@bl_X _ _ _ _ P lP) | exact: (@bl_c _ _ _ _ P lP) | exact: (@bl_H _ _ _ _ P lP)
  | exact: (@bl_r _ _ _ _ P lP) | exact: (@bl_N _ _ _ _ P0 T0 wt lP) | exact: bl_const
  | apply: bl_tr | apply: bl_add | apply: bl_opp | apply: bl_mul | apply: bl_get; exact: bl_id | exact: bl_id].
Lemma ef_bl : bl T ef.
Proof.
rewrite /ef /fw_rhs /unpack_abcej /pack_abcej /=.
by do 5 (apply: bl_set; first by blt); blt.
Qed.
Fixpoint yf (M i : nat) : V := if i is i'.+1 then sye (tstp ef (T / M%:R) (yf M i') (i'%:R * (T / M%:R))) else pack_abcej (Elem 1%:M 0 0 0 0).
Lemma estep_fw M k : (k < M)%N -> elem_step (bwpass_fw_ode_f P) (T / M%:R) (0 + (0 * M + k)%:R * (T / M%:R)) (unpack_abcej (yf M k)) = Some (unpack_abcej (yf M k.+1)).
Proof.
move=> kM; have h0 : 0 <= T / M%:R by rewrite divr_ge0 ?ler0n.
have Mp : (0 < M)%N by lia.
rewrite /elem_step abcej_pack mul0n !add0n add0r (@tstp_rk4 _ _ _ ef) //; last first.
  move=> y r /andP [h1 h2]; rewrite /bwpass_fw_ode_f (ULTs pw) ?obindS //.
  have /andP [g _] := grid_ok (M := M) T0 Mp (ltnW kM); have /andP [_ g'] := grid_ok (M := M) T0 Mp kM.
  by rewrite (le_trans g h1) (le_trans h2) // -{2}[T / _]mul1r -mulrDl -[1]/(1%:R) -natrD addn1.
by rewrite obindS [yf M _.+1]/= /sye; case: (unpack_abcej (tstp _ _ _ _)) => A' b' C' eta' J'; rewrite abcej_unpack.
Qed.
Lemma eloop_fw M l k : (k + l = M)%N -> for_ (iota k l) (fun i e => elem_step (bwpass_fw_ode_f P) (T / M%:R) (0 + (0 * M + i)%:R * (T / M%:R)) e)
  (unpack_abcej (yf M k)) = Some (unpack_abcej (yf M M)).
Proof.
elim: l k => [|l IH] k kl; first by rewrite -kl addn0.
rewrite [iota _ _]/= for_cons estep_fw; last by lia.
by apply: IH; rewrite addSnnS.
Qed.
Lemma block_conv_fw : exists2 D, 0 <= D & forall M, (0 < M)%N -> D <= M%:R ->
  exists2 g, block_elem P (T / M%:R) 0 M true 0 = Some g & ed5 g (e T) <= D / M%:R.
Proof.
have [D D0 H] := @rk_order1_from _ _ ef zf T T0 (bl_nrm ef_bl) zf_cont zf_deriv 0 (lexx _).
exists D => // M Mp DM; exists (unpack_abcej (yf M M)).
  by have := @eloop_fw M M 0 (add0n M); rewrite -[yf M 0]/(pack_abcej (Elem 1%:M 0 0 0 0)) abcej_unpack.
have tM : M%:R * (T / M%:R) = T by rewrite mulrC divfK // pnatr_eq0 -lt0n.
have h : nrm (yf M M - zf (M%:R * (T / M%:R))) <= D / M%:R.
  apply: H => //; first by rewrite [yf M 0]/= /zf e0 subrr nrm0 mul0r.
  move=> i iM; rewrite [yf M i.+1]/=.
  by have [_ [sC _ sJ _]] := ec (grid_ok (M := M) T0 Mp iM); exact: sye_dist.
by rewrite -ed5_pack abcej_pack; move: h; rewrite tM.
Qed.
End Given.
End Exact.
