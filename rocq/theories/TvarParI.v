(** Convergence of the parallel forward-backward pass for time-varying data. *)
From Coq Require Import Reals.
From mathcomp Require Import all_ssreflect all_algebra zify.
From Verif Require Import RealF MxBase LqtModel LqtSpec LqtCore LqtElem LinComb ScanModel Rk4Model ClqtModel ClqtSpec ClqtPack ClqtFwd2 RealExpSpec RealExp ClqrOpt RealDisc RkConvA RkConvC RkConv RkConvP
  FbConvB FbConvC FbConvE TrackOptSpec TvarSpec TvarInv TvarLip TvarPack TvarRk Tvar TvarBwd TvarFwd TvarFb OdeLin TvarExistSpec TvarExist TvarCost ClqrPar ParConvB TvarParA TvarParB TvarParC TvarParFw TvarParG TvarParD TvarParE TvarParH.
Import Order.TTheory GRing.Theory Num.Theory.
Set Implicit Arguments. Unset Strict Implicit. Unset Printing Implicit Defensive.
Local Open Scope ring_scope.
Delimit Scope R_scope with Re.

Section Fb.
Variables n m p pT : nat.
Variable P : clqt Rf n m p pT.
Local Notation T := (kT P).
Hypothesis T0 : 0 <= T.
Hypothesis cw : convex_weights P.
Hypothesis lP : lipschitz_data P.
Variables (S : R -> 'M[Rf]_n) (v : R -> 'cV[Rf]_n) (b : R -> 'cV[Rf]_n) (C : R -> 'M[Rf]_n) (x0 : 'cV[Rf]_n).
Hypothesis sol : backward_solution P S v [::] 0.
Hypothesis fsol : forward_solution P b C x0 [::] 0.
Hypothesis un : forall t : Rf, 0 <= t <= T -> [/\ psd (S t), psd (C t) & 1%:M + C t *m S t \in unitmx].
Let wP : tracking_weights P 0. Proof. by case: cw. Qed.
Local Notation xo t := (invmx (1%:M + C t *m S t) *m (b t + C t *m v t)).
Local Notation Kt t := (ulT P t *m S t).
Local Notation dt t := (ulT P t *m v t).
Local Notation uo t := (- Kt t *m xo t + dt t).
(** the combination at one time *)
Lemma pt_close : exists2 L, 1 <= L & forall (t eps : Rf) C' S' b' v', 0 <= t <= T -> 0 <= eps -> eps * L <= 1 ->
  nrm (C' - C t) <= eps -> nrm (S' - S t) <= eps -> nrm (b' - b t) <= eps -> nrm (v' - v t) <= eps ->
  exists2 x, solve (1%:M + C' *m S') (b' + C' *m v') = Some x & nrm (x - xo t) <= L * eps.
Proof.
have [Cc Cb] : (forall t : Rf, 0 <= t <= T -> mcont C t) /\ (forall t : Rf, 0 <= t <= T -> mcont b t) by case: fsol => _ _ c _; split=> t /c [].
have [Sc Vc] : (forall t : Rf, 0 <= t <= T -> mcont S t) /\ (forall t : Rf, 0 <= t <= T -> mcont v t) by case: sol => _ _ c _; split=> t /c [].
have [mC mC0 HC] := bounded_on T0 Cc; have [mb mb0 Hb] := bounded_on T0 Cb.
have [mS mS0 HS] := bounded_on T0 Sc; have [mv mv0 Hv] := bounded_on T0 Vc.
have Gc (t : Rf) : 0 <= t <= T -> mcont (fun t => invmx (1%:M + C t *m S t)) t.
  move=> ht; have [_ _ u] := un ht; apply: (mcont_invmx (M := fun t => 1%:M + C t *m S t)) => //.
  by apply: mcont_add; [exact: mcont_const | apply: mcont_mul; [exact: Cc | exact: Sc]].
have [mG mG0 HG] := bounded_on T0 Gc.
pose k := 1 + (mC + 1) + mv; have k1 : 1 <= k by rewrite /k -addrA ler_addl !addr_ge0 ?ler01.
have k0 : 0 <= k := le_trans ler01 k1.
pose L := 1 + 2%:R * (mC + 1 + mS) * mG + 2%:R * mG ^+ 2 * (mC + 1 + mS) * (mb + mC * mv + 1) + mG.
have L1 : 1 <= L by rewrite /L -!addrA ler_addl !addr_ge0 ?mulr_ge0 ?exprn_ge0 ?addr_ge0 ?mulr_ge0 ?ler01 ?ler0n.
have L0 : 0 <= L := le_trans ler01 L1.
exists (k * L) => [|t eps C' S' b' v' ht e0 el hC hS hb hv]; first by rewrite -[1]mulr1 ler_pmul ?ler01.
have e1 : eps <= 1 by apply: le_trans el; rewrite ler_pemulr // -[1]mulr1 ler_pmul ?ler01.
have [_ _ u] := un ht.
have EE : eps <= eps * k by rewrite ler_pemulr.
have hbv : nrm (b t + C t *m v t) <= mb + mC * mv.
  apply: le_trans (nrmD _ _) _; apply: ler_add; first exact: Hb.
  by apply: le_trans (nrm_mul _ _) _; apply: ler_pmul; rewrite ?nrm_ge0 ?HC ?Hv.
have hC' : nrm C' <= mC + 1.
  rewrite -[C'](subrK (C t)) addrC; apply: le_trans (nrmD _ _) _; apply: ler_add; first exact: HC.
  exact: le_trans e1.
have dbv : nrm (b' + C' *m v' - (b t + C t *m v t)) <= eps * k.
  have -> : b' + C' *m v' - (b t + C t *m v t) = (b' - b t) + C' *m (v' - v t) + (C' - C t) *m v t.
    by rewrite mulmxBr mulmxBl; abelr.
  rewrite /k 2!mulrDr mulr1; apply: le_trans (nrmD _ _) _; apply: ler_add.
    apply: le_trans (nrmD _ _) _; apply: ler_add => //; apply: le_trans (nrm_mul _ _) _; rewrite mulrC.
    by apply: ler_pmul; rewrite ?nrm_ge0.
  by apply: le_trans (nrm_mul _ _) _; apply: ler_pmul; rewrite ?nrm_ge0 ?Hv.
have [|x e hx] := solve_close u (HC t ht) (HS t ht) hbv (HG t ht) (mulr_ge0 e0 k0) _ (le_trans hC EE) (le_trans hS EE) dbv.
  by rewrite -/L -mulrA.
by exists x => //; apply: le_trans hx _; rewrite -/L mulrA [L * eps]mulrC -mulrA mulrC [L * k]mulrC.
Qed.
(** one block: all times of the block *)
Lemma blk_close : exists2 L, 1 <= L & forall (M : nat) (ts : nat -> Rf) eps Ks ds Ss vs es, 0 <= eps -> eps * L <= 1 ->
  [/\ size Ks = M, size ds = M, size Ss = M.+1 & size vs = M.+1] -> size es = M.+1 -> (forall i, (i <= M)%N -> 0 <= ts i <= T) ->
  (forall i, (i < M)%N -> nrm (nth 0 Ks i - Kt (ts i)) <= eps /\ nrm (nth 0 ds i - dt (ts i)) <= eps) ->
  (forall i, (i <= M)%N -> nrm (nth 0 Ss i - S (ts i)) <= eps /\ nrm (nth 0 vs i - v (ts i)) <= eps) ->
  (forall i, (i <= M)%N -> nrm ((nth (0, 0, 0) es i).1.2 - b (ts i)) <= eps /\ nrm ((nth (0, 0, 0) es i).2 - C (ts i)) <= eps) ->
  exists us xs, [/\ combineForwardBackward Ks ds Ss vs es = Some (us, xs), size us = M /\ size xs = M.+1,
    forall i, (i <= M)%N -> nrm (nth 0 xs i - xo (ts i)) <= L * eps & forall i, (i < M)%N -> nrm (nth 0 us i - uo (ts i)) <= L * eps].
Proof.
have [L L1 HL] := pt_close; have L0 : 0 <= L := le_trans ler01 L1.
have [Cc Cb] : (forall t : Rf, 0 <= t <= T -> mcont C t) /\ (forall t : Rf, 0 <= t <= T -> mcont b t) by case: fsol => _ _ c _; split=> t /c [].
have [Sc Vc] : (forall t : Rf, 0 <= t <= T -> mcont S t) /\ (forall t : Rf, 0 <= t <= T -> mcont v t) by case: sol => _ _ c _; split=> t /c [].
have xc (t : Rf) : 0 <= t <= T -> mcont (fun t => xo t) t.
  move=> ht; have [_ _ u] := un ht; apply: mcont_mul.
    apply: (mcont_invmx (M := fun t => 1%:M + C t *m S t)) => //.
    by apply: mcont_add; [exact: mcont_const | apply: mcont_mul; [exact: Cc | exact: Sc]].
  by apply: mcont_add; [exact: Cb | apply: mcont_mul; [exact: Cc | exact: Vc]].
have [mx mx0 Hx] := bounded_on T0 xc; have [mS mS0 HS] := bounded_on T0 Sc; have [G G0 HG] := lip_bounded T0 (ul_lip T0 wP lP).
pose BK := G * mS + 1; have BK0 : 0 <= BK by rewrite addr_ge0 ?mulr_ge0 ?ler01.
pose L2 := BK * L + (mx + 1); have L20 : 0 <= L2 by apply: addr_ge0; [exact: mulr_ge0 | exact: addr_ge0 mx0 ler01].
exists (L + L2) => [|M ts eps Ks ds Ss vs es e0 el [sK sd sS sv] se ht hK hS he]; first by rewrite -[1]addr0 ler_add.
have ll : L <= L + L2 by rewrite ler_addl.
have eL : eps * L <= 1 by apply: le_trans el; rewrite ler_wpmul2l.
have e1 : eps <= 1 by apply: le_trans eL; rewrite ler_pemulr.
pose x i := odflt 0 (solve (1%:M + (nth (0, 0, 0) es i).2 *m nth 0 Ss i) ((nth (0, 0, 0) es i).1.2 + (nth (0, 0, 0) es i).2 *m nth 0 vs i)).
have Hxi i : (i <= M)%N -> solve (1%:M + (nth (0, 0, 0) es i).2 *m nth 0 Ss i) ((nth (0, 0, 0) es i).1.2 + (nth (0, 0, 0) es i).2 *m nth 0 vs i) = Some (x i) /\ nrm (x i - xo (ts i)) <= L * eps.
  move=> iM; have [h1 h2] := he i iM; have [h3 h4] := hS i iM.
  by have [y E hy] := HL _ _ _ _ _ _ (ht i iM) e0 eL h2 h3 h1 h4; rewrite /x E.
exists [seq - nth 0 Ks j *m x j + nth 0 ds j | j <- iota 0 M], [seq x j | j <- iota 0 M.+1].
split; last 1 first.
- move=> i iM; rewrite (nth_map 0%N) ?size_iota // nth_iota // add0n; have [k1 k2] := hK i iM.
  have hti := ht i (ltnW iM).
  have hB : nrm (nth 0 Ks i) <= BK.
    rewrite -[nth 0 Ks i](subrK (Kt (ts i))) addrC; apply: le_trans (nrmD _ _) _; apply: ler_add.
      by apply: le_trans (nrm_mul _ _) _; apply: ler_pmul; rewrite ?nrm_ge0 ?HG ?HS.
    exact: le_trans e1.
  apply: le_trans (u_gap_le _ hB (Hx _ hti) k1 k2) _; have [_ hx] := Hxi i (ltnW iM).
  rewrite -nrmN opprB [(L + L2) * eps]mulrDl; apply: ler_paddl; first by rewrite mulr_ge0.
  rewrite [L2 * eps]mulrDl -[BK * L * eps]mulrA [eps * _]mulrC; apply: ler_add; last exact: lexx.
  exact: ler_wpmul2l.
- have eK := mkseq_nth 0 Ks; have ed := mkseq_nth 0 ds; have eS := mkseq_nth 0 Ss; have ev := mkseq_nth 0 vs; have ee := mkseq_nth (0, 0, 0) es.
  rewrite sK in eK; rewrite sd in ed; rewrite sS in eS; rewrite sv in ev; rewrite se in ee.
  rewrite -{1}eK -{1}ed -{1}eS -{1}ev -{1}ee /mkseq.
  have E j : nth (0, 0, 0) es j = ((nth (0, 0, 0) es j).1.1, (nth (0, 0, 0) es j).1.2, (nth (0, 0, 0) es j).2) by rewrite -!surjective_pairing.
  by rewrite (eq_map E); apply: TvarFb.combine_iota => j /andP [_ jM]; exact: (Hxi j jM).1.
- by rewrite !size_map !size_iota.
move=> i iM; rewrite (nth_map 0%N) ?size_iota ?ltnS // nth_iota ?ltnS // add0n.
by apply: le_trans (Hxi i iM).2 _; rewrite ler_wpmul2r.
Qed.
Variables (fw fw' : bool) (B : nat).
Hypothesis B0 : (0 < B)%N.
Local Notation tau := (T / B%:R).
Local Notation at_ k := (k%:R * tau).
Local Notation e0 := (Elem 0 0 0 0 0 : elem Rf n).
Local Notation tg := (tg P B).
Definition fblk Ks ds Ss vs M (D : Rf) k (e : elem Rf n) : Prop :=
  exists l us xs, [/\ abc_loop P (tau / M%:R) (at_ k) M 0 (eA e, eb e, eC e) = Some l,
    combineForwardBackward (slice (k * M) ((k + 1) * M) Ks) (slice (k * M) ((k + 1) * M) ds) (slice (k * M) ((k + 1) * M + 1) Ss) (slice (k * M) ((k + 1) * M + 1) vs) l = Some (us, xs),
    size us = M /\ size xs = M.+1,
    forall i, (i <= M)%N -> nrm (nth 0 xs i - xo (tg M (k * M + i))) <= D &
    forall i, (i < M)%N -> nrm (nth 0 us i - uo (tg M (k * M + i))) <= D].
Lemma tfb_loop Ks ds Ss vs M D k (es : seq (elem Rf n)) : (0 < M)%N -> (k + (size es).-1 = B)%N -> (1 < size es)%N ->
  (forall r, (r < (size es).-1)%N -> fblk Ks ds Ss vs M D (k + r) (nth e0 es r)) ->
  exists us xs, [/\ par_fb_loop P (tau / M%:R) 0 M k Ks ds Ss vs es = Some (us, xs),
    size us = ((size es).-1 * M)%N, size xs = ((size es).-1 * M).+1,
    forall i, (i <= (size es).-1 * M)%N -> nrm (nth 0 xs i - xo (tg M (k * M + i))) <= D &
    forall i, (i < (size es).-1 * M)%N -> nrm (nth 0 us i - uo (tg M (k * M + i))) <= D].
Proof.
move=> M0; elim: es k => [|e [|e' es] IH] k // sz _ H.
have := H 0%N isT; rewrite addn0 [nth _ _ _]/= => -[l [bus [bxs [El Ec [su sx] Hx Hu]]]].
have tk : 0 + k%:R * M%:R * (tau / M%:R) = at_ k by rewrite add0r -mulrA [M%:R * _]mulrC divfK // pnatr_eq0 -lt0n.
have step : par_fb_loop P (tau / M%:R) 0 M k Ks ds Ss vs (e :: e' :: es) =
  if es is [::] then if bxs is x :: t then Some (bus, rcons (take (size bus) bxs) (last x t)) else None
  else let? '(us, xs) := par_fb_loop P (tau / M%:R) 0 M k.+1 Ks ds Ss vs (e' :: es) in Some (bus ++ us, take (size bus) bxs ++ xs).
  by rewrite [LHS]/= tk El obindS Ec obindS.
rewrite step; case: es sz IH H step => [|e2 es] sz IH H step.
  case: bxs sx Hx {Ec step} => // x t [sx] Hx; exists bus, (x :: t); rewrite su last_take // mul1n; split=> //=; by rewrite sx.
have [|//||us [xs [E su' sx' Hx' Hu']]] := IH k.+1; first by rewrite addSnnS.
  by move=> r lr; rewrite addSnnS; exact: (H r.+1).
have tk' : size (take (size bus) bxs) = M by rewrite size_take sx su ltnSn.
exists (bus ++ us), (take (size bus) bxs ++ xs); rewrite E obindS; split=> //.
- by rewrite size_cat su su' /= mulSn.
- by rewrite size_cat tk' sx' /= mulSn addnS.
- move=> i; rewrite [(size _).-1]/= mulSn nth_cat tk' => le; case: ltnP => h.
    by rewrite su nth_take //; apply: Hx; exact: ltnW.
  have -> : (k * M + i = k.+1 * M + (i - M))%N by nia.
  by apply: Hx'; rewrite [(size _).-1]/=; lia.
move=> i; rewrite [(size _).-1]/= mulSn nth_cat su => le; case: ltnP => h; first exact: Hu.
have -> : (k * M + i = k.+1 * M + (i - M))%N by nia.
by apply: Hu'; rewrite [(size _).-1]/=; lia.
Qed.
Theorem tfb_nrm : exists D : Rf, 0 <= D /\ forall M, (0 < M)%N -> D <= M%:R -> exists Ks ds Ss vs us xs,
  [/\ clqt_parBackwardPass P B M None None fw = Some (Ks, ds, Ss, vs), clqt_parFwdBwdPass P x0 Ks ds Ss vs B M None None fw' = Some (us, xs),
      size us = (B * M)%N /\ size xs = (B * M).+1,
      forall i, (i <= B * M)%N -> nrm (nth 0 xs i - xo (tg M i)) <= D / M%:R &
      forall i, (i < B * M)%N -> nrm (nth 0 us i - uo (tg M i)) <= D / M%:R].
Proof.
have pC (t : Rf) : 0 <= t <= T -> psd (C t) by case/un.
have [g gok] := fin_choice e0 (fun k kB => fblock_ex T0 cw lP fsol pC fw' B0 kB).
have [D1 D10 H1] : exists2 D, 0 <= D & forall k, (k < B)%N -> forall M, (0 < M)%N -> D <= M%:R ->
    exists2 g', block_elem P (tau / M%:R) 0 M fw' k = Some g' & ed5 g' (g k) <= D / M%:R.
  apply: fin_unif => [k L L' le H M M0 LM|k kB]; last by have [_ _] := gok k kB.
  have [g' E h] := H M M0 (le_trans le LM); exists g' => //; apply: le_trans h _.
  by rewrite ler_wpmul2r // invr_ge0 ler0n.
have [L L0 HL] := FbConvD.scan_stablef (eyr_comb T0 x0 B0 gok).
have [D2 D20 H2] := abc_unif T0 cw lP fsol B0 (mulr_ge0 (ler0n _ 3) (mulr_ge0 L0 D10)).
have [DK [DK0 HK]] := par_nrm T0 cw lP sol fw B0.
have [Lc Lc1 HLc] := blk_close; have Lc0 : 0 <= Lc := le_trans ler01 Lc1.
have q1 : 0 <= D2 + DK by rewrite addr_ge0.
have q2 : 0 <= Lc * (D2 + DK) by rewrite mulr_ge0.
have q3 : 0 <= L * D1 by rewrite mulr_ge0.
pose D := D1 + (D2 + (DK + (L * D1 + Lc * (D2 + DK)))).
exists D; split=> [|M M0 DM]; first by rewrite !addr_ge0.
have Mp : 0 < M%:R :> Rf by rewrite ltr0n.
have Mi : 0 <= M%:R^-1 :> Rf by rewrite invr_ge0 ltW.
have n1 : D1 <= M%:R by apply: le_trans DM; rewrite ler_addl !addr_ge0.
have n2 : D2 <= M%:R by apply: le_trans DM; rewrite /D addrCA ler_addl !addr_ge0.
have n5 : DK <= M%:R by apply: le_trans DM; rewrite /D [D2 + _]addrCA addrCA ler_addl !addr_ge0.
have n3 : L * D1 <= M%:R by apply: le_trans DM; rewrite /D [DK + _]addrCA [D2 + _]addrCA addrCA ler_addl !addr_ge0.
have n4 : Lc * (D2 + DK) <= M%:R by apply: le_trans DM; rewrite /D !addrA ler_addr !addr_ge0.
have [Ks [ds [Ss [vs [Eb [sK sd sS sv] HS HKd]]]]] := HK M M0 n5.
have [es Ee [se He]] := @omap_seq_conv _ _ e0 (block_elem P (tau / M%:R) 0 M fw') (iota 0 B) (fun k e => ed5 e (g k) <= D1 / M%:R) 0%N (fun i iB => 
  ltac:(rewrite size_iota in iB; rewrite nth_iota // add0n; exact: (H1 i iB M M0 n1))).
rewrite size_iota in se He.
pose fs := Elem 0 x0 0 0 0 :: es; have sf : size fs = B.+1 by rewrite /= se.
have [|||||r [Er [sr Hr]]] := HL (D1 / M%:R) fs.
- by rewrite mulr_ge0.
- by rewrite mulrAC ler_pdivr_mulr // mul1r mulrC.
- by [].
- exact: sf.
- move=> i x; case: (ltnP i (size fs)) => iB; last by rewrite nthe_none.
  rewrite (nthe e0) // => -[<-]; rewrite sf in iB; rewrite eyr1; case: i iB => [|i] iB.
    by rewrite /= -[FbConvD.fd _ _]/(ed5 _ _) -ed5_pack subrr nrm0 mulr_ge0.
  by have iB' : (i < B)%N := iB; rewrite /= iB'; have := He i iB'; rewrite nth_iota.
have blkH k : (k < B)%N -> fblk Ks ds Ss vs M (Lc * ((D2 + DK) / M%:R)) k (nth e0 r k).
  move=> kB; have kr : (k < size r)%N by rewrite sr ltnS ltnW.
  have hr : ed5 (nth e0 r k) (eyr x0 B g 0 k.+1) <= L * (D1 / M%:R) := Hr k _ (nthe e0 kr); set f := nth e0 r k in hr *.
  have [vA vC vb] := eyr_value T0 fsol B0 gok (ltnW kB).
  have [|l El [sl Hl]] := H2 k kB M M0 n2 (eA f) (eb f) (eC f).
    have := edA (ed5_ed hr); have := edC (ed5_ed hr); have := ed5_b hr; rewrite vA vC vb subr0 => h1 h2 h3.
    have e3 : 3%:R * (L * D1) / M%:R = L * (D1 / M%:R) + L * (D1 / M%:R) + L * (D1 / M%:R) by rewrite -[3%N]/(1 + 1 + 1)%N !natrD !mulrDl !mul1r !mulrA.
    by rewrite e3; apply: ler_add => //; exact: ler_add.
  have kN : ((k + 1) * M - k * M = M)%N by rewrite mulnDl mul1n addKn.
  have kN1 : ((k + 1) * M + 1 - k * M = M.+1)%N by rewrite mulnDl mul1n -addnA addKn addn1.
  have kle : ((k + 1) * M <= B * M)%N by rewrite leq_mul2r addn1 kB orbT.
  have kle' i : (i <= M)%N -> (k * M + i <= B * M)%N by move=> h; apply: leq_trans kle; rewrite mulnDl mul1n leq_add2l.
  have klt i : (i < M)%N -> (k * M + i < B * M)%N by move=> h; apply: leq_trans kle; rewrite mulnDl mul1n ltn_add2l.
  have d1 : D2 / M%:R <= (D2 + DK) / M%:R by rewrite ler_wpmul2r // ler_addl.
  have d2 : DK / M%:R <= (D2 + DK) / M%:R by rewrite ler_wpmul2r // ler_addr.
  have [||||||||us [xs [Ec su Hx Hu]]] := HLc M (fun i => tg M (k * M + i)) ((D2 + DK) / M%:R)
    (slice (k * M) ((k + 1) * M) Ks) (slice (k * M) ((k + 1) * M) ds) (slice (k * M) ((k + 1) * M + 1) Ss) (slice (k * M) ((k + 1) * M + 1) vs) l.
  - by rewrite mulr_ge0.
  - by rewrite mulrAC ler_pdivr_mulr // mul1r mulrC.
  - by rewrite !slice_size ?sK ?sd ?sS ?sv ?kN ?kN1 // addn1 ltnS.
  - exact: sl.
  - by move=> i iN; apply: grid_ok => //; [rewrite muln_gt0 B0 | exact: kle'].
  - by move=> i iN; rewrite !nth_slice ?kN //; have [h1 h2] := HKd _ (klt i iN); split; apply: le_trans d2.
  - by move=> i iN; rewrite !nth_slice ?kN1 //; have [h1 h2] := HS _ (kle' i iN); split; apply: le_trans d2.
  - by move=> i iN; have [h1 h2] := Hl i iN; rewrite -tg_block //; split; apply: le_trans d1.
  by exists l, us, xs.
have [|||us [xs [E su sx Hx Hu]]] := @tfb_loop Ks ds Ss vs M (Lc * ((D2 + DK) / M%:R)) 0 r M0.
- by rewrite sr.
- by rewrite sr.
- by move=> k; rewrite sr add0n; exact: blkH.
rewrite sr [B.+1.-1]/= in su sx Hx Hu.
have dtE : T / M%:R / B%:R = tau / M%:R by rewrite mulrAC.
have le : Lc * ((D2 + DK) / M%:R) <= D / M%:R.
  by rewrite mulrA ler_wpmul2r // /D !addrA ler_addr !addr_ge0.
exists Ks, ds, Ss, vs, us, xs; split=> //.
- rewrite /clqt_parFwdBwdPass /dt_or /div_nats !gtn_eqF // dtE !obindS /clqt_parFwdBwdPass_init [or_else _ _]/= Ee !obindS Er obindS.
  by rewrite /clqt_parFwdBwdPass_extract sr sK sS [B.+1.-1]/= [(B * M).+1.-1]/= eqxx /=.
- by move=> i hi; have := Hx i hi; rewrite mul0n add0n => h; exact: le_trans h le.
by move=> i hi; have := Hu i hi; rewrite mul0n add0n => h; exact: le_trans h le.
Qed.
End Fb.

Section Main.
Variables n m p pT : nat.
Variable P : clqt Rf n m p pT.
Lemma par_fb_optimal : 0 <= kT P -> convex_weights P -> lipschitz_data P -> forall x0, exists x u, optimal_tracking P x u x0 /\
  forall forward forward' blocks, (0 < blocks)%N -> exists (D : Rf) N0, forall steps, (N0 <= steps)%N -> (0 < steps)%N ->
  let t i := i%:R * (kT P / (blocks * steps)%:R) in exists Ks ds Ss vs us xs,
  [/\ clqt_parBackwardPass P blocks steps None None forward = Some (Ks, ds, Ss, vs),
      clqt_parFwdBwdPass P x0 Ks ds Ss vs blocks steps None None forward' = Some (us, xs),
      size us = (blocks * steps)%N /\ size xs = (blocks * steps).+1,
      forall i, (i <= blocks * steps)%N -> within (D / steps%:R) (nth 0 xs i) (x (t i)) &
      forall i, (i < blocks * steps)%N -> within (D / steps%:R) (nth 0 us i) (u (t i))].
Proof.
move=> T0 cw lP x0.
have [S [v [b [C [sol fsol un [fx [c [sx e0 opt]]]]]]]] := exist_all T0 cw lP x0.
set x : R -> 'cV[Rf]_n := fun t : R => _ in fx sx e0 opt; set u := fun t : R => _ in fx sx opt.
exists x, u; split=> [|fw fw' B B0]; first by exists c.
have [D [D0 H]] := tfb_nrm T0 cw lP sol fsol un fw fw' B0; have [N0 HN0] := big_nat_above D.
exists D, N0 => M N0M M0 t; have [Ks [ds [Ss [vs [us [xs [E1 E2 sz Hx Hu]]]]]]] := H M M0 (HN0 M N0M).
by exists Ks, ds, Ss, vs, us, xs; split=> // i iM; apply: within_of; [exact: Hx | exact: Hu].
Qed.
End Main.
