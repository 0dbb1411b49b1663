(** The parallel forward-backward pass converges to the optimal trajectory with order four. *)
From Coq Require Import Reals Lra.
From mathcomp Require Import all_ssreflect all_algebra zify.
From Verif Require Import RealF MxBase LqtModel LqtCore ScanModel ScanSeg ClqtFwd2 ClqtModel ClqtSpec ClqtPack Rk4Model Rk4Spec ClqrModel ClqrSpec ClqrExact ClqrPar ClqrElem RealExpSpec RealExp RealAssm ClqrOptSpec ClqrOpt RealDisc RkConvA RkConvSpec RkQuadAlg RkConvB RkConvC RkConv RkConvP ParAlg ParConvA ParConvB ParConvC FwdConvA FwdConv FbAlg FbConvA FbConvB FbConvC FbConvD.
Import Order.TTheory GRing.Theory Num.Theory.
Set Implicit Arguments. Unset Strict Implicit. Unset Printing Implicit Defensive.
Local Open Scope ring_scope.
Delimit Scope R_scope with Re.

Section Gen.
Variable n : nat.
Lemma combine_first (e f g : elem Rf n) (x0 : 'cV[Rf]_n) : combine_abcej e f = Some g -> eb f = 0 -> eeta f = 0 ->
  combine_abcej (Elem 0 (eA e *m x0) (eC e) 0 0) f = Some (Elem 0 (eA g *m x0) (eC g) 0 0).
Proof.
move=> E fb ft; have [u v [gA gC _]] := combine_inv E.
have uL : cL (Elem 0 (eA e *m x0) (eC e) 0 0) f \in unitmx by exact: u.
have uR : cR (Elem 0 (eA e *m x0) (eC e) 0 0) f \in unitmx by exact: v.
have [h Eh [hA hC hJ]] := combine_units uL uR; have [hb ht] := combine_inv' Eh.
rewrite Eh; case: h {Eh} hA hC hJ hb ht => A b C eta J /= -> -> -> -> ->; congr (Some (Elem _ _ _ _ _)).
- by rewrite /cA /= !mulmx0.
- by rewrite /cb /= fb ft mulmx0 !addr0 gA /cA -!mulmxA.
- by rewrite gC.
- by rewrite /ct /= trmx0 mul0mx addr0.
by rewrite /cJ /= trmx0 mul0mx addr0.
Qed.
Lemma last_take (X : Type) (N : nat) (x : X) t : size t = N -> rcons (take N (x :: t)) (last x t) = x :: t.
Proof. by move=> <- {N}; elim: t x => [|y t IH] x //; rewrite [size _]/= [take _ _]/= rcons_cons [last _ _]/= IH. Qed.
End Gen.

Section Fb.
Variables n m : nat.
Variable q : clqr Rf n m.
Hypotheses (sU : symm (qU q)) (pU : pd (qU q)) (sX : symm (qX q)) (pX : psd (qX q)) (sT : symm (qXT q)) (pT : psd (qXT q)).
Local Notation T := (qT q).
Hypothesis T0 : 0 <= T.
Local Notation ulT := (ulT q).
Local Notation As := (As expmR q ulT).
Local Notation Cs := (Cs expmR q ulT).
Local Notation VA := (val_at q).
Local Notation gain := (gain q).
Variable x0 : 'cV[Rf]_n.
Local Notation xo := (xo q 0 x0). Local Notation uo := (uo q 0 x0).
Variable B : nat.
Hypothesis B0 : (0 < B)%N.
Local Notation tau := (T / B%:R).
Let t0 : 0 <= tau. Proof. by rewrite divr_ge0 ?ler0n. Qed.
Let tpos i : 0 <= i%:R * tau. Proof. by rewrite mulr_ge0 ?ler0n. Qed.
(** ** the exact elements *)
Definition exg (i j : nat) : elem Rf n :=
  if i is 0%N then Elem 0 (As (j.-1%:R * tau) *m x0) (Cs (j.-1%:R * tau)) 0 0 else exact_elem expmR q ulT ((j - i)%:R * tau).
Lemma exact_comb (a b : Rf) : 0 <= a -> 0 <= b -> combine_abcej (exact_elem expmR q ulT a) (exact_elem expmR q ulT b) = Some (exact_elem expmR q ulT (a + b)).
Proof.
move=> a0 b0; have hult := ultS sU pU; have hexp := expmR_group (qham q (qL q *m ulT)).
by apply: (combine_exact hult hexp expmR_natural sU sX pU); apply: goodt => //; rewrite addr_ge0.
Qed.
Lemma exg_comb i j k : (i < j)%N -> (j < k)%N -> (k <= B.+1)%N -> combine_abcej (exg i j) (exg j k) = Some (exg i k).
Proof.
move=> ij jk _; have j0 : (0 < j)%N by exact: leq_ltn_trans ij.
have -> : exg j k = exact_elem expmR q ulT ((k - j)%:R * tau) by case: (j) j0.
case: i ij => [|i] ij; last first.
  have tE : (k - i.+1)%:R * tau = (j - i.+1)%:R * tau + (k - j)%:R * tau by rewrite -mulrDl -natrD; congr (_%:R * _); lia.
  by rewrite /exg tE; exact: exact_comb.
have kE : k.-1%:R * tau = j.-1%:R * tau + (k - j)%:R * tau by rewrite -mulrDl -natrD; congr (_%:R * _); lia.
by rewrite /exg kE; exact: (combine_first x0 (exact_comb (tpos j.-1) (tpos (k - j)))).
Qed.
(** ** one block *)
Lemma tblock N k i : (0 < N)%N -> k%:R * tau + i%:R * (tau / N%:R) = (k * N + i)%:R * (T / (B * N)%:R).
Proof.
move=> N0; have [nB nN] : B%:R != 0 :> Rf /\ N%:R != 0 :> Rf by rewrite !pnatr_eq0 -!lt0n.
have -> : T / (B * N)%:R = tau / N%:R by rewrite natrM invfM mulrA.
rewrite natrD mulrDl natrM; congr (_ + _); rewrite -mulrA; congr (_ * _).
by rewrite [RHS]mulrC divfK.
Qed.
Lemma fwd_unif (E0 : Rf) : 0 <= E0 -> exists2 D, 0 <= D & forall k, (k < B)%N -> forall N, (0 < N)%N -> D <= N%:R ->
  forall e, nrm (yel e - ys q x0 (k%:R * tau)) <= E0 / N%:R ^+ 4 ->
  exists2 l, qabc_loop q (tau / N%:R) N e = Some l & size l = N.+1 /\
  forall i, (i <= N)%N -> nrm ((nth (0, 0, 0) l i).1.2 - As ((k * N + i)%:R * (T / (B * N)%:R)) *m x0) <= D / N%:R ^+ 4 /\
    nrm ((nth (0, 0, 0) l i).2 - Cs ((k * N + i)%:R * (T / (B * N)%:R))) <= D / N%:R ^+ 4.
Proof.
move=> E00; apply: fin_unif => [k L L' le H N N0 LN e he|k kB].
  have [l E [sl Hl]] := H N N0 (le_trans le LN) e he; exists l => //; split=> // i iN; have [h1 h2] := Hl i iN.
  by split; [apply: le_trans h1 _ | apply: le_trans h2 _]; rewrite ler_wpmul2r // invr_ge0 exprn_ge0 ?ler0n.
have [D D0 H] := @fwd_from n m q sU pU sX pX x0 (k%:R * tau) tau E0 (tpos k) t0 E00.
exists D => N N0 DN e he; have [l E [sl Hl]] := H N N0 DN e he; exists l => //; split=> // i iN.
by rewrite -tblock //; exact: Hl.
Qed.
Definition blk (Ks : seq 'M[Rf]_(m, n)) (Ss : seq 'M[Rf]_n) N (D : Rf) k (e : elem Rf n) : Prop :=
  exists l us xs, [/\ clqr_seqFwdBwdPass q 0 N (Some (tau / N%:R)) (Some (eA e)) (Some (eb e)) (Some (eC e)) Rk4 = Some l,
    qcombineForwardBackward (slice (k * N) ((k + 1) * N) Ks) (slice (k * N) ((k + 1) * N + 1) Ss) l = Some (us, xs),
    size us = N /\ size xs = N.+1,
    forall i, (i <= N)%N -> nrm (nth 0 xs i - xo ((k * N + i)%:R * (T / (B * N)%:R))%R) <= D &
    forall i, (i < N)%N -> nrm (nth 0 us i - uo ((k * N + i)%:R * (T / (B * N)%:R))%R) <= D].
Lemma fb_loop Ks Ss N D k (es : seq (elem Rf n)) : (0 < N)%N -> (k + (size es).-1 = B)%N -> (1 < size es)%N ->
  (forall r, (r < (size es).-1)%N -> blk Ks Ss N D (k + r) (nth (Elem 0 0 0 0 0) es r)) ->
  exists us xs, [/\ qpar_fb_loop q (tau / N%:R) Rk4 N k Ks Ss es = Some (us, xs),
    size us = ((size es).-1 * N)%N, size xs = ((size es).-1 * N).+1,
    forall i, (i <= (size es).-1 * N)%N -> nrm (nth 0 xs i - xo ((k * N + i)%:R * (T / (B * N)%:R))%R) <= D &
    forall i, (i < (size es).-1 * N)%N -> nrm (nth 0 us i - uo ((k * N + i)%:R * (T / (B * N)%:R))%R) <= D].
Proof.
move=> N0; elim: es k => [|e [|e' es] IH] k // sz _ H.
have := H 0%N isT; rewrite addn0 [nth _ _ _]/= => -[l [bus [bxs [El Ec [su sx] Hx Hu]]]].
have step : qpar_fb_loop q (tau / N%:R) Rk4 N k Ks Ss (e :: e' :: es) =
  if es is [::] then if bxs is x :: t then Some (bus, rcons (take (size bus) bxs) (last x t)) else None
  else let? '(us, xs) := qpar_fb_loop q (tau / N%:R) Rk4 N k.+1 Ks Ss (e' :: es) in Some (bus ++ us, take (size bus) bxs ++ xs).
  by rewrite [LHS]/= El obindS Ec obindS.
rewrite step; case: es sz IH H step => [|e2 es] sz IH H step.
  case: bxs sx Hx {Ec step} => // x t [sx] Hx; exists bus, (x :: t); rewrite su last_take // mul1n; split=> //=; by rewrite sx.
have [|//||us [xs [E su' sx' Hx' Hu']]] := IH k.+1; first by rewrite addSnnS.
  by move=> r lr; rewrite addSnnS; exact: (H r.+1).
have tk : size (take (size bus) bxs) = N by rewrite size_take sx su ltnSn.
exists (bus ++ us), (take (size bus) bxs ++ xs); rewrite E obindS; split=> //.
- by rewrite size_cat su su' /= mulSn.
- by rewrite size_cat tk sx' /= mulSn addnS.
- move=> i; rewrite [(size _).-1]/= mulSn nth_cat tk => le; case: ltnP => h.
    by rewrite su nth_take //; apply: Hx; exact: ltnW.
  have -> : (k * N + i = k.+1 * N + (i - N))%N by nia.
  by apply: Hx'; rewrite [(size _).-1]/=; lia.
move=> i; rewrite [(size _).-1]/= mulSn nth_cat su => le; case: ltnP => h; first exact: Hu.
have -> : (k * N + i = k.+1 * N + (i - N))%N by nia.
by apply: Hu'; rewrite [(size _).-1]/=; lia.
Qed.
Theorem par_fb_converges DK : 0 <= DK -> exists2 D, 0 <= D & forall N Ks Ss, (0 < N)%N -> D <= N%:R -> near_pass q (DK / N%:R ^+ 4) (B * N) Ks Ss ->
  exists us xs, [/\ clqr_parFwdBwdPass q x0 Ks Ss B N Rk4 Rk4 = Some (us, xs), size us = (B * N)%N /\ size xs = (B * N).+1,
    forall i, (i <= B * N)%N -> within (D / N%:R ^+ 4) (nth 0 xs i) (xo (i%:R * (T / (B * N)%:R))%R) &
    forall i, (i < B * N)%N -> within (D / N%:R ^+ 4) (nth 0 us i) (uo (i%:R * (T / (B * N)%:R))%R)].
Proof.
move=> DK0.
have [D1 D10 H1] := wblock_conv sU pU sX pX t0.
have [L L0 HL] := scan_stablef exg_comb.
have [D2 D20 H2] := fwd_unif (mulr_ge0 (ler0n Rf 2) (mulr_ge0 L0 D10)).
have [Lc Lc1 HLc] := combine_conv sU pU sX pX pT T0 x0; have Lc0 : 0 <= Lc := le_trans ler01 Lc1.
have q1 : 0 <= D2 + DK by rewrite addr_ge0.
have q2 : 0 <= Lc * (D2 + DK) by rewrite mulr_ge0.
have q3 : 0 <= L * D1 by rewrite mulr_ge0.
exists (D1 + (D2 + (L * D1 + Lc * (D2 + DK)))); first by rewrite !addr_ge0.
move=> N Ks Ss N0 big [sK sS HK HS].
have Np : 0 < N%:R :> Rf by rewrite ltr0n.
have N4 : 0 < N%:R ^+ 4 :> Rf by rewrite exprn_gt0.
have Ni : 0 <= N%:R ^- 4 :> Rf by rewrite invr_ge0 ltW.
have n1 : D1 <= N%:R by apply: le_trans big; rewrite ler_addl !addr_ge0.
have n2 : D2 <= N%:R by apply: le_trans big; rewrite addrCA ler_addl !addr_ge0.
have n3 : L * D1 <= N%:R by apply: le_trans big; rewrite [D2 + _]addrCA addrCA ler_addl !addr_ge0.
have n4 : Lc * (D2 + DK) <= N%:R by apply: le_trans big; rewrite !addrA ler_addr !addr_ge0.
have [e Ee he] := H1 N N0 n1.
pose es := Elem 0 x0 0 0 0 :: nseq B e.
have ses : size es = B.+1 by rewrite /= size_nseq.
have [|||||r [Er [sr Hr]]] := HL (D1 / N%:R ^+ 4) es.
- by rewrite mulr_ge0.
- by rewrite mulrAC [_ * L]mulrC; exact: pow4_le.
- by [].
- exact: ses.
- move=> i x; case: (ltnP i (size es)) => iB; last by rewrite nthe_none.
  rewrite (nthe (Elem 0 0 0 0 0)) // => -[<-]; rewrite ses in iB; case: i iB => [|i] iB.
    have := ys0 q x0; rewrite /ys => /eq_row_mx [h1 h2].
    by rewrite /exg /= mul0r h1 h2 /fd /ed /= !subrr !nrm0 !addr0 mulr_ge0.
  by rewrite /= nth_nseq; have -> : (i < B)%N; [exact: iB | rewrite subSnn mul1r].
have blkH k : (k < B)%N -> blk Ks Ss N (Lc * ((D2 + DK) / N%:R ^+ 4)) k (nth (Elem 0 0 0 0 0) r k).
  move=> kB; have kr : (k < size r)%N by rewrite sr ltnS ltnW.
  have hr := Hr k _ (nthe (Elem 0 0 0 0 0) kr); set f := nth _ r k in hr *.
  have [|l El [sl Hl]] := H2 k kB N N0 n2 (eA f, eb f, eC f).
    rewrite /yel /ys mky_sub nrm_mky -[X in _ <= X]mulrA -(mulrA L) mulr2n mulrDl mul1r.
    by apply: ler_add; [exact: fdb hr | exact: edC (fd_ed hr)].
  have kN : ((k + 1) * N - k * N = N)%N by rewrite mulnDl mul1n addKn.
  have kN1 : ((k + 1) * N + 1 - k * N = N.+1)%N by rewrite mulnDl mul1n -addnA addKn addn1.
  have kle : ((k + 1) * N <= B * N)%N by rewrite leq_mul2r addn1 kB orbT.
  have kle' i : (i <= N)%N -> (k * N + i <= B * N)%N by move=> h; apply: leq_trans kle; rewrite mulnDl mul1n leq_add2l.
  have klt i : (i < N)%N -> (k * N + i < B * N)%N by move=> h; apply: leq_trans kle; rewrite mulnDl mul1n ltn_add2l.
  have [|||||||||us [xs [Ec su sx Hx Hu]]] := HLc N (fun i => (k * N + i)%:R * (T / (B * N)%:R)) ((D2 + DK) / N%:R ^+ 4)
    (slice (k * N) ((k + 1) * N) Ks) (slice (k * N) ((k + 1) * N + 1) Ss) l.
  - by rewrite mulr_ge0.
  - by rewrite mulrAC [_ * Lc]mulrC; exact: pow4_le.
  - by rewrite slice_size ?sK.
  - by rewrite slice_size ?sS // addn1 ltnS.
  - exact: sl.
  - by move=> i iN; apply: grid_in => //; [rewrite muln_gt0 B0 | exact: kle'].
  - by move=> i iN; rewrite nth_slice ?kN //; apply: le_trans (HK _ (klt i iN)) _; rewrite ler_wpmul2r // ler_addr.
  - by move=> i iN; rewrite nth_slice ?kN1 //; apply: le_trans (HS _ (kle' i iN)) _; rewrite ler_wpmul2r // ler_addr.
  - by move=> i iN; have [h1 h2] := Hl i iN; split; [apply: le_trans h1 _ | apply: le_trans h2 _]; rewrite ler_wpmul2r // ler_addl.
  by exists l, us, xs; split=> //; rewrite /clqr_seqFwdBwdPass obindS.
have [|||us [xs [E su sx Hx Hu]]] := @fb_loop Ks Ss N (Lc * ((D2 + DK) / N%:R ^+ 4)) 0 r N0.
- by rewrite sr.
- by rewrite sr.
- by move=> k; rewrite sr add0n; exact: blkH.
rewrite sr [B.+1.-1]/= in su sx Hx Hu.
have dtE : T / N%:R / B%:R = tau / N%:R by rewrite mulrAC.
have le : Lc * ((D2 + DK) / N%:R ^+ 4) <= (D1 + (D2 + (L * D1 + Lc * (D2 + DK)))) / N%:R ^+ 4.
  by rewrite mulrA ler_wpmul2r // !addrA ler_addr !addr_ge0.
exists us, xs; split=> //.
- rewrite /clqr_parFwdBwdPass /clqr_parFwdBwdPass_init /div_nats !gtn_eqF // dtE !obindS Ee !obindS Er obindS.
  by rewrite /clqr_parFwdBwdPass_extract /div_nats sr sK sS [B.+1.-1]/= [(B * N).+1.-1]/= eqxx /= !gtn_eqF // dtE obindS.
- by move=> i hi; have := Hx i hi; rewrite mul0n add0n => h; apply: within_of; apply: le_trans h le.
by move=> i hi; have := Hu i hi; rewrite mul0n add0n => h; apply: within_of; apply: le_trans h le.
Qed.
End Fb.
