(** Convergence of the regulator's parallel backward pass. *)
From Coq Require Import Reals Lra.
From mathcomp Require Import all_ssreflect all_algebra zify.
From Verif Require Import RealF MxBase LqtModel LqtCore ScanModel ScanSeg ClqtFwd2 ClqtModel ClqtSpec ClqtPack Rk4Model Rk4Spec Rk4Proofs ClqrModel ClqrSpec ClqrExact ClqrPar ClqrElem RealExpSpec RealExp RealAssm ClqrOptSpec ClqrOpt RkConvA RkConvSpec RkQuadAlg RkConvB RkConvC RkConv RkConvP ParConvA ParConvB.
Import Order.TTheory GRing.Theory Num.Theory.
Set Implicit Arguments. Unset Strict Implicit. Unset Printing Implicit Defensive.
Local Open Scope ring_scope.
Delimit Scope R_scope with Re.
Local Arguments rk4_x : simpl never.

Section Par.
Variables n m : nat.
Variable q : clqr Rf n m.
Hypotheses (sU : symm (qU q)) (pU : pd (qU q)) (sX : symm (qX q)) (pX : psd (qX q)) (sT : symm (qXT q)) (pT : psd (qXT q)).
Local Notation ulT := (ulT q).
Local Notation NN := (qL q *m ulT).
Local Notation W := (val expmR q ulT (qXT q)).
Local Notation Z := ('M[Rf]_(n, n + (n + n))).
Local Notation zstep := (stp (R := Rf) (k := n) (l := n + (n + n)) (zc q) (zB q) (zb q)).
Local Notation exact_elem := (exact_elem expmR q ulT).
Lemma nrm_mkz (A C J : 'M[Rf]_n) : nrm (mkz A C J) = nrm A + (nrm C + nrm J).
Proof. by rewrite /mkz !nrm_row. Qed.
Lemma zel_dist (e f : elem Rf n) : nrm (zel e - zel f) = ed e f.
Proof. by rewrite /zel mkz_opp mkz_add nrm_mkz. Qed.
Lemma mkz_parts (z : Z) : z = mkz (zA z) (zC z) (zJ z).
Proof. by rewrite /mkz /zA /zC /zJ !hsubmxK. Qed.
Lemma zsym_dist (z w : Z) : symm (zC w) -> symm (zJ w) -> nrm (zsym z - w) <= nrm (z - w).
Proof.
move=> sC sJ; rewrite [X in zsym _ - X]mkz_parts [X in _ <= nrm (X - _)]mkz_parts [X in _ <= nrm (_ - X)]mkz_parts /zsym !mkz_opp !mkz_add !nrm_mkz.
by rewrite ler_add2l; apply: ler_add; rewrite symz_sub //; exact: nrm_symz.
Qed.
Lemma zs0 : zs q 0 = mkz 1%:M 0 0.
Proof.
have E0 : EE expmR q ulT 0 = 1%:M by exact: (EE0 (expmR_group _)).
have J0 : Js expmR q ulT 0 = 0 by exact: (val0 (expmR_group _)).
have P0 : P12 expmR q ulT 0 = 0 by rewrite /P12 E0 (scalar_mx_block n n 1) block_mxKur.
have P2 : P22 expmR q ulT 0 = 1%:M by rewrite /P22 E0 (scalar_mx_block n n 1) block_mxKdr.
by rewrite /zs /Cs /As P0 P2 J0 !mulmx0 subr0 trmx1.
Qed.
Lemma block_loop h (l : seq nat) e : exists2 e', for_ l (fun _ e => qelem_step (qbwpass_bw_ode_f q) (- h) e) e = Some e' &
  zel e' = iter (size l) (fun z => zsym (zstep h z)) (zel e).
Proof.
elim: l e => [|i l IH] e; first by exists e.
have [e1 E1 z1] := step_zel sU pU h e; have [e2 E2 z2] := IH e1.
by exists e2; [rewrite for_cons E1 | rewrite z2 z1 [size _]/= iterSr].
Qed.
Lemma block_conv (tau : Rf) : 0 <= tau -> exists2 D, 0 <= D & forall N, (0 < N)%N -> D <= N%:R ->
  exists2 e, qblock_elem q (tau / N%:R) N false = Some e & ed e (exact_elem tau) <= D / N%:R ^+ 4.
Proof.
move=> tau0.
have [D D0 H] := @rk_order4_from n (n + (n + n)) (zc q) (zB q) (zb q) (zB_lin q) (zb_bil q) (zs q) tau tau0 (zs_solves sU pU sX pX tau) 0 (lexx _).
exists D => // N N0 DN.
have [e E ze] := block_loop (tau / N%:R) (rev (iota 0 N)) (Elem 1%:M 0 0 0 0); rewrite size_rev size_iota in ze.
exists e => //; have Np : 0 < N%:R :> Rf by rewrite ltr0n.
pose xs i : Z := iter i (fun z => zsym (zstep (tau / N%:R) z)) (zel (Elem 1%:M 0 0 0 0 : elem Rf n)).
have tN : N%:R * (tau / N%:R) = tau by rewrite mulrC divfK ?lt0r_neq0.
have h0 : nrm (xs 0%N - zs q 0) <= 0 / N%:R ^+ 4 by rewrite zs0 subrr nrm0 mul0r.
have := H N N0 DN xs h0 _ N (leqnn N); rewrite -zel_dist ze tN; apply=> i iN.
have ti : 0 <= i.+1%:R * (tau / N%:R) by rewrite mulr_ge0 ?ler0n // divr_ge0 // ltW.
have [_ zCE zJE] := mkzK (As expmR q ulT (i.+1%:R * (tau / N%:R))) (Cs expmR q ulT (i.+1%:R * (tau / N%:R))) (Js expmR q ulT (i.+1%:R * (tau / N%:R))).
by apply: zsym_dist; rewrite /zs ?zCE ?zJE; [exact: Csym | exact: Jsym].
Qed.

(** ** the pass over one block from a perturbed value matrix *)
Lemma W_shift (a t : Rf) : 0 <= a -> 0 <= t -> mderiv (fun t => W (a + t)) t (- qriccati q NN (W (a + t))).
Proof.
move=> a0 t0; have at0 : 0 <= a + 1 * t by rewrite mul1r addr_ge0.
have := mderiv_aff (a := a) (c := 1) (t := t) (derivative_mderiv (@val_derivative Rf expmR n m q ulT (expmR_group _) (qXT q) (a + 1 * t) (unit_C sU pU pX pT at0))).
by rewrite scale1r mul1r; apply: mderiv_ext => s; rewrite mul1r.
Qed.
Lemma seq_from (a tau E0 : Rf) : 0 <= a -> 0 <= tau -> 0 <= E0 -> exists2 D, 0 <= D & forall N, (0 < N)%N -> D <= N%:R ->
  forall S, nrm (S - W a) <= E0 / N%:R ^+ 4 ->
  exists Ks Ss, [/\ clqr_seqBackwardPass expmR q N (Some (tau / N%:R)) (Some S) Rk4 = Some (Ks, Ss), size Ks = N, size Ss = N.+1,
    forall i, (i <= N)%N -> nrm (nth 0 Ss i - W (a + (N - i)%:R * (tau / N%:R))) <= D / N%:R ^+ 4 &
    forall i, (i < N)%N -> nth 0 Ks i = ulT *m nth 0 Ss i].
Proof.
move=> a0 tau0 E00.
have sol : solves (RkQuadAlg.f (qX q) (fun Q => (qF q)^T *m Q + Q *m qF q) (fun P Q => - (P *m NN *m Q))) (fun t => W (a + t)) 0 tau.
  have d (t : Rf) : 0 <= t -> mderiv (fun t => W (a + t)) t (RkQuadAlg.f (qX q) (fun Q => (qF q)^T *m Q + Q *m qF q) (fun P Q => - (P *m NN *m Q)) (W (a + t))).
    by move=> t0; rewrite fE; exact: W_shift.
  by split=> t /andP [h1 h2]; [exact: mderiv_cont (d t h1) | exact: d (ltW h1)].
have [D D0 H] := @rk_order4_from n n _ _ _ (B_lin q) (b_bil q) _ tau tau0 sol E0 E00.
exists D => // N N0 DN S hS; have Np : 0 < N%:R :> Rf by rewrite ltr0n.
pose xs i := iter i (fun Q => symz (@stp Rf n n (qX q) (fun Q => (qF q)^T *m Q + Q *m qF q) (fun P Q => - (P *m NN *m Q)) (tau / N%:R) Q)) S.
have hx i : (i <= N)%N -> nrm (xs i - W (a + i%:R * (tau / N%:R))) <= D / N%:R ^+ 4.
  apply: (H N N0 DN xs); first by rewrite addr0.
  move=> j jN; rewrite /xs iterS symz_sub; first exact: nrm_symz.
  by apply: W_symm => //; rewrite addr_ge0 // mulr_ge0 ?ler0n // divr_ge0 // ltW.
exists [seq ulT *m xs j | j <- rev (iota 1 N)], ([seq xs j | j <- rev (iota 1 N)] ++ [:: S]).
have nS i : (i <= N)%N -> nth 0 ([seq xs j | j <- rev (iota 1 N)] ++ [:: S]) i = xs (N - i)%N.
  move=> le; rewrite nth_cat size_map size_rev size_iota; case: (ltngtP i N) le => // [lt _|-> _]; first by rewrite (nth_rev_map 0 xs).
  by rewrite subnn.
split.
- rewrite /clqr_seqBackwardPass /qdt_or [or_else _ _]/= obindS ultS // obindS rk4_loop cats0; by [].
- by rewrite size_map size_rev size_iota.
- by rewrite size_cat size_map size_rev size_iota addn1.
- by move=> i le; rewrite nS //; apply: hx; exact: leq_subr.
by move=> i lt; rewrite nS ?(ltnW lt) // (nth_rev_map 0 (fun j => ulT *m xs j)).
Qed.

(** ** the whole pass *)
Variable B : nat.
Hypothesis B0 : (0 < B)%N.
Hypothesis T0 : 0 <= qT q.
Local Notation tau := (qT q / B%:R).
Lemma tau_ge0 : 0 <= tau. Proof. by rewrite divr_ge0 ?ler0n. Qed.
Lemma seq_unif (E0 : Rf) : 0 <= E0 -> exists2 D, 0 <= D & forall k, (k < B)%N -> forall N, (0 < N)%N -> D <= N%:R ->
  forall S, nrm (S - W ((B - k.+1)%:R * tau)) <= E0 / N%:R ^+ 4 ->
  exists Ks Ss, [/\ clqr_seqBackwardPass expmR q N (Some (tau / N%:R)) (Some S) Rk4 = Some (Ks, Ss), size Ks = N, size Ss = N.+1,
    forall i, (i <= N)%N -> nrm (nth 0 Ss i - W ((B - k.+1)%:R * tau + (N - i)%:R * (tau / N%:R))) <= D / N%:R ^+ 4 &
    forall i, (i < N)%N -> nth 0 Ks i = ulT *m nth 0 Ss i].
Proof.
move=> E00; apply: fin_unif => [k L L' le H N N0 LN S hS|k kB].
  have [Ks [Ss [E sK sS HS HK]]] := H N N0 (le_trans le LN) S hS.
  by exists Ks, Ss; split=> // i iN; apply: le_trans (HS i iN) _; rewrite ler_wpmul2r // invr_ge0 exprn_ge0 ?ler0n.
have [D D0 H] := @seq_from ((B - k.+1)%:R * tau) tau E0 (mulr_ge0 (ler0n _ _) tau_ge0) tau_ge0 E00.
by exists D.
Qed.
(** where the i-th value matrix of the whole pass lies *)
Definition tat (N i : nat) : Rf := (B * N - i)%:R * (tau / N%:R).
Lemma tat_block N k i : (0 < N)%N -> (k < B)%N -> (i <= N)%N -> (B - k.+1)%:R * tau + (N - i)%:R * (tau / N%:R) = tat N (k * N + i).
Proof.
move=> N0 kB iN; rewrite /tat (_ : (B * N - (k * N + i) = (B - k.+1) * N + (N - i))%N); last by nia.
rewrite natrD mulrDl; congr (_ + _); rewrite natrM -mulrA; congr (_ * _).
by rewrite [RHS]mulrC divfK // pnatr_eq0 -lt0n.
Qed.
Lemma extract_conv N D k (es : seq (elem Rf n)) : (0 < N)%N -> (k + size es = B)%N ->
  (forall r, (r < size es)%N -> exists Ks Ss, [/\ clqr_seqBackwardPass expmR q N (Some (tau / N%:R)) (Some (eJ (nth (Elem 0 0 0 0 0) es r))) Rk4 = Some (Ks, Ss), size Ks = N, size Ss = N.+1,
    forall i, (i <= N)%N -> nrm (nth 0 Ss i - W ((B - (k + r).+1)%:R * tau + (N - i)%:R * (tau / N%:R))) <= D &
    forall i, (i < N)%N -> nth 0 Ks i = ulT *m nth 0 Ss i]) ->
  exists Ks Ss, [/\ qpar_extract_loop expmR q (tau / N%:R) N Rk4 es = Some (Ks, Ss), size Ks = (size es * N)%N, size Ss = (size es * N)%N,
    forall i, (i < size es * N)%N -> nrm (nth 0 Ss i - W (tat N (k * N + i.+1))) <= D &
    forall i, (i < size es * N)%N -> nrm (nth 0 Ks i - ulT *m W (tat N (k * N + i))) <= nrm ulT * D].
Proof.
move=> N0; elim: es k => [|e es IH] k sz H; first by exists [::], [::].
have [bK [bS [Eb sK sS HS HK]]] := H 0%N isT.
have [||Ks [Ss [E sK' sS' HS' HK']]] := IH k.+1.
- by rewrite addSnnS.
- by move=> r lr; rewrite addSnnS; exact: (H r.+1).
have kB : (k < B)%N by rewrite -sz /=; lia.
rewrite addn0 in HS.
have hS i : (i <= N)%N -> nrm (nth 0 bS i - W (tat N (k * N + i))) <= D by move=> le; rewrite -tat_block //; exact: HS.
exists (bK ++ Ks), (behead bS ++ Ss); rewrite /= -/(qpar_extract_loop _ _ _ _ _ _); split.
- by rewrite Eb obindS E obindS.
- by rewrite size_cat sK sK' mulSn.
- by rewrite size_cat size_behead sS sS' mulSn.
- move=> i; rewrite mulSn nth_cat size_behead sS nth_behead /= => lt; case: ltnP => h; first exact: hS.
  have -> : (k * N + i.+1 = k.+1 * N + (i - N).+1)%N by nia.
  by apply: HS'; lia.
move=> i; rewrite mulSn nth_cat sK => lt; case: ltnP => h.
  by rewrite HK // -mulmxBr; apply: le_trans (nrm_mul _ _) _; rewrite ler_wpmul2l ?nrm_ge0 // hS // ltnW.
have -> : (k * N + i = k.+1 * N + (i - N))%N by nia.
by apply: HK'; lia.
Qed.
Theorem par_rk4_order4 : exists (D : Rf) N0, forall steps, (N0 <= steps)%N -> (0 < steps)%N ->
  exists Ks Ss Ks' Ss', [/\ clqr_parBackwardPass expmR q B steps Rk4 Rk4 = Some (Ks, Ss) /\ size Ks = (B * steps)%N /\ size Ss = (B * steps).+1,
    clqr_seqBackwardPass expmR q (B * steps) None None Exact = Some (Ks', Ss'),
    forall i, (i <= B * steps)%N -> within (D / steps%:R ^+ 4) (nth 0 Ss i) (nth 0 Ss' i) &
    forall i, (i < B * steps)%N -> within (D / steps%:R ^+ 4) (nth 0 Ks i) (nth 0 Ks' i)].
Proof.
have [D1 D10 H1] := block_conv tau_ge0.
have [L L0 HL] := scan_stable (@exf_comb n m q sU pU sX pX sT pT B tau tau_ge0).
have [D2 D20 H2] := seq_unif (mulr_ge0 L0 D10).
pose D := L * D1 + D2 + nrm ulT * D2.
have [N0 HN0] := big_nat_above (D1 + (D1 * L + D2)).
exists D, N0 => N N0N Npos; have {HN0 N0N} big := HN0 N N0N.
have Np : 0 < N%:R :> Rf by rewrite ltr0n.
have N4 : 0 < N%:R ^+ 4 :> Rf by rewrite exprn_gt0.
have n1 : D1 <= N%:R by apply: le_trans big; rewrite ler_addl addr_ge0 ?mulr_ge0.
have n2 : D1 * L <= N%:R by apply: le_trans big; rewrite addrCA ler_addl addr_ge0.
have n3 : D2 <= N%:R by apply: le_trans big; rewrite addrA ler_addr addr_ge0 ?mulr_ge0.
have Dp : 0 <= D2 / N%:R ^+ 4 by rewrite divr_ge0 // ltW.
have [e Ee he] := H1 N Npos n1.
pose es := rcons (nseq B e) (Elem 0 0 0 0 (qXT q)).
have ses : size es = B.+1 by rewrite size_rcons size_nseq.
have [|||||r [Er [sr Hr]]] := HL (D1 / N%:R ^+ 4) es.
- by rewrite divr_ge0 // ltW.
- rewrite mulrAC ler_pdivr_mulr // mul1r; apply: le_trans n2 _.
  by rewrite exprS ler_pemulr ?(ltW Np) // exprn_ege1 // ler1n.
- by move=> E; move: ses; rewrite E.
- exact: ses.
- move=> i x; case: (ltnP i (size es)) => iB; last by rewrite nthe_none.
  rewrite (nthe (Elem 0 0 0 0 0)) // => -[<-]; rewrite ses in iB; rewrite /es nth_rcons size_nseq.
  case: (ltngtP i B) => [lt|gt|iE]; last 2 first.
  + by move: iB; rewrite ltnS leqNgt gt.
  + rewrite /exf iE ltnn /ed /= !subrr nrm0 add0r subnn mul0r val0; last exact: expmR_group.
    by rewrite subrr nrm0 addr0 divr_ge0 // ltW.
  by rewrite nth_nseq lt /exf lt subSnn mul1r.
case: r Er sr Hr => // e0 r Er [sr] Hr.
have eps_eq : L * (D1 / N%:R ^+ 4) = L * D1 / N%:R ^+ 4 by rewrite mulrA.
have exJ k : eJ (exf q B tau k B.+1) = W ((B - k)%:R * tau) by rewrite /exf ltnn.
have dtE : qT q / N%:R / B%:R = tau / N%:R by rewrite mulrAC.
have [|Ks [Ss [E sK sS HS HK]]] := @extract_conv N (D2 / N%:R ^+ 4) 0 r Npos sr.
- move=> k lk; rewrite add0n; apply: H2 => //; first by rewrite -sr.
  have := edJ (Hr k.+1 (nth (Elem 0 0 0 0 0) r k) _); rewrite exJ eps_eq; apply.
  exact: (nthe (Elem 0 0 0 0 0) lk).
have BN : (0 < B * N)%N by rewrite muln_gt0 B0.
have [Ks' [Ss' [E' _ _ HS' HK']]] := pass_val sU pU sX pX sT pT BN T0.
have tE i : (i <= B * N)%N -> qT q - i%:R * (qT q / (B * N)%:R) = tat N i.
  move=> le; rewrite /tat natrB // mulrBl natrM; congr (_ - _ * _); last by rewrite invfM mulrA.
  have [nB nN] : B%:R != 0 :> Rf /\ N%:R != 0 :> Rf by rewrite !pnatr_eq0 -!lt0n.
  by rewrite -(mulrA B%:R N%:R) [N%:R * _]mulrC (divfK nN) [RHS]mulrC divfK.
exists Ks, (eJ e0 :: Ss), Ks', Ss'; split=> //.
- rewrite /clqr_parBackwardPass /clqr_parBackwardPass_init /div_nats.
  rewrite !(gtn_eqF) // dtE !obindS Ee !obindS Er obindS /clqr_parBackwardPass_extract /div_nats sr !gtn_eqF // dtE !obindS E obindS.
  by rewrite /= sK sS sr.
- move=> i le; rewrite HS' // /val_at tE // => a b.
  apply: le_trans (_ : _ <= nrm (nth 0 (eJ e0 :: Ss) i - W (tat N i))) _.
    by have := nrm_entry (nth 0 (eJ e0 :: Ss) i - W (tat N i)) a b; rewrite !mxE.
  case: i le => [|i] le /=.
    have := edJ (Hr 0%N e0 erefl); rewrite exJ eps_eq subn0 /tat subn0.
    have -> : (B * N)%:R * (tau / N%:R) = B%:R * tau by rewrite natrM -mulrA [N%:R * _]mulrC divfK // lt0r_neq0.
    by move=> h; apply: le_trans h _; rewrite ler_wpmul2r ?invr_ge0 ?(ltW N4) // /D -addrA ler_addl addr_ge0 // mulr_ge0 ?nrm_ge0.
  apply: le_trans (HS i _) _; first by rewrite sr.
  by rewrite ler_wpmul2r ?invr_ge0 ?(ltW N4) // /D addrAC ler_addr addr_ge0 // mulr_ge0 ?nrm_ge0.
move=> i lt; rewrite HK' // /val_at tE ?(ltnW lt) // => a b.
apply: le_trans (_ : _ <= nrm (nth 0 Ks i - ulT *m W (tat N i))) _.
  by have := nrm_entry (nth 0 Ks i - ulT *m W (tat N i)) a b; rewrite !mxE.
apply: le_trans (HK i _) _; first by rewrite sr.
by rewrite mulrA ler_wpmul2r ?invr_ge0 ?(ltW N4) // /D ler_addr addr_ge0 // mulr_ge0.
Qed.
End Par.
