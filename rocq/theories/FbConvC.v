(** The sequential forward-backward pass converges to the optimal trajectory with order four. *)
From Coq Require Import Reals Lra.
From mathcomp Require Import all_ssreflect all_algebra zify.
From Verif Require Import RealF MxBase LqtModel LqtCore ScanModel ClqtFwd2 ClqtModel ClqtSpec ClqtPack Rk4Model Rk4Spec Rk4Proofs ClqrModel ClqrSpec ClqrExact ClqrElem RealExpSpec RealExp RealAssm ClqrOptSpec ClqrOpt RealDisc RkConvA RkConvSpec RkQuadAlg RkConvB RkConvC RkConv RkConvP ParAlg ParConvA ParConvB ParConvC FwdConvA FwdConv FbAlg FbConvA FbConvB.
Import Order.TTheory GRing.Theory Num.Theory.
Set Implicit Arguments. Unset Strict Implicit. Unset Printing Implicit Defensive.
Local Open Scope ring_scope.
Delimit Scope R_scope with Re.

Section Fb.
Variables n m : nat.
Variable q : clqr Rf n m.
Hypotheses (sU : symm (qU q)) (pU : pd (qU q)) (sX : symm (qX q)) (pX : psd (qX q)) (sT : symm (qXT q)) (pT : psd (qXT q)).
Local Notation T := (qT q).
Hypothesis T0 : 0 <= T.
Local Notation ulT := (ulT q).
Local Notation N := (qL q *m ulT).
Local Notation As := (As expmR q ulT).
Local Notation Cs := (Cs expmR q ulT).
Local Notation VA := (val_at q).
Local Notation gain := (gain q).
Local Notation meth b := (if b then Exact else Rk4).
(** gains and value matrices within eps of the optimal ones on the grid of M steps *)
Definition near_pass (eps : Rf) (M : nat) (Ks : seq 'M[Rf]_(m, n)) (Ss : seq 'M[Rf]_n) : Prop :=
  [/\ size Ks = M, size Ss = M.+1, forall i, (i < M)%N -> nrm (nth 0 Ks i - gain (i%:R * (T / M%:R))) <= eps &
      forall i, (i <= M)%N -> nrm (nth 0 Ss i - VA (i%:R * (T / M%:R))) <= eps].
Lemma near_mono eps eps' M Ks Ss : eps <= eps' -> near_pass eps M Ks Ss -> near_pass eps' M Ks Ss.
Proof. by move=> le [h1 h2 h3 h4]; split=> // i hi; [apply: le_trans (h3 i hi) _ | apply: le_trans (h4 i hi) _]. Qed.
Lemma near_within (c : Rf) M Ks Ss Ks' Ss' : (0 < M)%N -> 0 <= c -> size Ks = M -> size Ss = M.+1 ->
  clqr_seqBackwardPass expmR q M None None Exact = Some (Ks', Ss') ->
  (forall i, (i <= M)%N -> within c (nth 0 Ss i) (nth 0 Ss' i)) ->
  (forall i, (i < M)%N -> within c (nth 0 Ks i) (nth 0 Ks' i)) -> near_pass (((m * n)%:R + (n * n)%:R) * c) M Ks Ss.
Proof.
move=> M0 c0 sK sS E' HS HK; have [Ks2 [Ss2 [E2 _ _ HS2 HK2]]] := pass_val sU pU sX pX sT pT M0 T0.
move: E'; rewrite E2 => -[eK eS]; split=> // i hi.
  rewrite /FwdConv.gain -HK2 // eK; apply: le_trans (within_nrm (HK i hi)) _; by rewrite ler_wpmul2r // ler_addl ler0n.
by rewrite -HS2 // eS; apply: le_trans (within_nrm (HS i hi)) _; rewrite ler_wpmul2r // ler_addr ler0n.
Qed.
Lemma seq_near b : exists DK N0, 0 <= DK /\ forall steps, (N0 <= steps)%N -> (0 < steps)%N ->
  exists Ks Ss, clqr_seqBackwardPass expmR q steps None None (meth b) = Some (Ks, Ss) /\ near_pass (DK / steps%:R ^+ 4) steps Ks Ss.
Proof.
case: b.
  exists 0, 0%N; split=> // steps _ s0; have [Ks [Ss [E sK sS HS HK]]] := pass_val sU pU sX pX sT pT s0 T0.
  exists Ks, Ss; split=> //; split=> // i lt; first by rewrite HK // subrr nrm0 mul0r.
  by rewrite HS // subrr nrm0 mul0r.
have [D [N0 HD]] := reg_rk4_order4 sU pU sX pX sT pT T0.
exists (((m * n)%:R + (n * n)%:R) * `|D|), N0; split; first by rewrite mulr_ge0 ?addr_ge0 ?ler0n.
move=> steps N0s s0; have [Ks [Ss [Ks' [Ss' [[E [sK sS]] E' HS HK]]]]] := HD steps N0s s0.
have si : 0 <= steps%:R ^- 4 :> Rf by rewrite invr_ge0 exprn_ge0 ?ler0n.
have le : D / steps%:R ^+ 4 <= `|D| / steps%:R ^+ 4 by rewrite ler_wpmul2r // ler_norm.
exists Ks, Ss; split=> //; rewrite -mulrA; apply: near_within E' _ _ => //; first by rewrite mulr_ge0.
  by move=> i hi p r; apply: le_trans (HS i hi p r) le.
by move=> i hi p r; apply: le_trans (HK i hi p r) le.
Qed.
Variable x0 : 'cV[Rf]_n.
Local Notation xo := (xo q 0 x0). Local Notation uo := (uo q 0 x0).
Lemma ys0 : ys q x0 0 = mky x0 0.
Proof.
have := zs0 q; rewrite /zs /mkz => h.
have [h1 h23] := eq_row_mx h; have [h2 _] := eq_row_mx h23.
by rewrite /ys h1 h2 mul1mx.
Qed.
Lemma within_of k l (A B : 'M[Rf]_(k, l)) (a : Rf) : nrm (A - B) <= a -> within a A B.
Proof. by move=> h p r; have := nrm_entry (A - B) p r; rewrite !mxE => h'; apply: le_trans h' h. Qed.
Lemma grid_in (M i : nat) : (0 < M)%N -> (i <= M)%N -> 0 <= i%:R * (T / M%:R) <= T.
Proof.
move=> M0 le; have Mp : 0 < M%:R :> Rf by rewrite ltr0n.
by rewrite mulr_ge0 ?ler0n ?divr_ge0 ?ler0n //= mulrCA ler_pimulr // ler_pdivr_mulr // mul1r ler_nat.
Qed.
Lemma pow4_le (D : Rf) M : 0 <= D -> (0 < M)%N -> D <= M%:R -> D / M%:R ^+ 4 <= 1.
Proof.
move=> D0 M0 DM; have Mp : 0 < M%:R :> Rf by rewrite ltr0n.
rewrite ler_pdivr_mulr ?exprn_gt0 // mul1r; apply: le_trans DM _; rewrite exprS ler_pemulr ?(ltW Mp) // exprn_ege1 // ler1n //.
Qed.
Lemma qdt_pos M : (0 < M)%N -> qdt_or q None [:: M] = Some (T / M%:R).
Proof. by move=> M0; rewrite /qdt_or /=; case: eqP => [/eqP|_] //; rewrite ?pnatr_eq0; lia. Qed.
Theorem seq_fb_converges DK : 0 <= DK -> exists2 D, 0 <= D & forall M Ks Ss, (0 < M)%N -> D <= M%:R -> near_pass (DK / M%:R ^+ 4) M Ks Ss ->
  exists l us xs, [/\ clqr_seqFwdBwdPass q x0 M None None None None Rk4 = Some l, qcombineForwardBackward Ks Ss l = Some (us, xs),
    size us = M /\ size xs = M.+1,
    forall i, (i <= M)%N -> within (D / M%:R ^+ 4) (nth 0 xs i) (xo (i%:R * (T / M%:R))%R) &
    forall i, (i < M)%N -> within (D / M%:R ^+ 4) (nth 0 us i) (uo (i%:R * (T / M%:R))%R)].
Proof.
move=> DK0.
have [D1 D10 H1] := @fwd_from n m q sU pU sX pX x0 0 T 0 (lexx 0) T0 (lexx 0).
have [L L1 HL] := combine_conv sU pU sX pX pT T0 x0; have L0 : 0 <= L := le_trans ler01 L1.
have DD : 0 <= D1 + DK by rewrite addr_ge0.
have LD : 0 <= L * (D1 + DK) by rewrite mulr_ge0.
exists (D1 + L * (D1 + DK)); first by rewrite addr_ge0.
move=> M Ks Ss M0 big [sK sS HK HS].
have Mp : 0 < M%:R :> Rf by rewrite ltr0n.
have Mi : 0 <= M%:R ^- 4 :> Rf by rewrite invr_ge0 exprn_ge0 ?ltW.
have n1 : D1 <= M%:R by apply: le_trans big; rewrite ler_addl.
have n2 : L * (D1 + DK) <= M%:R by apply: le_trans big; rewrite ler_addr.
have [|l El [sl Hl]] := H1 M M0 n1 (0, x0, 0); first by rewrite ys0 /yel /= subrr nrm0 mul0r.
have [|||||us [xs [Ec su sx Hx Hu]]] := HL M (fun i => i%:R * (T / M%:R)) ((D1 + DK) / M%:R ^+ 4) Ks Ss l _ _ sK sS sl (fun i => grid_in M0).
- by rewrite mulr_ge0.
- by rewrite mulrAC [_ * L]mulrC; exact: pow4_le.
- by move=> i lt; apply: le_trans (HK i lt) _; rewrite ler_wpmul2r // ler_addr.
- by move=> i lt; apply: le_trans (HS i lt) _; rewrite ler_wpmul2r // ler_addr.
- move=> i le; have := Hl i le; rewrite add0r => -[h1 h2].
  by split; [apply: le_trans h1 _ | apply: le_trans h2 _]; rewrite ler_wpmul2r // ler_addl.
have le : L * ((D1 + DK) / M%:R ^+ 4) <= (D1 + L * (D1 + DK)) / M%:R ^+ 4 by rewrite mulrA ler_wpmul2r // ler_addr.
exists l, us, xs; split=> //.
- by rewrite /clqr_seqFwdBwdPass qdt_pos // obindS.
- by move=> i hi; apply: within_of; apply: le_trans (Hx i hi) le.
by move=> i hi; apply: within_of; apply: le_trans (Hu i hi) le.
Qed.
End Fb.
