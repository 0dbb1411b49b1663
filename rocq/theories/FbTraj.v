(** The forward-backward pass converges with order four for every choice of backward pass. *)
From Coq Require Import Reals Lra.
From mathcomp Require Import all_ssreflect all_algebra zify.
From Verif Require Import RealF MxBase LqtModel LqtCore ClqtModel ClqtSpec ClqrModel ClqrSpec ClqrExact RealExpSpec RealExp RealAssm ClqrOptSpec ClqrOpt RealDisc RkConvA RkConvSpec RkQuadAlg RkConvB RkConvC RkConv RkConvP ParConvB ParConvC FwdConvA FwdConv FbConvB FbConvC FbConvE.
Import Order.TTheory GRing.Theory Num.Theory.
Set Implicit Arguments. Unset Strict Implicit. Unset Printing Implicit Defensive.
Local Open Scope ring_scope.
Delimit Scope R_scope with Re.

(** the backward pass over blocks * steps steps: sequential with a method, or parallel *)
Definition any_backward n m (q : clqr Rf n m) (bk : option method) (blocks steps : nat) :=
  if bk is Some bm then clqr_seqBackwardPass expmR q (blocks * steps) None None bm else clqr_parBackwardPass expmR q blocks steps Rk4 Rk4.

Section Fb.
Variables n m : nat.
Variable q : clqr Rf n m.
Hypotheses (sU : symm (qU q)) (pU : pd (qU q)) (sX : symm (qX q)) (pX : psd (qX q)) (sT : symm (qXT q)) (pT : psd (qXT q)).
Hypothesis T0 : 0 <= qT q.
Variable B : nat.
Hypothesis B0 : (0 < B)%N.
Lemma any_near bk : bk <> Some Unknown -> exists DK N0, 0 <= DK /\ forall steps, (N0 <= steps)%N -> (0 < steps)%N ->
  exists Ks Ss, any_backward q bk B steps = Some (Ks, Ss) /\ near_pass q (DK / steps%:R ^+ 4) (B * steps) Ks Ss.
Proof.
move=> hb; case: bk hb => [bm hb|_].
  have [DK [N0 [DK0 H]]] := seq_near sU pU sX pX sT pT T0 (if bm is Exact then true else false).
  exists DK, N0; split=> // steps l s0; have BN : (0 < B * steps)%N by rewrite muln_gt0 B0.
  have [Ks [Ss [E hn]]] := H _ (leq_trans l (leq_pmull _ B0)) BN; exists Ks, Ss; split.
    by move: E; rewrite /any_backward; case: (bm) hb.
  apply: near_mono hn; rewrite ler_wpmul2l // lef_pinv ?posrE ?exprn_gt0 ?ltr0n // ler_expn2r ?nnegrE ?ler0n // ler_nat leq_pmull //.
have [D [N0 HD]] := par_rk4_order4 sU pU sX pX sT pT B0 T0.
exists (((m * n)%:R + (n * n)%:R) * `|D|), N0; split; first by rewrite mulr_ge0 ?addr_ge0 ?ler0n.
move=> steps N0s s0; have [Ks [Ss [Ks' [Ss' [[E [sK sS]] E' HS HK]]]]] := HD steps N0s s0.
have BN : (0 < B * steps)%N by rewrite muln_gt0 B0.
have si : 0 <= steps%:R ^- 4 :> Rf by rewrite invr_ge0 exprn_ge0 ?ler0n.
have le : D / steps%:R ^+ 4 <= `|D| / steps%:R ^+ 4 by rewrite ler_wpmul2r // ler_norm.
exists Ks, Ss; split=> //; rewrite -mulrA; apply: (near_within sU pU sX pX sT pT T0 BN _ sK sS E'); first by rewrite mulr_ge0.
  by move=> i hi p r; apply: le_trans (HS i hi p r) le.
by move=> i hi p r; apply: le_trans (HK i hi p r) le.
Qed.
Variable x0 : 'cV[Rf]_n.
Theorem seq_fb_any bk : bk <> Some Unknown -> exists (D : Rf) N0, forall steps, (N0 <= steps)%N -> (0 < steps)%N -> exists Ks Ss l us xs,
  [/\ any_backward q bk B steps = Some (Ks, Ss),
   clqr_seqFwdBwdPass q x0 (B * steps) None None None None Rk4 = Some l /\ qcombineForwardBackward Ks Ss l = Some (us, xs),
   size us = (B * steps)%N /\ size xs = (B * steps).+1,
   forall i, (i <= B * steps)%N -> within (D / (B * steps)%:R ^+ 4) (nth 0 xs i) (xo q 0 x0 (i%:R * (qT q / (B * steps)%:R))%R) &
   forall i, (i < B * steps)%N -> within (D / (B * steps)%:R ^+ 4) (nth 0 us i) (uo q 0 x0 (i%:R * (qT q / (B * steps)%:R))%R)].
Proof.
move=> hb; have [DK [N0 [DK0 HK]]] := any_near hb.
have b4 : 0 <= B%:R ^+ 4 * DK by rewrite mulr_ge0 // exprn_ge0 ?ler0n.
have [D D0 HD] := seq_fb_converges sU pU sX pX pT T0 x0 b4.
have [N1 HN1] := big_nat_above D.
exists D, (maxn N0 N1) => steps; rewrite geq_max => /andP [l0 l1] s0.
have [Ks [Ss [E hn]]] := HK steps l0 s0.
have BN : (0 < B * steps)%N by rewrite muln_gt0 B0.
have lD : D <= (B * steps)%:R by apply: HN1; apply: leq_trans l1 _; exact: leq_pmull.
have e4 : DK / steps%:R ^+ 4 = B%:R ^+ 4 * DK / (B * steps)%:R ^+ 4.
  have n4 : B%:R ^+ 4 != 0 :> Rf by rewrite expf_neq0 // pnatr_eq0 -lt0n.
  by rewrite (natrM _ B) exprMn (invfM (B%:R ^+ 4)) [RHS]mulrACA mulfV // mul1r.
rewrite e4 in hn.
have [l [us [xs [El Ec sz Hx Hu]]]] := HD _ Ks Ss BN lD hn.
by exists Ks, Ss, l, us, xs.
Qed.
Theorem par_fb_any bk : bk <> Some Unknown -> exists (D : Rf) N0, forall steps, (N0 <= steps)%N -> (0 < steps)%N -> exists Ks Ss us xs,
  [/\ any_backward q bk B steps = Some (Ks, Ss), clqr_parFwdBwdPass q x0 Ks Ss B steps Rk4 Rk4 = Some (us, xs),
   size us = (B * steps)%N /\ size xs = (B * steps).+1,
   forall i, (i <= B * steps)%N -> within (D / steps%:R ^+ 4) (nth 0 xs i) (xo q 0 x0 (i%:R * (qT q / (B * steps)%:R))%R) &
   forall i, (i < B * steps)%N -> within (D / steps%:R ^+ 4) (nth 0 us i) (uo q 0 x0 (i%:R * (qT q / (B * steps)%:R))%R)].
Proof.
move=> hb; have [DK [N0 [DK0 HK]]] := any_near hb.
have [D D0 HD] := par_fb_converges sU pU sX pX pT T0 x0 B0 DK0.
have [N1 HN1] := big_nat_above D.
exists D, (maxn N0 N1) => steps; rewrite geq_max => /andP [l0 l1] s0.
have [Ks [Ss [E hn]]] := HK steps l0 s0.
have [us [xs [El sz Hx Hu]]] := HD _ Ks Ss s0 (HN1 _ l1) hn.
by exists Ks, Ss, us, xs.
Qed.
End Fb.
Section Main.
Variables (n m : nat) (q : clqr Rf n m).
Hypotheses (sU : symm (qU q)) (pU : pd (qU q)) (sX : symm (qX q)) (pX : psd (qX q)) (sT : symm (qXT q)) (pT : psd (qXT q)).
Hypothesis T0 : 0 <= qT q.
Lemma opt_exists x0 : [/\ driven q (xo q 0 x0) (uo q 0 x0) (co q 0 x0) [::] 0, xo q 0 x0 0 = x0 &
    forall x' u' c' ts, driven q x' u' c' ts 0 -> x' 0 = x0 -> cost_to_go q (xo q 0 x0) (co q 0 x0) 0 <= cost_to_go q x' c' 0].
Proof.
split; first exact: driven_o; first exact: xo0.
by move=> x' u' c' ts dr e; have [] := cost_gap sU pU sX pX sT pT T0 dr e.
Qed.
Theorem seq_fb_trajectory x0 : exists x u c, [/\ driven q x u c [::] 0, x 0 = x0,
    forall x' u' c' ts, driven q x' u' c' ts 0 -> x' 0 = x0 -> cost_to_go q x c 0 <= cost_to_go q x' c' 0 &
    forall blocks bk, (0 < blocks)%N -> bk <> Some Unknown -> exists (D : Rf) N0, forall steps, (N0 <= steps)%N -> (0 < steps)%N ->
      let t i := i%:R * (qT q / (blocks * steps)%:R) in exists Ks Ss l us xs,
      [/\ (if bk is Some bm then clqr_seqBackwardPass expmR q (blocks * steps) None None bm else clqr_parBackwardPass expmR q blocks steps Rk4 Rk4) = Some (Ks, Ss),
          clqr_seqFwdBwdPass q x0 (blocks * steps) None None None None Rk4 = Some l /\ qcombineForwardBackward Ks Ss l = Some (us, xs),
          size us = (blocks * steps)%N /\ size xs = (blocks * steps).+1,
          forall i, (i <= blocks * steps)%N -> within (D / (blocks * steps)%:R ^+ 4) (nth 0 xs i) (x (t i)) &
          forall i, (i < blocks * steps)%N -> within (D / (blocks * steps)%:R ^+ 4) (nth 0 us i) (u (t i))]].
Proof.
have [h1 h2 h3] := opt_exists x0; exists (xo q 0 x0), (uo q 0 x0), (co q 0 x0); split=> // B bk B0 hb.
exact: (seq_fb_any sU pU sX pX sT pT T0 B0 x0 hb).
Qed.
Theorem par_fb_trajectory x0 : exists x u c, [/\ driven q x u c [::] 0, x 0 = x0,
    forall x' u' c' ts, driven q x' u' c' ts 0 -> x' 0 = x0 -> cost_to_go q x c 0 <= cost_to_go q x' c' 0 &
    forall blocks bk, (0 < blocks)%N -> bk <> Some Unknown -> exists (D : Rf) N0, forall steps, (N0 <= steps)%N -> (0 < steps)%N ->
      let t i := i%:R * (qT q / (blocks * steps)%:R) in exists Ks Ss us xs,
      [/\ (if bk is Some bm then clqr_seqBackwardPass expmR q (blocks * steps) None None bm else clqr_parBackwardPass expmR q blocks steps Rk4 Rk4) = Some (Ks, Ss),
          clqr_parFwdBwdPass q x0 Ks Ss blocks steps Rk4 Rk4 = Some (us, xs),
          size us = (blocks * steps)%N /\ size xs = (blocks * steps).+1,
          forall i, (i <= blocks * steps)%N -> within (D / steps%:R ^+ 4) (nth 0 xs i) (x (t i)) &
          forall i, (i < blocks * steps)%N -> within (D / steps%:R ^+ 4) (nth 0 us i) (u (t i))]].
Proof.
have [h1 h2 h3] := opt_exists x0; exists (xo q 0 x0), (uo q 0 x0), (co q 0 x0); split=> // B bk B0 hb.
exact: (par_fb_any sU pU sX pX sT pT T0 B0 x0 hb).
Qed.
End Main.
