(** The trajectories computed with the parallel backward pass converge to the optimal trajectory. *)
From Coq Require Import Reals Lra.
From mathcomp Require Import all_ssreflect all_algebra zify.
From Verif Require Import RealF MxBase LqtModel LqtCore ClqtModel ClqtSpec ClqrModel ClqrSpec ClqrExact RealExpSpec RealExp RealAssm ClqrOptSpec ClqrOpt RkConvA RkConvSpec RkConv RkConvP FwdConv FwdConvG ParConvC ClqrUse.
Import Order.TTheory GRing.Theory Num.Theory.
Set Implicit Arguments. Unset Strict Implicit. Unset Printing Implicit Defensive.
Local Open Scope ring_scope.
Delimit Scope R_scope with Re.

Section Par.
Variables n m : nat.
Variable q : clqr Rf n m.
Hypotheses (sU : symm (qU q)) (pU : pd (qU q)) (sX : symm (qX q)) (pX : psd (qX q)) (sT : symm (qXT q)) (pT : psd (qXT q)).
Hypothesis T0 : 0 <= qT q.
Variable B : nat.
Hypothesis B0 : (0 < B)%N.
Lemma par_gains : exists DK N0, 0 <= DK /\ forall steps, (N0 <= steps)%N -> (0 < steps)%N ->
  exists Ks Ss, clqr_parBackwardPass expmR q B steps Rk4 Rk4 = Some (Ks, Ss) /\ near_gains q DK (B * steps) Ks.
Proof.
have [D [N0 HD]] := par_rk4_order4 sU pU sX pX sT pT B0 T0.
have a0 : 0 <= (m * n)%:R * `|D| by rewrite mulr_ge0 ?ler0n.
exists (B%:R * ((m * n)%:R * `|D|)), N0; split; first by rewrite mulr_ge0 ?ler0n.
move=> steps N0s s0; have [Ks [Ss [Ks' [Ss' [[E [sK _]] E' _ HK]]]]] := HD steps N0s s0.
have BN : (0 < B * steps)%N by rewrite muln_gt0 B0.
have [Ks2 [Ss2 [E2 _ _ _ HK2]]] := pass_val sU pU sX pX sT pT BN T0.
move: E'; rewrite E2 => -[eK _]; exists Ks, Ss; split=> //; split=> // i lt; rewrite /gain -HK2 // eK; apply: le_trans (within_nrm (HK i lt)) _.
have sp : 0 < steps%:R :> Rf by rewrite ltr0n.
have Bp : B%:R != 0 :> Rf by rewrite pnatr_eq0 -lt0n.
have -> : B%:R * ((m * n)%:R * `|D|) / (B * steps)%:R = (m * n)%:R * (`|D| / steps%:R).
  by rewrite (natrM _ B) invfM mulrACA mulfV // mul1r mulrA.
rewrite ler_wpmul2l ?ler0n //; apply: (@le_trans _ _ (`|D| / steps%:R ^+ 4)).
  by rewrite ler_wpmul2r ?ler_norm // invr_ge0 exprn_ge0 ?ler0n.
rewrite ler_wpmul2l // lef_pinv ?posrE ?exprn_gt0 // ler_eexpr // ler1n //.
Qed.
Theorem par_pass_converges x0 (ex zoh : bool) : exists (D : Rf) N0, forall steps, (N0 <= steps)%N -> (0 < steps)%N -> exists Ks Ss us xs,
  [/\ clqr_parBackwardPass expmR q B steps Rk4 Rk4 = Some (Ks, Ss),
   clqr_seqForwardPass expmR q x0 Ks None (if ex then Exact else Rk4) zoh = Some (us, xs) /\
     (ex = false -> zoh = false -> clqr_parForwardPass expmR q x0 Ks B steps Rk4 Rk4 false = Some (us, xs)),
   size us = (B * steps)%N /\ size xs = (B * steps).+1,
   forall i, (i <= B * steps)%N -> within (D / (B * steps)%:R) (nth 0 xs i) (xo q 0 x0 (i%:R * (qT q / (B * steps)%:R))%R) &
   forall i, (i < B * steps)%N -> within (D / (B * steps)%:R) (nth 0 us i) (uo q 0 x0 (i%:R * (qT q / (B * steps)%:R))%R)].
Proof.
have [DK [N0 [DK0 HK]]] := par_gains.
have [D D0 HD] := forward_converges sU pU pX pT T0 x0 ex zoh DK0.
have [N1 HN1] := big_nat_above D.
exists D, (maxn N0 N1) => steps; rewrite geq_max => /andP [l0 l1] s0.
have [Ks [Ss [E nK]]] := HK steps l0 s0.
have BN : (0 < B * steps)%N by rewrite muln_gt0 B0.
have lD : D <= (B * steps)%:R by apply: HN1; apply: leq_trans l1 _; exact: leq_pmull.
have [us [xs [Ef sz Hx Hu]]] := HD _ _ BN lD nK.
exists Ks, Ss, us, xs; split=> //; split=> // e z; rewrite e z in Ef.
by have [h _] := @reg_par_forward Rf expmR n m q x0 Ks B steps; rewrite h ?nK.1.
Qed.
End Par.
Theorem par_trajectory n m (q : clqr Rf n m) : symm (qU q) -> pd (qU q) -> symm (qX q) -> psd (qX q) -> symm (qXT q) -> psd (qXT q) ->
  0 <= qT q -> forall x0, exists x u c, [/\ driven q x u c [::] 0, x 0 = x0,
    forall x' u' c' ts, driven q x' u' c' ts 0 -> x' 0 = x0 -> cost_to_go q x c 0 <= cost_to_go q x' c' 0 &
    forall blocks fm zoh, (0 < blocks)%N -> fm <> Unknown -> exists (D : Rf) N0, forall steps, (N0 <= steps)%N -> (0 < steps)%N ->
      let t i := i%:R * (qT q / (blocks * steps)%:R) in exists Ks Ss us xs,
      [/\ clqr_parBackwardPass expmR q blocks steps Rk4 Rk4 = Some (Ks, Ss),
          clqr_seqForwardPass expmR q x0 Ks None fm zoh = Some (us, xs) /\
            (fm = Rk4 -> zoh = false -> clqr_parForwardPass expmR q x0 Ks blocks steps Rk4 Rk4 false = Some (us, xs)),
          size us = (blocks * steps)%N /\ size xs = (blocks * steps).+1,
          forall i, (i <= blocks * steps)%N -> within (D / (blocks * steps)%:R) (nth 0 xs i) (x (t i)) &
          forall i, (i < blocks * steps)%N -> within (D / (blocks * steps)%:R) (nth 0 us i) (u (t i))]].
Proof.
move=> sU pU sX pX sT pT T0 x0; exists (xo q 0 x0), (uo q 0 x0), (co q 0 x0).
have e0 : xo q 0 x0 0 = x0 by exact: xo0.
split=> //; first exact: driven_o.
  by move=> x' u' c' ts dr e; have [] := cost_gap sU pU sX pX sT pT T0 dr e.
move=> B fm zoh B0 hf; pose ex := if fm is Exact then true else false.
have [D [N0 H]] := par_pass_converges sU pU sX pX sT pT T0 B0 x0 ex zoh.
exists D, N0 => steps l s0 t; have [Ks [Ss [us [xs [E [Ef Ep] sz Hx Hu]]]]] := H steps l s0.
exists Ks, Ss, us, xs; split=> //; split.
  by move: Ef; rewrite /ex; case: (fm) hf.
by move=> e; apply: Ep; rewrite /ex e.
Qed.
