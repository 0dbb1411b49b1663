(** Agreement of the parallel and the sequential passes for time-varying data. *)
From Coq Require Import Reals.
From mathcomp Require Import all_ssreflect all_algebra zify.
From Verif Require Import RealF MxBase LqtModel ClqtModel ClqtSpec RealExpSpec RealExp TrackOptSpec TvarSpec TvarBwd TvarFwd TvarFb TvarExistSpec TvarExist RkConvC FbConvC RkConvA TvarParE TvarParF TvarParI.
Import Order.TTheory GRing.Theory Num.Theory.
Set Implicit Arguments. Unset Strict Implicit. Unset Printing Implicit Defensive.
Local Open Scope ring_scope.

Section Tri.
Variables (B M : nat) (D D' : Rf).
Hypotheses (B0 : (0 < B)%N) (M0 : (0 < M)%N) (D0 : 0 <= D').
Lemma within_meet k l (X Y Z : 'M[Rf]_(k, l)) : within (D / M%:R) X Z -> within (D' / (B * M)%:R) Y Z -> within ((D + D') / M%:R) X Y.
Proof.
move=> h h' i j; have -> : X i j - Y i j = (X i j - Z i j) - (Y i j - Z i j) by rewrite opprB addrA subrK.
apply: le_trans (ler_norm_sub _ _) _; rewrite mulrDl; apply: ler_add; first exact: h.
apply: le_trans (h' i j) _; rewrite ler_wpmul2l // lef_pinv ?posrE ?ltr0n ?muln_gt0 ?B0 // ler_nat.
by rewrite leq_pmull.
Qed.
End Tri.
Lemma within_le k l (a b : Rf) (X Y : 'M[Rf]_(k, l)) : a <= b -> within a X Y -> within b X Y.
Proof. by move=> ab h i j; exact: le_trans (h i j) ab. Qed.

Section Main.
Variables n m p pT : nat.
Variable P : clqt Rf n m p pT.
Hypotheses (T1 : 0 < kT P) (cw : convex_weights P) (lP : lipschitz_data P).
Lemma par_seq_agree x0 forward forward' blocks zoh : (0 < blocks)%N ->
  exists (D : Rf) N0, forall steps, (N0 <= steps)%N -> (0 < steps)%N -> exists Ks ds Ss vs us xs Ks' ds' Ss' vs' us' xs',
  [/\ clqt_parBackwardPass P blocks steps None None forward = Some (Ks, ds, Ss, vs) /\
        clqt_parFwdBwdPass P x0 Ks ds Ss vs blocks steps None None forward' = Some (us, xs),
      clqt_seqBackwardPass P (blocks * steps) None None None None = Some (Ks', ds', Ss', vs') /\
        clqt_seqForwardPass P x0 Ks' ds' None None zoh = Some (us', xs'),
      [/\ size Ks = size Ks', size ds = size ds', size Ss = size Ss', size vs = size vs' & size us = size us' /\ size xs = size xs'],
      forall i, (i <= blocks * steps)%N -> [/\ within (D / steps%:R) (nth 0 Ss i) (nth 0 Ss' i), within (D / steps%:R) (nth 0 vs i) (nth 0 vs' i) &
        within (D / steps%:R) (nth 0 xs i) (nth 0 xs' i)] &
      forall i, (i < blocks * steps)%N -> [/\ within (D / steps%:R) (nth 0 Ks i) (nth 0 Ks' i), within (D / steps%:R) (nth 0 ds i) (nth 0 ds' i) &
        within (D / steps%:R) (nth 0 us i) (nth 0 us' i)]].
Proof.
move=> B0; have T0 := ltW T1; have [wP _ _] := cw.
have [S [v [b [C [sol fsol un [fx [c [sx e0 opt]]]]]]]] := exist_all T0 cw lP x0.
set x : R -> 'cV[Rf]_n := fun t : R => _ in fx sx e0 opt; set u := fun t : R => _ in fx sx opt.
have [D [D0 H]] := tfb_nrm T0 cw lP sol fsol un forward forward' B0; have [N0 HN0] := big_nat_above D.
have [Dk [Nk Hk]] := par_value T0 cw lP sol forward B0.
have [Ds [Ns Hs]] := back_converges T0 wP lP sol.
have [Df [Nf Hf]] := fwd_gains T1 wP lP sol sx fx zoh.
pose Q := `|Ds| + `|Df|.
have Ds1 : Ds <= Q by apply: le_trans (ler_norm _) _; rewrite ler_addl normr_ge0.
have Df1 : Df <= Q by apply: le_trans (ler_norm _) _; rewrite ler_addr normr_ge0.
have Q0 : 0 <= Q by rewrite addr_ge0 ?normr_ge0.
pose E := D + `|Dk|.
have E1 : D <= E by rewrite ler_addl normr_ge0.
have E2 : Dk <= E by apply: le_trans (ler_norm _) _; rewrite ler_addr.
exists (E + Q), (N0 + (Nk + (Ns + Nf)))%N => M le M0.
have [n0 nk ns nf] : [/\ N0 <= M, Nk <= M, Ns <= M & Nf <= M]%N by move: le; clear; split; lia.
have BM : (M <= blocks * M)%N by rewrite leq_pmull.
have BM0 : (0 < blocks * M)%N by rewrite muln_gt0 B0.
have mi (N : nat) : 0 <= N%:R^-1 :> Rf by rewrite invr_ge0 ler0n.
have [Ks [ds [Ss [vs [us [xs [e1 e2 [su sx'] hx hu]]]]]]] := H M M0 (HN0 M n0).
have [a1 [a2 [a3 [a4 [e1' zs hS hK]]]]] := Hk M nk M0.
move: e1' zs hS hK; rewrite e1 => -[<- <- <- <-] [z1 z2 z3 z4] hS hK.
have [Ks' [ds' [Ss' [vs' [e3 [y1 y2 y3 y4] hS' hK']]]]] := Hs (blocks * M)%N (leq_trans ns BM) BM0.
have [b1 [b2 [b3 [b4 [us' [xs' [e3' [e4 _] [y5 y6] hx' hu']]]]]]] := Hf (blocks * M)%N (leq_trans nf BM) BM0.
move: e3' e4; rewrite e3 -[x 0]/(invmx _ *m _) e0 => -[<- <- _ _] e4.
have wl k l (X Y : 'M[Rf]_(k, l)) : within (Dk / M%:R) X Y -> within (E / M%:R) X Y by apply: within_le; rewrite ler_wpmul2r.
have wl' k l (X Y : 'M[Rf]_(k, l)) : nrm (X - Y) <= D / M%:R -> within (E / M%:R) X Y.
  by move/within_of; apply: within_le; rewrite ler_wpmul2r.
have ws k l (X Y : 'M[Rf]_(k, l)) : within (Ds / (blocks * M)%:R) X Y -> within (Q / (blocks * M)%:R) X Y by apply: within_le; rewrite ler_wpmul2r.
have wf k l (X Y : 'M[Rf]_(k, l)) : within (Df / (blocks * M)%:R) X Y -> within (Q / (blocks * M)%:R) X Y by apply: within_le; rewrite ler_wpmul2r.
have meet := within_meet B0 M0 Q0.
exists Ks, ds, Ss, vs, us, xs, Ks', ds', Ss', vs', us', xs'; split=> //.
- by rewrite z1 z2 z3 z4 su sx' y1 y2 y3 y4 y5 y6.
- move=> i iM; have [h1 h2] := hS i iM; have [h1' h2'] := hS' i iM; split.
  + exact: meet (wl _ _ _ _ h1) (ws _ _ _ _ h1').
  + exact: meet (wl _ _ _ _ h2) (ws _ _ _ _ h2').
  exact: meet (wl' _ _ _ _ (hx i iM)) (wf _ _ _ _ (hx' i iM)).
move=> i iM; have [K [d [eK h1 h2]]] := hK i iM; have [K' [d' [eK' h1' h2']]] := hK' i iM.
move: eK'; rewrite eK => -[? ?]; subst K' d'; split.
- exact: meet (wl _ _ _ _ h1) (ws _ _ _ _ h1').
- exact: meet (wl _ _ _ _ h2) (ws _ _ _ _ h2').
exact: meet (wl' _ _ _ _ (hu i iM)) (wf _ _ _ _ (hu' i iM)).
Qed.
End Main.
