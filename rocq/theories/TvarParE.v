(** Convergence of the parallel backward pass for time-varying data. *)
From Coq Require Import Reals.
From mathcomp Require Import all_ssreflect all_algebra zify.
From Verif Require Import RealF MxBase LqtModel LqtSpec LqtCore LqtElem LinComb ScanModel Rk4Model ClqtModel ClqtSpec ClqtPack ClqtFwd2 RealExpSpec RealExp ClqrOpt RealDisc RkConvA RkConvC RkConv RkConvP
  FbConvC TrackOptSpec TvarSpec TvarInv TvarLip TvarPack TvarRk Tvar TvarBwd OdeLin TvarExistSpec TvarExist TvarCost ClqrPar ParConvB TvarParA TvarParB TvarParC TvarParD.
Import Order.TTheory GRing.Theory Num.Theory.
Set Implicit Arguments. Unset Strict Implicit. Unset Printing Implicit Defensive.
Local Open Scope ring_scope.
Delimit Scope R_scope with Re.

Lemma omap_seq_conv {X Y} (y0 : Y) (f : X -> option Y) (l : seq X) (Q : X -> Y -> Prop) (x0 : X) : (forall i, (i < size l)%N -> exists2 y, f (nth x0 l i) = Some y & Q (nth x0 l i) y) ->
  exists2 r, omap_seq f l = Some r & size r = size l /\ forall i, (i < size l)%N -> Q (nth x0 l i) (nth y0 r i).
Proof.
elim: l => [|x l IH] H; first by exists [::].
have [r E [sz Hr]] := IH (fun i => H i.+1); have [y Ey Qy] := H 0%N isT.
exists (y :: r); first by rewrite /= in Ey *; rewrite Ey E.
by split=> [|[|i] lt] /=; [rewrite sz | | exact: Hr].
Qed.

Section Par.
Variables n m p pT : nat.
Variable P : clqt Rf n m p pT.
Local Notation T := (kT P).
Hypothesis T0 : 0 <= T.
Hypothesis cw : convex_weights P.
Hypothesis lP : lipschitz_data P.
Variables (S : R -> 'M[Rf]_n) (v : R -> 'cV[Rf]_n).
Hypothesis sol : backward_solution P S v [::] 0.
Variable fw : bool.
Variable B : nat.
Hypothesis B0 : (0 < B)%N.
Local Notation tau := (T / B%:R).
Local Notation at_ k := (k%:R * tau).
Local Notation e0 := (Elem 0 0 0 0 0 : elem Rf n).
Definition tg (M i : nat) : Rf := i%:R * (T / (B * M)%:R).
Lemma tg_block M k i : (0 < M)%N -> at_ k + i%:R * (tau / M%:R) = tg M (k * M + i).
Proof.
move=> M0; have h : M%:R != 0 :> Rf by rewrite pnatr_eq0 -lt0n.
have e : T / (B * M)%:R = tau / M%:R by rewrite natrM invfM mulrA.
by rewrite /tg e natrD mulrDl natrM -(mulrA k%:R) [M%:R * _]mulrC (divfK h).
Qed.
Definition block_res M D k e : Prop := exists Ks ds Ss vs,
  [/\ clqt_seqBackwardPass P M (Some (tau / M%:R)) (Some (at_ k)) (Some (eJ e)) (Some (eeta e)) = Some (Ks, ds, Ss, vs),
      [/\ size Ks = M, size ds = M, size Ss = M.+1 & size vs = M.+1],
      forall i, (i <= M)%N -> nrm (nth 0 Ss i - S (tg M (k * M + i))) <= D /\ nrm (nth 0 vs i - v (tg M (k * M + i))) <= D &
      forall i, (i < M)%N -> nth 0 Ks i = ulT P (tg M (k * M + i)) *m nth 0 Ss i /\ nth 0 ds i = ulT P (tg M (k * M + i)) *m nth 0 vs i].
Lemma extract5 (G : Rf) M D k (es : seq (elem Rf n)) : (forall t : Rf, 0 <= t <= T -> nrm (ulT P t) <= G) -> (0 < M)%N -> (k + size es = B)%N ->
  (forall r, (r < size es)%N -> block_res M D (k + r) (nth e0 es r)) ->
  exists Ks ds Ss vs, [/\ par_extract_loop P (tau / M%:R) 0 M k es = Some (Ks, ds, Ss, vs),
    [/\ size Ks = (size es * M)%N, size ds = (size es * M)%N, size Ss = (size es * M)%N & size vs = (size es * M)%N],
    forall i, (i < size es * M)%N -> nrm (nth 0 Ss i - S (tg M (k * M + i.+1))) <= D /\ nrm (nth 0 vs i - v (tg M (k * M + i.+1))) <= D &
    forall i, (i < size es * M)%N -> let t := tg M (k * M + i) in
      nrm (nth 0 Ks i - ulT P t *m S t) <= G * D /\ nrm (nth 0 ds i - ulT P t *m v t) <= G * D].
Proof.
move=> HG M0; elim: es k => [|e es IH] k sz H; first by exists [::], [::], [::], [::].
have [bK [bd [bS [bv [Eb [s1 s2 s3 s4] HS HK]]]]] := H 0%N isT.
have [||Ks [ds [Ss [vs [E [z1 z2 z3 z4] HS' HK']]]]] := IH k.+1.
- by rewrite addSnnS.
- by move=> r lr; rewrite addSnnS; exact: (H r.+1).
have kB : (k < B)%N by rewrite -sz /=; lia.
rewrite addn0 in Eb HS HK.
have tk : 0 + k%:R * (tau / M%:R) * M%:R = at_ k by rewrite add0r -mulrA divfK // pnatr_eq0 -lt0n.
exists (bK ++ Ks), (bd ++ ds), (behead bS ++ Ss), (behead bv ++ vs); rewrite [par_extract_loop _ _ _ _ _ _]/=; split.
- by rewrite tk Eb obindS E.
- by rewrite !size_cat !size_behead s1 s2 s3 s4 z1 z2 z3 z4 mulSn.
- move=> i; rewrite [size _]/= -/(size es) mulSn !nth_cat !size_behead s3 s4 !nth_behead [M.+1.-1]/= => lt; case: ltnP => h; first exact: HS.
  have -> : (k * M + i.+1 = k.+1 * M + (i - M).+1)%N by nia.
  by apply: HS'; lia.
move=> i; rewrite [size _]/= -/(size es) mulSn !nth_cat s1 s2 => lt; case: ltnP => h; last first.
  have -> : (k * M + i = k.+1 * M + (i - M))%N by nia.
  by apply: HK'; lia.
have [-> ->] := HK i h; have [h1 h2] := HS i (ltnW h).
have hg : nrm (ulT P (tg M (k * M + i))) <= G.
  by apply: HG; apply: grid_ok => //; [rewrite muln_gt0 B0 | nia].
by split; rewrite -mulmxBr; apply: le_trans (nrm_mul _ _) _; apply: ler_pmul; rewrite ?nrm_ge0.
Qed.
Lemma par_nrm : exists D : Rf, 0 <= D /\ forall M, (0 < M)%N -> D <= M%:R -> exists Ks ds Ss vs,
  [/\ clqt_parBackwardPass P B M None None fw = Some (Ks, ds, Ss, vs),
      [/\ size Ks = (B * M)%N, size ds = (B * M)%N, size Ss = (B * M).+1 & size vs = (B * M).+1],
      forall i, (i <= B * M)%N -> nrm (nth 0 Ss i - S (tg M i)) <= D / M%:R /\ nrm (nth 0 vs i - v (tg M i)) <= D / M%:R &
      forall i, (i < B * M)%N -> nrm (nth 0 Ks i - ulT P (tg M i) *m S (tg M i)) <= D / M%:R /\ nrm (nth 0 ds i - ulT P (tg M i) *m v (tg M i)) <= D / M%:R].
Proof.
have [g gok] := fin_choice e0 (fun k kB => block_ex T0 cw lP sol fw B0 kB).
have [D1 D10 H1] : exists2 D, 0 <= D & forall k, (k < B)%N -> forall M, (0 < M)%N -> D <= M%:R ->
    exists2 g', block_elem P (tau / M%:R) 0 M fw k = Some g' & ed5 g' (g k) <= D / M%:R.
  apply: fin_unif => [k L L' le H M M0 LM|k kB]; last by have [_ _] := gok k kB.
  have [g' E h] := H M M0 (le_trans le LM); exists g' => //; apply: le_trans h _.
  by rewrite ler_wpmul2r // invr_ge0 ler0n.
have [L L0 HL] := scan_stable5 (exr_comb T0 cw B0 gok).
have [D2 D20 H2] := pass_unif T0 cw lP sol B0 (mulr_ge0 (ler0n _ 2) (mulr_ge0 L0 D10)).
have [wP _ _] := cw; have [G G0 HG] := lip_bounded T0 (ul_lip T0 wP lP).
pose D := L * D1 + D2 + G * D2 + D1 + D1 * L.
have l1 : D1 <= D by rewrite /D addrAC ler_addr !addr_ge0 ?mulr_ge0.
have l2 : D1 * L <= D by rewrite /D ler_addr !addr_ge0 ?mulr_ge0.
have l3 : D2 <= D by rewrite /D addrAC -!addrA addrCA ler_addl !addr_ge0 ?mulr_ge0.
have l4 : L * D1 <= D by rewrite /D -!addrA ler_addl !addr_ge0 ?mulr_ge0.
have l5 : G * D2 <= D by rewrite /D -!addrA addrCA (addrCA _ (G * D2)) (addrCA _ (G * D2)) ler_addl !addr_ge0 ?mulr_ge0.
exists D; split=> [|M M0 DM]; first exact: le_trans l1.
have Mp : 0 < M%:R :> Rf by rewrite ltr0n.
have dv (a b : Rf) : a <= b -> a / M%:R <= b / M%:R by move=> ab; rewrite ler_wpmul2r // invr_ge0 ltW.
have [es Ee [se He]] := @omap_seq_conv _ _ e0 (block_elem P (tau / M%:R) 0 M fw) (iota 0 B) (fun k e => ed5 e (g k) <= D1 / M%:R) 0%N (fun i iB => 
  ltac:(rewrite size_iota in iB; rewrite nth_iota // add0n; exact: (H1 i iB M M0 (le_trans l1 DM)))).
rewrite size_iota in se He.
pose fs := rcons es (Elem 0 0 0 (vT P) (ST P)); have sf : size fs = B.+1 by rewrite size_rcons se.
have [|||||r [Er [sr Hr]]] := HL (D1 / M%:R) fs.
- by rewrite divr_ge0 // ltW.
- by rewrite mulrAC ler_pdivr_mulr // mul1r; exact: le_trans DM.
- by move=> E; move: sf; rewrite E.
- exact: sf.
- move=> i x; case: (ltnP i (size fs)) => iB; last by rewrite nthe_none.
  rewrite (nthe e0) // => -[<-]; rewrite sf in iB; rewrite exr1 /xk nth_rcons se.
  case: (ltngtP i B) => [lt|gt|iE].
  + by have := He i lt; rewrite nth_iota.
  + by move: iB; rewrite ltnS leqNgt gt.
  by rewrite -ed5_pack subrr nrm0 divr_ge0 // ltW.
case: r Er sr Hr => // e r Er [sr] Hr.
have val k x : List.nth_error (e :: r) k = Some x -> (k <= B)%N -> nrm (eJ x - S (at_ k)) <= L * D1 / M%:R /\ nrm (eeta x - v (at_ k)) <= L * D1 / M%:R.
  move=> E kB; have := Hr k x E; have [<- <-] := exr_value T0 cw sol B0 gok kB; rewrite mulrA => h.
  by split; [exact: edJ (ed5_ed h) | exact: ed5_eta h].
have [|Ks [ds [Ss [vs [E [s1 s2 s3 s4] HS HK]]]]] := @extract5 G M (D2 / M%:R) 0 r HG M0 sr.
- move=> k lk; rewrite add0n; have kB : (k < B)%N by rewrite -sr.
  have [h1 h2] := val k.+1 (nth e0 r k) (nthe e0 lk) kB.
  have [|Ks [ds [Ss [vs [E sz HS HK]]]]] := H2 k kB M M0 (le_trans l3 DM) (eJ (nth e0 r k)) (eeta (nth e0 r k)).
    by rewrite -mulrA mulr2n mulrDl mul1r; exact: ler_add.
  by exists Ks, ds, Ss, vs; split=> // i iM; rewrite -tg_block; [exact: HS | | exact: HK |].
rewrite sr in s1 s2 s3 s4 HS HK.
have dtE : T / M%:R / B%:R = tau / M%:R by rewrite mulrAC.
exists Ks, ds, (eJ e :: Ss), (eeta e :: vs); split.
- rewrite /clqt_parBackwardPass /dt_or /div_nats !gtn_eqF // dtE !obindS /clqt_parBackwardPass_init [or_else _ _]/= Ee !obindS Er obindS.
  by rewrite /clqt_parBackwardPass_extract E obindS.
- by rewrite /= s1 s2 s3 s4.
- case=> [|i] le /=.
    have [h1 h2] := val 0%N e erefl (leq0n _); rewrite /tg mul0r; rewrite mul0r in h1 h2.
    by split; [apply: le_trans h1 _ | apply: le_trans h2 _]; exact: dv.
  by have [h1 h2] := HS i le; split; [apply: le_trans h1 _ | apply: le_trans h2 _]; exact: dv.
move=> i lt; have [h1 h2] := HK i lt; rewrite mulrA in h1 h2.
by split; [apply: le_trans h1 _ | apply: le_trans h2 _]; exact: dv.
Qed.
Theorem par_converges : exists (D : Rf) N0, forall steps, (N0 <= steps)%N -> (0 < steps)%N ->
  let t i := i%:R * (T / (B * steps)%:R) in exists Ks ds Ss vs,
  [/\ clqt_parBackwardPass P B steps None None fw = Some (Ks, ds, Ss, vs),
      [/\ size Ks = (B * steps)%N, size ds = (B * steps)%N, size Ss = (B * steps).+1 & size vs = (B * steps).+1],
      forall i, (i <= B * steps)%N -> within (D / steps%:R) (nth 0 Ss i) (S (t i)) /\ within (D / steps%:R) (nth 0 vs i) (v (t i)) &
      forall i, (i < B * steps)%N -> exists K d, [/\ bwd_gain P 0 (t i) 0 (S (t i), v (t i)) = Some (K, d),
        within (D / steps%:R) (nth 0 Ks i) K & within (D / steps%:R) (nth 0 ds i) d]].
Proof.
have [D [D0 H]] := par_nrm; have [N0 HN0] := big_nat_above D.
exists D, N0 => M N0M M0 t; have [Ks [ds [Ss [vs [E sz HS HK]]]]] := H M M0 (HN0 M N0M).
exists Ks, ds, Ss, vs; split=> // i iM.
  by have [h1 h2] := HS i iM; split; exact: within_of.
have [h1 h2] := HK i iM; exists (ulT P (t i) *m S (t i)), (ulT P (t i) *m v (t i)).
have [wP _ _] := cw; split; [|exact: within_of|exact: within_of].
by rewrite /bwd_gain mul0r addr0 (ULT_E wP (grid_ok T0 _ (ltnW iM))) // muln_gt0 B0.
Qed.
End Par.
