(** Trajectories of the tracker with any gains that converge to the exact ones, in particular those of the parallel pass. *)
From Coq Require Import Reals.
From mathcomp Require Import all_ssreflect all_algebra zify.
From Verif Require Import RealF MxBase LqtModel LqtCore ClqtModel ClqtSpec ClqtPack ClqtFwd2 ClqtHjb Rk4Model RealExpSpec RealExp ClqrOpt RealDisc RkConvA RkConvC RkConv FbConvC TrackOptSpec TvarSpec TvarInv Tvar TvarRk TvarLip TvarPack TvarBwd TvarFwd
  TvarExistSpec TvarExist TvarParE.
Import Order.TTheory GRing.Theory Num.Theory.
Set Implicit Arguments. Unset Strict Implicit. Unset Printing Implicit Defensive.
Local Open Scope ring_scope.
Delimit Scope R_scope with Re.

Section Fwd.
Variables n m p pT : nat.
Variable P : clqt Rf n m p pT.
Local Notation T := (kT P).
Hypothesis T1 : 0 < T.
Hypothesis wP : tracking_weights P 0.
Hypothesis lP : lipschitz_data P.
Let T0 : 0 <= T := ltW T1.
Variables (S : R -> 'M[Rf]_n) (v : R -> 'cV[Rf]_n).
Hypothesis sol : backward_solution P S v [::] 0.
Local Notation Kt := (Kt P S). Local Notation dt := (dt P v). Local Notation fcl := (fcl P S v).
Let K_lip : lipschitz_on T Kt := K_lip T1 wP lP sol.
Let d_lip : lipschitz_on T dt := d_lip T1 wP lP sol.
Let bl_fcl : bl T fcl := bl_fcl T1 wP lP sol.
Variables (x : R -> 'cV[Rf]_n) (u : R -> 'cV[Rf]_m) (cc : R -> Rf).
Hypothesis sx : steered P x u cc [::] 0.
Hypothesis fx : feedback P S v x u [::] 0.
Let x_cont := x_cont sx.
Let x_deriv := x_deriv wP sx fx.

Section Comp.
Variables (Kof : nat -> nat -> 'M[Rf]_(m, n)) (dof : nat -> nat -> 'cV[Rf]_m).
Hypothesis Kdc : exists (D : Rf) N0, 0 <= D /\ forall M, (N0 <= M)%N -> (0 < M)%N -> forall j, (j < M)%N -> let t := j%:R * (T / M%:R) in
  nrm (Kof M j - Kt t) <= D / M%:R /\ nrm (dof M j - dt t) <= D / M%:R.
Variable zoh : bool.
Definition uc (M i : nat) (w : 'cV[Rf]_n) : 'cV[Rf]_m := - Kof M i *m w + dof M i.
Definition gc (M i : nat) (x : 'cV[Rf]_n) (y : 'cV[Rf]_n) (t : Rf) : 'cV[Rf]_n := kF P t *m y + kL P t *m uc M i (if zoh then x else y) + kc P t.
Fixpoint xf (M i : nat) : 'cV[Rf]_n := if i is i'.+1 then tstp (gc M i' (xf M i')) (T / M%:R) (xf M i') (i'%:R * (T / M%:R)) else x 0.
(** the gains stay close and bounded *)
Lemma gains : exists B E N1, [/\ 0 <= B, 0 <= E & forall M i, (N1 <= M)%N -> (0 < M)%N -> (i < M)%N -> nrm (Kof M i) <= B /\
  forall s, i%:R * (T / M%:R) <= s <= i%:R * (T / M%:R) + T / M%:R -> nrm (Kof M i - Kt s) <= E / M%:R /\ nrm (dof M i - dt s) <= E / M%:R].
Proof.
have [D [N0 [D0 H]]] := Kdc.
have [L L0 HL] := (lip_nrm T Kt).1 K_lip; have [L' L0' HL'] := (lip_nrm T dt).1 d_lip.
have [BK BK0 HBK] := lip_bounded T0 K_lip.
pose E := D + (L + L') * T; have E0 : 0 <= E by rewrite addr_ge0 ?mulr_ge0 ?addr_ge0.
exists (BK + D), E, N0; split=> // [|M i N0M Mp iM]; first exact: addr_ge0.
have Mr : 0 < (M%:R : Rf) by rewrite ltr0n.
have [h1 h2] := H M N0M Mp i iM.
have ti := grid_ok T0 Mp (ltnW iM).
split.
  rewrite -[Kof M i](subrK (Kt (i%:R * (T / M%:R)))) addrC; apply: le_trans (nrmD _ _) _; apply: ler_add; first exact: HBK.
  by apply: le_trans h1 _; rewrite ler_pdivr_mulr // ler_pemulr // ler1n.
move=> s /andP [s1 s2].
have ts : 0 <= s <= T.
  case/andP: ti => ti _; rewrite (le_trans ti s1) /=; apply: le_trans s2 _.
  have := grid_ok T0 Mp iM => /andP [_]; by rewrite -[i.+1]addn1 natrD mulrDl mul1r.
have near : `|i%:R * (T / M%:R) - s| <= T / M%:R.
  by rewrite distrC ger0_norm ?subr_ge0 // ler_subl_addl.
split.
  rewrite (_ : Kof M i - Kt s = (Kof M i - Kt (i%:R * (T / M%:R))) + (Kt (i%:R * (T / M%:R)) - Kt s)); last by rewrite addrA subrK.
  apply: le_trans (nrmD _ _) _; rewrite mulrDl; apply: ler_add => //.
  apply: le_trans (HL _ _ ti ts) _; rewrite -mulrA; apply: ler_pmul => //; by rewrite ler_addl.
rewrite (_ : dof M i - dt s = (dof M i - dt (i%:R * (T / M%:R))) + (dt (i%:R * (T / M%:R)) - dt s)); last by rewrite addrA subrK.
apply: le_trans (nrmD _ _) _; rewrite mulrDl; apply: ler_add => //.
apply: le_trans (HL' _ _ ti ts) _; rewrite -mulrA; apply: ler_pmul => //; by rewrite ler_addr.
Qed.
Lemma xf_close : exists D N0, 0 <= D /\ forall M, (N0 <= M)%N -> (0 < M)%N -> forall i, (i <= M)%N -> nrm (xf M i - x (i%:R * (T / M%:R))%R) <= D / M%:R.
Proof.
apply: (@rk_order1 _ _ fcl x T T0 _ x_cont x_deriv xf (fun M i => gc M i (xf M i))) => //; first exact: bl_nrm bl_fcl.
move=> M; have [B [E [N1 [B0 E0 H]]]] := gains.
have [BL BL0 HBL] := lip_bounded T0 (let: conj (And4 _ h _ _) _ := lP in h).
pose M' := `|M|; have M0' : 0 <= M' + 1 by rewrite addr_ge0 ?ler01 ?normr_ge0.
pose G := BL * (B + E / T * (M' + 1)).
have ET : 0 <= E / T * (M' + 1) by rewrite mulr_ge0 ?divr_ge0.
exists G, N1; split=> [|N i N1N Np iN h hx y s hy hs]; first by rewrite mulr_ge0 ?addr_ge0.
have [hK hs'] := H N i N1N Np iN; have [h1 h2] := hs' s hs.
have Nr : (N%:R : Rf) != 0 by rewrite pnatr_eq0 -lt0n.
have ts : 0 <= s <= T.
  have /andP [ti _] := grid_ok T0 Np (ltnW iN); case/andP: hs => s1 s2; rewrite (le_trans ti s1) /=; apply: le_trans s2 _.
  have := grid_ok T0 Np iN => /andP [_]; by rewrite -[i.+1]addn1 natrD mulrDl mul1r.
have -> : gc N i (xf N i) y s - fcl y s = kL P s *m (uc N i (if zoh then xf N i else y) - (- Kt s *m y + dt s)).
  by rewrite /gc /fcl mulmxBr mid_gap.
apply: le_trans (nrm_mul _ _) _; rewrite /G -mulrA; apply: ler_pmul; rewrite ?nrm_ge0 //; first exact: HBL.
have hy' : nrm y <= M' by apply: le_trans hy _; exact: ler_norm.
apply: le_trans (u_gap_le _ hK hy' h1 h2) _.
have w : nrm (y - (if zoh then xf N i else y)) <= nrm (y - xf N i) by case: zoh => //; rewrite subrr nrm0 nrm_ge0.
have e : E / N%:R * (M' + 1) = E / T * (M' + 1) * h.
  by rewrite /h [RHS]mulrAC [E / T * (T / _)]mulrA divfK ?gt_eqF.
rewrite e mulrDl [B * (h + _)]mulrDr; apply: ler_add.
  by apply: ler_paddl; [rewrite mulr_ge0 // divr_ge0 ?ler0n | rewrite ler_wpmul2l].
by rewrite ler_wpmul2l // ler_addl nrm_ge0.
Qed.
Lemma uf_close : exists D N0, 0 <= D /\ forall M, (N0 <= M)%N -> (0 < M)%N -> forall i, (i < M)%N -> let t := i%:R * (T / M%:R) in
  nrm (uc M i (xf M i) - (- Kt t *m x t + dt t)) <= D / M%:R.
Proof.
have [D [N0 [D0 H]]] := xf_close; have [B [E [N1 [B0 E0 H']]]] := gains; have [M M0 HM] := bounded_on T0 x_cont.
exists (B * D + E * (M + 1)), (maxn N0 N1); split=> [|N]; first by rewrite addr_ge0 ?mulr_ge0 ?addr_ge0 ?ler01.
rewrite geq_max => /andP [n0 n1] Np i iN; set t := i%:R * _; rewrite /=; have [hK hs] := H' N i n1 Np iN.
have [|h1 h2] := hs t; first by rewrite lexx ler_addl divr_ge0 ?ler0n.
apply: le_trans (u_gap_le _ hK (HM _ (grid_ok T0 Np (ltnW iN))) h1 h2) _.
rewrite mulrDl [E * _ / _]mulrAC -nrmN opprB ler_add2r -mulrA ler_wpmul2l //; exact: H (ltnW iN).
Qed.
Lemma fstep M i : rk4_xt (V := matrix_lmodType Rf n 1) (cl_ode P zoh (Kof M i) (dof M i) (uc M i (xf M i))) (T / M%:R) (xf M i) (0 + i%:R * (T / M%:R)) = Some (xf M i.+1).
Proof.
rewrite add0r (@tstp_rk4 _ _ _ (gc M i (xf M i))) ?divr_ge0 ?ler0n // => y s _.
by rewrite /cl_ode /gc; case: zoh.
Qed.
Lemma floop M k i : fwd_loop P (T / M%:R) 0 zoh [seq Kof M j | j <- iota i k] [seq dof M j | j <- iota i k] i (xf M i) =
  Some ([seq uc M j (xf M j) | j <- iota i k], [seq xf M j.+1 | j <- iota i k]).
Proof.
elim: k i => [//|k IH] i; rewrite [iota _ _]/= ![map _ (_ :: _)]/= [fwd_loop _ _ _ _ _ _ _ _]/=.
by rewrite fstep obindS IH obindS.
Qed.
Lemma forwardE M : (0 < M)%N -> clqt_seqForwardPass P (x 0) [seq Kof M j | j <- iota 0 M] [seq dof M j | j <- iota 0 M] None None zoh =
  Some ([seq uc M j (xf M j) | j <- iota 0 M], [seq xf M j | j <- iota 0 M.+1]).
Proof.
move=> Mp; rewrite /clqt_seqForwardPass size_map size_iota /dt_or /div_nats (_ : (M == 0%N) = false); last by lia.
rewrite obindS (floop M M 0) obindS.
have -> // : [seq xf M j.+1 | j <- iota 0 M] = [seq xf M j | j <- iota 1 M] by rewrite (iotaDl 1 0 M) -map_comp.
Qed.
End Comp.

(** the gains of the parallel backward pass *)
Section Gains.
Hypothesis cw : convex_weights P.
Variable fw : bool.
Variable B : nat.
Hypothesis B0 : (0 < B)%N.
Local Notation par M := (clqt_parBackwardPass P B (M %/ B)%N None None fw).
Definition Kp M j : 'M[Rf]_(m, n) := if (B %| M)%N then (if par M is Some (Ks, _, _, _) then nth 0 Ks j else 0) else Kt (j%:R * (T / M%:R)).
Definition dp M j : 'cV[Rf]_m := if (B %| M)%N then (if par M is Some (_, ds, _, _) then nth 0 ds j else 0) else dt (j%:R * (T / M%:R)).
Lemma par_gains_close : exists (D : Rf) N0, 0 <= D /\ forall M, (N0 <= M)%N -> (0 < M)%N -> forall j, (j < M)%N -> let t := j%:R * (T / M%:R) in
  nrm (Kp M j - Kt t) <= D / M%:R /\ nrm (dp M j - dt t) <= D / M%:R.
Proof.
have [D [D0 H]] := par_nrm T0 cw lP sol fw B0; have [N0 HN0] := big_nat_above D.
exists (D * B%:R), (B * N0)%N; split=> [|M N0M Mp j jM t]; first by rewrite mulr_ge0 ?ler0n.
rewrite /Kp /dp; case: ifP => [/dvdnP [s eM]|_]; last by rewrite !subrr !nrm0 divr_ge0 ?mulr_ge0 ?ler0n.
have sp : (0 < s)%N by nia.
have [|Ks [ds [Ss [vs [E _ _ HK]]]]] := H s sp; first by apply: HN0; nia.
have jB : (j < B * s)%N by rewrite mulnC -eM.
rewrite eM mulnK // E; have := HK j jB; rewrite /tg (mulnC B) -eM -/t.
have -> // : D / s%:R = D * B%:R / M%:R.
by rewrite eM natrM -mulf_div divff ?mulr1 // pnatr_eq0 -lt0n.
Qed.
Theorem par_fwd_gains : forall zoh, exists (D : Rf) N0, forall steps, (N0 <= steps)%N -> (0 < steps)%N ->
  let t i := i%:R * (T / (B * steps)%:R) in exists Ks ds Ss vs us xs,
  [/\ clqt_parBackwardPass P B steps None None fw = Some (Ks, ds, Ss, vs),
      clqt_seqForwardPass P (x 0) Ks ds None None zoh = Some (us, xs) /\
        (zoh = false -> clqt_parForwardPass P (x 0) Ks ds B steps None None true false = Some (us, xs)),
      size us = (B * steps)%N /\ size xs = (B * steps).+1,
      forall i, (i <= B * steps)%N -> within (D / steps%:R) (nth 0 xs i) (x (t i)) &
      forall i, (i < B * steps)%N -> within (D / steps%:R) (nth 0 us i) (- Kt (t i) *m x (t i) + dt (t i))].
Proof.
move=> zoh; have [D [N0 [D0 H]]] := xf_close par_gains_close zoh; have [D' [N1 [D0' H']]] := uf_close par_gains_close zoh.
have [D2 [D20 H2]] := par_nrm T0 cw lP sol fw B0; have [N2 HN2] := big_nat_above D2.
exists (Order.max D D'), (maxn (maxn N0 N1) N2) => s; rewrite !geq_max => /andP [/andP [s0 s1] s2] sp.
pose M := (B * s)%N; rewrite -/M; set t := fun i => _.
have sM : (s <= M)%N by rewrite leq_pmull.
have M0 := leq_trans s0 sM; have M1 := leq_trans s1 sM; have Mp := leq_trans sp sM.
have [Ks [ds [Ss [vs [E [sK sd _ _] _ _]]]]] := H2 s sp (HN2 s s2).
have BM : (B %| M)%N by rewrite dvdn_mulr.
have eK : Ks = [seq Kp M j | j <- iota 0 M].
  apply: (@eq_from_nth _ 0) => [|j]; rewrite ?size_map ?size_iota // sK => jM.
  by rewrite (nth_map 0%N) ?size_iota // nth_iota // /Kp BM mulKn // E.
have ed : ds = [seq dp M j | j <- iota 0 M].
  apply: (@eq_from_nth _ 0) => [|j]; rewrite ?size_map ?size_iota // sd => jM.
  by rewrite (nth_map 0%N) ?size_iota // nth_iota // /dp BM mulKn // E.
exists Ks, ds, Ss, vs, [seq uc Kp dp M j (xf Kp dp zoh M j) | j <- iota 0 M], [seq xf Kp dp zoh M j | j <- iota 0 M.+1].
have sr : 0 < (s%:R : Rf)^-1 by rewrite invr_gt0 ltr0n.
have l0 (d : Rf) : 0 <= d -> d / M%:R <= d / s%:R by move=> d0; rewrite ler_wpmul2l // lef_pinv ?posrE ?ltr0n // ler_nat.
have l1 : D / M%:R <= Order.max D D' / s%:R by apply: le_trans (l0 D D0) _; rewrite ler_pmul2r // le_maxr lexx.
have l2 : D' / M%:R <= Order.max D D' / s%:R by apply: le_trans (l0 D' D0') _; rewrite ler_pmul2r // le_maxr lexx orbT.
split=> //; rewrite ?eK ?ed.
- split=> [|z]; first exact: forwardE.
  subst zoh; rewrite (C43_np_l P (x 0) _ _ B s None None true).1; last by rewrite size_map size_iota.
  exact: forwardE.
- by rewrite !size_map !size_iota.
- move=> i iM; rewrite (nth_map 0%N) ?size_iota ?ltnS // nth_iota ?ltnS // add0n; apply: within_of; apply: le_trans l1; exact: H.
by move=> i iM; rewrite (nth_map 0%N) ?size_iota // nth_iota // add0n; apply: within_of; apply: le_trans l2; exact: H'.
Qed.
End Gains.
End Fwd.

Section Main.
Variables n m p pT : nat.
Variable P : clqt Rf n m p pT.
Lemma par_value : 0 <= kT P -> convex_weights P -> lipschitz_data P -> forall S v, backward_solution P S v [::] 0 ->
  forall forward blocks, (0 < blocks)%N -> exists (D : Rf) N0, forall steps, (N0 <= steps)%N -> (0 < steps)%N ->
  let t i := i%:R * (kT P / (blocks * steps)%:R) in exists Ks ds Ss vs,
  [/\ clqt_parBackwardPass P blocks steps None None forward = Some (Ks, ds, Ss, vs),
      [/\ size Ks = (blocks * steps)%N, size ds = (blocks * steps)%N, size Ss = (blocks * steps).+1 & size vs = (blocks * steps).+1],
      forall i, (i <= blocks * steps)%N -> within (D / steps%:R) (nth 0 Ss i) (S (t i)) /\ within (D / steps%:R) (nth 0 vs i) (v (t i)) &
      forall i, (i < blocks * steps)%N -> exists K d, [/\ bwd_gain P 0 (t i) 0 (S (t i), v (t i)) = Some (K, d),
        within (D / steps%:R) (nth 0 Ks i) K & within (D / steps%:R) (nth 0 ds i) d]].
Proof. by move=> T0 cw lP S v sol fw B B0; exact: par_converges. Qed.
Lemma par_optimal : 0 < kT P -> convex_weights P -> lipschitz_data P -> forall x0, exists x u, optimal_tracking P x u x0 /\
  forall forward blocks, (0 < blocks)%N -> forall zoh, exists (D : Rf) N0, forall steps, (N0 <= steps)%N -> (0 < steps)%N ->
  let t i := i%:R * (kT P / (blocks * steps)%:R) in exists Ks ds Ss vs us xs,
  [/\ clqt_parBackwardPass P blocks steps None None forward = Some (Ks, ds, Ss, vs),
      clqt_seqForwardPass P x0 Ks ds None None zoh = Some (us, xs) /\
        (zoh = false -> clqt_parForwardPass P x0 Ks ds blocks steps None None true false = Some (us, xs)),
      size us = (blocks * steps)%N /\ size xs = (blocks * steps).+1,
      forall i, (i <= blocks * steps)%N -> within (D / steps%:R) (nth 0 xs i) (x (t i)) &
      forall i, (i < blocks * steps)%N -> within (D / steps%:R) (nth 0 us i) (u (t i))].
Proof.
move=> T1 cw lP x0; have T0 := ltW T1; have [wP _ _] := cw.
have [S [v [b [C [sol fsol un [fx [c [sx e0 opt]]]]]]]] := exist_all T0 cw lP x0.
set x : R -> 'cV[Rf]_n := fun t : R => _ in fx sx e0 opt; set u := fun t : R => _ in fx sx opt.
exists x, u; split=> [|fw B B0 zoh]; first by exists c.
have [D [N0 H]] := par_fwd_gains T1 wP lP sol sx fx cw fw B0 zoh; exists D, N0; rewrite -[x0]e0; exact: H.
Qed.
End Main.
