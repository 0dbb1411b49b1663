(** The forward pass converges to the trajectory of the optimal feedback. *)
From Coq Require Import Reals.
From mathcomp Require Import all_ssreflect all_algebra zify.
From Verif Require Import RealF MxBase LqtModel LqtCore ClqtModel ClqtSpec ClqtPack ClqtFwd2 ClqtHjb Rk4Model RealExpSpec RealExp ClqrOpt RealDisc RkConvA RkConvC RkConv FbConvC TrackOptSpec TvarSpec TvarInv Tvar TvarRk TvarLip TvarPack TvarBwd.
Import Order.TTheory GRing.Theory Num.Theory.
Set Implicit Arguments. Unset Strict Implicit. Unset Printing Implicit Defensive.
Local Open Scope ring_scope.
Delimit Scope R_scope with Re.

Lemma solution_lip k l (f : 'M[Rf]_(k, l) -> Rf -> 'M[Rf]_(k, l)) (z : R -> 'M[Rf]_(k, l)) (T : Rf) : 0 <= T -> bl T f ->
  (forall t : Rf, 0 <= t <= T -> mcont z t) -> (forall t : Rf, 0 < t < T -> mderiv z t (f (z t) t)) -> lipschitz_on T z.
Proof.
move=> T0 /bl_nrm bf zc zd; have [C C0 HC] := exact_euler T0 bf zc zd.
have [M M0 HM] := bounded_on T0 zc; have [L L0 HL] := bf M.
have step (s t : Rf) : 0 <= s <= T -> 0 <= t <= T -> s <= t -> nrm (z t - z s) <= (C * T + L) * (t - s).
  move=> hs ht st; have h0 : 0 <= t - s by rewrite subr_ge0.
  have [s0 sT] := andP hs; have [t0 tT] := andP ht.
  have e : s + (t - s) = t by rewrite addrC subrK.
  have := HC s (t - s) s0 h0; rewrite e => /(_ tT) h.
  have -> : z t - z s = (z t - (z s + (t - s) *: f (z s) s)) + (t - s) *: f (z s) s by rewrite opprD addrA subrK.
  apply: le_trans (nrmD _ _) _; rewrite mulrDl; apply: ler_add.
    apply: le_trans h _; rewrite expr2 mulrA ler_wpmul2r // ler_wpmul2l // ler_subl_addr.
    by apply: le_trans tT _; rewrite ler_addl.
  rewrite nrmZ ger0_norm // mulrC ler_wpmul2r //; exact: (HL (z s) (z s) s s (HM s hs) (HM s hs) hs hs).1.
apply/lip_nrm; exists (C * T + L); first by rewrite addr_ge0 ?mulr_ge0.
move=> s t hs ht; case: (leP s t) => [st|/ltW st].
  by rewrite -nrmN opprB [`|s - t|]distrC ger0_norm ?subr_ge0 //; exact: step.
by rewrite ger0_norm ?subr_ge0 //; exact: step.
Qed.

Lemma mid_gap (V : zmodType) (a b c d : V) : a + b + c - (a + d + c) = b - d.
Proof. by rewrite [a + b + c]addrAC [a + d + c]addrAC opprD addrACA subrr add0r. Qed.
Section Fwd.
Variables n m p pT : nat.
Variable P : clqt Rf n m p pT.
Local Notation T := (kT P).
Hypothesis T1 : 0 < T.
Hypothesis wP : tracking_weights P 0.
Hypothesis lP : lipschitz_data P.
Let T0 : 0 <= T := ltW T1.
Local Notation ul := (ulT P).
Variables (S : R -> 'M[Rf]_n) (v : R -> 'cV[Rf]_n).
Hypothesis sol : backward_solution P S v [::] 0.
Lemma Sv_lip : lipschitz_on T S /\ lipschitz_on T v.
Proof.
have : lipschitz_on T (fun t => pack_Sv (S t, v t)).
  apply: (solution_lip (f := rr P)) => //; first exact: bl_rr.
    by move=> t ht; case: sol => _ _ c _; have [cS cv _] := c t ht; exact: mcont_Sv.
  by move=> t ht; exact: Sv_deriv.
move=> /lip_nrm [L L0 H]; split; apply/lip_nrm; exists L => // s t hs ht; apply: le_trans (H s t hs ht); rewrite Sv_sub nrm_Sv.
  by rewrite ler_addl nrm_ge0.
by rewrite ler_addr nrm_ge0.
Qed.
Definition Kt (t : Rf) : 'M[Rf]_(m, n) := ul t *m S t.
Definition dt (t : Rf) : 'cV[Rf]_m := ul t *m v t.
Lemma K_lip : lipschitz_on T Kt. Proof. by apply: lip_mul; [exact: ul_lip | exact: Sv_lip.1]. Qed.
Lemma d_lip : lipschitz_on T dt. Proof. by apply: lip_mul; [exact: ul_lip | exact: Sv_lip.2]. Qed.
Variables (x : R -> 'cV[Rf]_n) (u : R -> 'cV[Rf]_m) (cc : R -> Rf).
Hypothesis sx : steered P x u cc [::] 0.
Hypothesis fx : feedback P S v x u [::] 0.
Definition fcl (y : 'cV[Rf]_n) (t : Rf) : 'cV[Rf]_n := kF P t *m y + kL P t *m (- Kt t *m y + dt t) + kc P t.
Lemma bl_fcl : bl T fcl.
Proof.
apply: bl_add; last exact: bl_c.
apply: bl_add; apply: bl_mul; [exact: bl_F | exact: bl_id | exact: bl_L | ].
apply: bl_add; last exact: bl_time d_lip.
by apply: bl_mul; [apply: bl_opp; exact: bl_time K_lip | exact: bl_id].
Qed.
Lemma x_cont (t : Rf) : 0 <= t <= T -> mcont x t. Proof. by case: sx => c _ /c []. Qed.
Lemma x_deriv (t : Rf) : 0 < t < T -> mderiv x t (fcl (x t) t).
Proof.
move=> ht; have [d _] := (sx.2) t ht isT; have := (feedbackE wP S v x u [::]).1 fx t ht isT => e.
have -> // : fcl (x t) t = kF P t *m x t + kc P t + kL P t *m u t.
by rewrite /fcl e addrAC.
Qed.

Section Comp.
Variable zoh : bool.
Local Notation Kof := (Kof P). Local Notation dof := (dof P).
Definition uc (M i : nat) (w : 'cV[Rf]_n) : 'cV[Rf]_m := - Kof M i *m w + dof M i.
Definition gc (M i : nat) (x : 'cV[Rf]_n) (y : 'cV[Rf]_n) (t : Rf) : 'cV[Rf]_n := kF P t *m y + kL P t *m uc M i (if zoh then x else y) + kc P t.
Fixpoint xf (M i : nat) : 'cV[Rf]_n := if i is i'.+1 then tstp (gc M i' (xf M i')) (T / M%:R) (xf M i') (i'%:R * (T / M%:R)) else x 0.
(** the gains stay close and bounded *)
Lemma u_gap (K K' : 'M[Rf]_(m, n)) (d d' : 'cV[Rf]_m) (w y : 'cV[Rf]_n) : - K *m w + d - (- K' *m y + d') = K *m (y - w) - (K - K') *m y + (d - d').
Proof. by rewrite mulmxBr mulmxBl !mulNmx; abelr. Qed.
Lemma u_gap_le (K K' : 'M[Rf]_(m, n)) (d d' : 'cV[Rf]_m) (w y : 'cV[Rf]_n) (B M e : Rf) : nrm K <= B -> nrm y <= M -> nrm (K - K') <= e -> nrm (d - d') <= e ->
  nrm (- K *m w + d - (- K' *m y + d')) <= B * nrm (y - w) + e * (M + 1).
Proof.
move=> hK hy hK' hd; rewrite u_gap mulrDr mulr1 addrA; apply: le_trans (nrmD _ _) _; apply: ler_add => //.
apply: le_trans (nrmD _ _) _; rewrite nrmN; apply: ler_add; apply: le_trans (nrm_mul _ _) _; first by rewrite ler_wpmul2r ?nrm_ge0.
by apply: ler_pmul; rewrite ?nrm_ge0.
Qed.
Lemma gains : exists B E N1, [/\ 0 <= B, 0 <= E & forall M i, (N1 <= M)%N -> (0 < M)%N -> (i < M)%N -> nrm (Kof M i) <= B /\
  forall s, i%:R * (T / M%:R) <= s <= i%:R * (T / M%:R) + T / M%:R -> nrm (Kof M i - Kt s) <= E / M%:R /\ nrm (dof M i - dt s) <= E / M%:R].
Proof.
have [D [N0 [D0 H]]] := Kd_close T0 wP lP sol.
have [L L0 HL] := (lip_nrm T Kt).1 K_lip; have [L' L0' HL'] := (lip_nrm T dt).1 d_lip.
have [BK BK0 HBK] := lip_bounded T0 K_lip.
pose E := D + (L + L') * T; have E0 : 0 <= E by rewrite addr_ge0 ?mulr_ge0 ?addr_ge0.
exists (BK + D), E, N0; split=> // [|M i N0M Mp iM]; first exact: addr_ge0.
have Mr : 0 < (M%:R : Rf) by rewrite ltr0n.
have [h1 h2] := H M N0M Mp i (ltnW iM).
have ti := grid_ok T0 Mp (ltnW iM).
split.
  rewrite -[Kof M i](subrK (Kt (i%:R * (T / M%:R)))) addrC; apply: le_trans (nrmD _ _) _; apply: ler_add; first exact: HBK.
  by apply: le_trans h1 _; rewrite ler_pdivr_mulr // ler_pemulr // ler1n.
move=> s /andP [s1 s2].
have ts : 0 <= s <= T.
  case/andP: ti => ti _; rewrite (le_trans ti s1) /=; apply: le_trans s2 _.
  have := grid_ok T0 Mp iM => /andP [_]; by rewrite -[i.+1]addn1 natrD mulrDl mul1r.
have near : `|i%:R * (T / M%:R) - s| <= T / M%:R.
  by rewrite distrC ger0_norm ?subr_ge0 // ler_subl_addl.
split.
  rewrite (_ : Kof M i - Kt s = (Kof M i - Kt (i%:R * (T / M%:R))) + (Kt (i%:R * (T / M%:R)) - Kt s)); last by rewrite addrA subrK.
  apply: le_trans (nrmD _ _) _; rewrite mulrDl; apply: ler_add => //.
  apply: le_trans (HL _ _ ti ts) _; rewrite -mulrA; apply: ler_pmul => //; by rewrite ler_addl.
rewrite (_ : dof M i - dt s = (dof M i - dt (i%:R * (T / M%:R))) + (dt (i%:R * (T / M%:R)) - dt s)); last by rewrite addrA subrK.
apply: le_trans (nrmD _ _) _; rewrite mulrDl; apply: ler_add => //.
apply: le_trans (HL' _ _ ti ts) _; rewrite -mulrA; apply: ler_pmul => //; by rewrite ler_addr.
Qed.
Lemma xf_close : exists D N0, 0 <= D /\ forall M, (N0 <= M)%N -> (0 < M)%N -> forall i, (i <= M)%N -> nrm (xf M i - x (i%:R * (T / M%:R))%R) <= D / M%:R.
Proof.
apply: (@rk_order1 _ _ fcl x T T0 _ x_cont x_deriv xf (fun M i => gc M i (xf M i))) => //; first exact: bl_nrm bl_fcl.
move=> M; have [B [E [N1 [B0 E0 H]]]] := gains.
have [BL BL0 HBL] := lip_bounded T0 (let: conj (And4 _ h _ _) _ := lP in h).
pose M' := `|M|; have M0' : 0 <= M' + 1 by rewrite addr_ge0 ?ler01 ?normr_ge0.
pose G := BL * (B + E / T * (M' + 1)).
have ET : 0 <= E / T * (M' + 1) by rewrite mulr_ge0 ?divr_ge0.
exists G, N1; split=> [|N i N1N Np iN h hx y s hy hs]; first by rewrite mulr_ge0 ?addr_ge0.
have [hK hs'] := H N i N1N Np iN; have [h1 h2] := hs' s hs.
have Nr : (N%:R : Rf) != 0 by rewrite pnatr_eq0 -lt0n.
have ts : 0 <= s <= T.
  have /andP [ti _] := grid_ok T0 Np (ltnW iN); case/andP: hs => s1 s2; rewrite (le_trans ti s1) /=; apply: le_trans s2 _.
  have := grid_ok T0 Np iN => /andP [_]; by rewrite -[i.+1]addn1 natrD mulrDl mul1r.
have -> : gc N i (xf N i) y s - fcl y s = kL P s *m (uc N i (if zoh then xf N i else y) - (- Kt s *m y + dt s)).
  by rewrite /gc /fcl mulmxBr mid_gap.
apply: le_trans (nrm_mul _ _) _; rewrite /G -mulrA; apply: ler_pmul; rewrite ?nrm_ge0 //; first exact: HBL.
have hy' : nrm y <= M' by apply: le_trans hy _; exact: ler_norm.
apply: le_trans (u_gap_le _ hK hy' h1 h2) _.
have w : nrm (y - (if zoh then xf N i else y)) <= nrm (y - xf N i) by case: zoh => //; rewrite subrr nrm0 nrm_ge0.
have e : E / N%:R * (M' + 1) = E / T * (M' + 1) * h.
  by rewrite /h [RHS]mulrAC [E / T * (T / _)]mulrA divfK ?gt_eqF.
rewrite e mulrDl [B * (h + _)]mulrDr; apply: ler_add.
  by apply: ler_paddl; [rewrite mulr_ge0 // divr_ge0 ?ler0n | rewrite ler_wpmul2l].
by rewrite ler_wpmul2l // ler_addl nrm_ge0.
Qed.
Lemma uf_close : exists D N0, 0 <= D /\ forall M, (N0 <= M)%N -> (0 < M)%N -> forall i, (i < M)%N -> let t := i%:R * (T / M%:R) in
  nrm (uc M i (xf M i) - (- Kt t *m x t + dt t)) <= D / M%:R.
Proof.
have [D [N0 [D0 H]]] := xf_close; have [B [E [N1 [B0 E0 H']]]] := gains; have [M M0 HM] := bounded_on T0 x_cont.
exists (B * D + E * (M + 1)), (maxn N0 N1); split=> [|N]; first by rewrite addr_ge0 ?mulr_ge0 ?addr_ge0 ?ler01.
rewrite geq_max => /andP [n0 n1] Np i iN; set t := i%:R * _; rewrite /=; have [hK hs] := H' N i n1 Np iN.
have [|h1 h2] := hs t; first by rewrite lexx ler_addl divr_ge0 ?ler0n.
apply: le_trans (u_gap_le _ hK (HM _ (grid_ok T0 Np (ltnW iN))) h1 h2) _.
rewrite mulrDl [E * _ / _]mulrAC -nrmN opprB ler_add2r -mulrA ler_wpmul2l //; exact: H (ltnW iN).
Qed.
Lemma fstep M i : rk4_xt (V := matrix_lmodType Rf n 1) (cl_ode P zoh (Kof M i) (dof M i) (uc M i (xf M i))) (T / M%:R) (xf M i) (0 + i%:R * (T / M%:R)) = Some (xf M i.+1).
Proof.
rewrite add0r (@tstp_rk4 _ _ _ (gc M i (xf M i))) ?divr_ge0 ?ler0n // => y s _.
by rewrite /cl_ode /gc; case: zoh.
Qed.
Lemma floop M k i : fwd_loop P (T / M%:R) 0 zoh [seq Kof M j | j <- iota i k] [seq dof M j | j <- iota i k] i (xf M i) =
  Some ([seq uc M j (xf M j) | j <- iota i k], [seq xf M j.+1 | j <- iota i k]).
Proof.
elim: k i => [//|k IH] i; rewrite [iota _ _]/= ![map _ (_ :: _)]/= [fwd_loop _ _ _ _ _ _ _ _]/=.
by rewrite fstep obindS IH obindS.
Qed.
Lemma forwardE M : (0 < M)%N -> clqt_seqForwardPass P (x 0) [seq Kof M j | j <- iota 0 M] [seq dof M j | j <- iota 0 M] None None zoh =
  Some ([seq uc M j (xf M j) | j <- iota 0 M], [seq xf M j | j <- iota 0 M.+1]).
Proof.
move=> Mp; rewrite /clqt_seqForwardPass size_map size_iota /dt_or /div_nats (_ : (M == 0%N) = false); last by lia.
rewrite obindS (floop M M 0) obindS.
have -> // : [seq xf M j.+1 | j <- iota 0 M] = [seq xf M j | j <- iota 1 M] by rewrite (iotaDl 1 0 M) -map_comp.
Qed.
End Comp.
Theorem fwd_gains : forall zoh, exists (D : Rf) N0, forall steps, (N0 <= steps)%N -> (0 < steps)%N ->
  let t i := i%:R * (T / steps%:R) in exists Ks ds Ss vs us xs,
  [/\ clqt_seqBackwardPass P steps None None None None = Some (Ks, ds, Ss, vs),
      clqt_seqForwardPass P (x 0) Ks ds None None zoh = Some (us, xs) /\
        (zoh = false -> forall blocks steps', (blocks * steps')%N = steps -> clqt_parForwardPass P (x 0) Ks ds blocks steps' None None true false = Some (us, xs)),
      size us = steps /\ size xs = steps.+1,
      forall i, (i <= steps)%N -> within (D / steps%:R) (nth 0 xs i) (x (t i)) &
      forall i, (i < steps)%N -> within (D / steps%:R) (nth 0 us i) (- Kt (t i) *m x (t i) + dt (t i))].
Proof.
move=> zoh; have [D [N0 [D0 H]]] := xf_close zoh; have [D' [N1 [D0' H']]] := uf_close zoh.
exists (Order.max D D'), (maxn N0 N1) => M; rewrite geq_max => /andP [M0 M1] Mp t.
exists [seq Kof P M j | j <- iota 0 M], [seq dof P M j | j <- iota 0 M], [seq Sof P M j | j <- iota 0 M.+1], [seq vof P M j | j <- iota 0 M.+1],
  [seq uc M j (xf zoh M j) | j <- iota 0 M], [seq xf zoh M j | j <- iota 0 M.+1].
have Mr : 0 < (M%:R : Rf)^-1 by rewrite invr_gt0 ltr0n.
have l1 : D / M%:R <= Order.max D D' / M%:R by rewrite ler_pmul2r // le_maxr lexx.
have l2 : D' / M%:R <= Order.max D D' / M%:R by rewrite ler_pmul2r // le_maxr lexx orbT.
split; [exact: backwardE | split; first exact: forwardE | by rewrite !size_map !size_iota | |].
- move=> z blocks steps' e; subst zoh.
  rewrite (C43_np_l P (x 0) _ _ blocks steps' None None true).1; last by rewrite size_map size_iota.
  exact: forwardE.
- move=> i iM; rewrite (nth_map 0%N) ?size_iota ?ltnS // nth_iota ?ltnS // add0n; apply: within_of; apply: le_trans l1; exact: H.
by move=> i iM; rewrite (nth_map 0%N) ?size_iota // nth_iota // add0n; apply: within_of; apply: le_trans l2; exact: H'.
Qed.
Theorem fwd_converges : forall zoh, exists (D : Rf) N0, forall steps, (N0 <= steps)%N -> (0 < steps)%N ->
  let t i := i%:R * (T / steps%:R) in exists Ks ds Ss vs us xs,
  [/\ clqt_seqBackwardPass P steps None None None None = Some (Ks, ds, Ss, vs),
      clqt_seqForwardPass P (x 0) Ks ds None None zoh = Some (us, xs) /\
        (zoh = false -> forall blocks steps', (blocks * steps')%N = steps -> clqt_parForwardPass P (x 0) Ks ds blocks steps' None None true false = Some (us, xs)),
      size us = steps /\ size xs = steps.+1,
      forall i, (i <= steps)%N -> within (D / steps%:R) (nth 0 xs i) (x (t i)) &
      forall i, (0 < i < steps)%N -> within (D / steps%:R) (nth 0 us i) (u (t i))].
Proof.
move=> zoh; have [D [N0 H]] := fwd_gains zoh; exists D, N0 => M M0 Mp t.
have [Ks [ds [Ss [vs [us [xs [e1 e2 e3 hx hu]]]]]]] := H M M0 Mp.
exists Ks, ds, Ss, vs, us, xs; split=> // i /andP [i0 iM].
have ht : 0 < t i < T.
  have M' : 0 < (M%:R : Rf) by rewrite ltr0n.
  rewrite mulr_gt0 ?divr_gt0 ?ltr0n //= /t mulrCA -[X in _ < X]mulr1 ltr_pmul2l // ltr_pdivr_mulr // mul1r ltr_nat //.
have -> : u (t i) = - Kt (t i) *m x (t i) + dt (t i) by rewrite ((feedbackE wP S v x u [::]).1 fx (t i) ht isT).
exact: hu.
Qed.
End Fwd.
