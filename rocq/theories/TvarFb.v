(** The forward-backward pass converges to the combination of the solutions of the forward and backward equations. *)
From Coq Require Import Reals.
From mathcomp Require Import all_ssreflect all_algebra zify.
From Verif Require Import RealF MxBase LqtModel LqtCore ClqtModel ClqtSpec ClqtPack ClqtFwd2 Rk4Model RealExpSpec RealExp ClqrOpt RealDisc RkConvA RkConvC RkConv FbConvB FbConvC TrackOptSpec TvarSpec TvarInv Tvar TvarRk TvarLip TvarPack TvarBwd TvarFwd.
Import Order.TTheory GRing.Theory Num.Theory.
Set Implicit Arguments. Unset Strict Implicit. Unset Printing Implicit Defensive.
Local Open Scope ring_scope.
Delimit Scope R_scope with Re.

Lemma combine_cons n m (K : 'M[Rf]_(m, n)) d S v (A : 'M[Rf]_n) b C Ks ds Ss vs es x us xs : solve (1%:M + C *m S) (b + C *m v) = Some x ->
  combineForwardBackward Ks ds Ss vs es = Some (us, xs) ->
  combineForwardBackward (K :: Ks) (d :: ds) (S :: Ss) (v :: vs) ((A, b, C) :: es) = Some (- K *m x + d :: us, x :: xs).
Proof. by move=> h /= ->; rewrite h. Qed.
Lemma combine_iota n m (K : nat -> 'M[Rf]_(m, n)) (d : nat -> 'cV[Rf]_m) (S : nat -> 'M[Rf]_n) (v : nat -> 'cV[Rf]_n) (A : nat -> 'M[Rf]_n) (b : nat -> 'cV[Rf]_n)
    (C : nat -> 'M[Rf]_n) (x : nat -> 'cV[Rf]_n) k i :
  (forall j, (i <= j <= i + k)%N -> solve (1%:M + C j *m S j) (b j + C j *m v j) = Some (x j)) ->
  combineForwardBackward [seq K j | j <- iota i k] [seq d j | j <- iota i k] [seq S j | j <- iota i k.+1] [seq v j | j <- iota i k.+1]
    [seq (A j, b j, C j) | j <- iota i k.+1] = Some ([seq - K j *m x j + d j | j <- iota i k], [seq x j | j <- iota i k.+1]).
Proof.
elim: k i => [|k IH] i H; first by rewrite /= H ?obindS //; lia.
rewrite -[iota i k.+2]/(i :: iota i.+1 k.+1) -[iota i k.+1]/(i :: iota i.+1 k) !map_cons.
by apply: combine_cons; [apply: H; lia | apply: IH => j hj; apply: H; lia].
Qed.
Section Fb.
Variables n m p pT : nat.
Variable P : clqt Rf n m p pT.
Local Notation T := (kT P).
Hypothesis T0 : 0 <= T.
Hypothesis wP : tracking_weights P 0.
Hypothesis lP : lipschitz_data P.
Variables (S : R -> 'M[Rf]_n) (v : R -> 'cV[Rf]_n) (b : R -> 'cV[Rf]_n) (C : R -> 'M[Rf]_n) (x0 : 'cV[Rf]_n).
Hypothesis sol : backward_solution P S v [::] 0.
Hypothesis fsol : forward_solution P b C x0 [::] 0.
Hypothesis un : forall t : Rf, 0 <= t <= T -> 1%:M + C t *m S t \in unitmx.
Local Notation V := 'M[Rf]_(n, 2 * n + 1).
Definition ra (y : V) (s : Rf) : V := pack_abc (abc_rhs P s (nn P s) (unpack_abc y)).
Definition za (s : Rf) : V := pack_abc (0, b s, C s).
Lemma bl_ra : bl T ra.
Proof.
have l := lP; rewrite /ra /abc_rhs /unpack_abc /pack_abc /=.
apply: bl_set; [|apply: bl_set; [|apply: bl_set; last exact: bl_const]];
by repeat first [exact: (bl_F l) | exact: (bl_X l) | exact: (bl_c l) | exact: (bl_H l) | exact: (bl_r l) | exact: (bl_N T0 wP l)
  | apply: bl_tr | apply: bl_add | apply: bl_opp | apply: bl_mul | apply: bl_get; exact: bl_id].
Qed.
Lemma za_cont (t : Rf) : 0 <= t <= T -> mcont za t.
Proof. by case: fsol => _ _ c _ /c [cb cC _]; apply: mcont_abc => //; exact: mcont_const. Qed.
Lemma za_deriv (t : Rf) : 0 < t < T -> mderiv za t (ra (za t) t).
Proof.
case: fsol => _ _ _ d ht; have [A [dA [db [dC [e hb hC]]]]] := d t ht isT.
have i : 0 <= t <= T by case/andP: ht => h1 h2; rewrite !ltW.
have [_ eb eC] := abc_E wP i e.
have -> : ra (za t) t = pack_abc (0, db, dC) by rewrite /ra abc_unpack /abc_rhs !mulmx0 subrr -eb -eC.
by apply: mderiv_abc => //; exact: mderiv_const.
Qed.
Definition sya (x : V) : V := let: (A, a, Q) := unpack_abc x in pack_abc (A, a, symz Q).
Fixpoint xa (M i : nat) : V := if i is i'.+1 then sya (tstp ra (T / M%:R) (xa M i') (i'%:R * (T / M%:R))) else pack_abc (0, x0, 0).
Lemma sya_dist (x : V) A a Q : symm Q -> nrm (sya x - pack_abc (A, a, Q)) <= nrm (x - pack_abc (A, a, Q)).
Proof.
move=> sQ; rewrite /sya -{2}[x]abc_pack; case: (unpack_abc x) => [[A' a'] Q'].
by rewrite !abc_sub !nrm_abc ler_add2r ler_add2l symz_sub // nrm_symz.
Qed.
Lemma xa_close : exists D N0, 0 <= D /\ forall M, (N0 <= M)%N -> (0 < M)%N -> forall i, (i <= M)%N -> nrm (xa M i - za (i%:R * (T / M%:R))%R) <= D / M%:R.
Proof.
apply: (@rk_order1 _ _ ra za T T0 _ za_cont za_deriv xa (fun _ _ => ra)).
- exact: bl_nrm bl_ra.
- by move=> M; case: fsol => eb eC _ _; rewrite /za eb eC.
- by move=> M; exists 0, 0%N; split=> // M' i _ _ _ h _ y s _ _; rewrite subrr nrm0 mul0r.
move=> M i iM /=; apply: sya_dist.
by case: fsol => _ _ c _; have [] := c _ (grid_ok (M := M) T0 (leq_ltn_trans (leq0n i) iM) iM).
Qed.
Definition bof M j := (unpack_abc (xa M j)).1.2.
Definition Cof M j := (unpack_abc (xa M j)).2.
Lemma bC_close : exists D N0, 0 <= D /\ forall M, (N0 <= M)%N -> (0 < M)%N -> forall j, (j <= M)%N -> let t := j%:R * (T / M%:R) in
  nrm (bof M j - b t) <= D / M%:R /\ nrm (Cof M j - C t) <= D / M%:R.
Proof.
have [D [N0 [D0 H]]] := xa_close; exists D, N0; split=> // M N0M Mp j jM /=.
have := H M N0M Mp j jM.
rewrite /za -[xa M _]abc_pack [unpack_abc _]surjective_pairing [(unpack_abc _).1]surjective_pairing -/(bof M j) -/(Cof M j) abc_sub nrm_abc => h.
split; apply: le_trans h; first by rewrite ler_addr addr_ge0 ?nrm_ge0.
by rewrite -addrA addrCA ler_addl addr_ge0 ?nrm_ge0.
Qed.
Lemma astep M i : (i < M)%N -> abc_step P (T / M%:R) (0 + i%:R * (T / M%:R)) (unpack_abc (xa M i)) = Some (unpack_abc (xa M i.+1)).
Proof.
move=> iM; have Mp : (0 < M)%N by lia.
rewrite /abc_step abc_pack add0r (@tstp_rk4 _ _ _ ra) ?divr_ge0 ?ler0n //; last first.
  move=> y s /andP [s1 s2]; have /andP [ti _] := grid_ok T0 Mp (ltnW iM).
  have ts : 0 <= s <= T.
    rewrite (le_trans ti s1) /=; apply: le_trans s2 _.
    have := grid_ok T0 Mp iM => /andP [_]; by rewrite -[i.+1]addn1 natrD mulrDl mul1r.
  by rewrite /fwdbwdpass_ode_f (ULT_E wP ts) obindS.
rewrite obindS [xa M i.+1]/= /sya; case: (unpack_abc (tstp _ _ _ _)) => [[A a] Q]; by rewrite abc_unpack.
Qed.
Lemma aloop M k i : (i + k <= M)%N -> abc_loop P (T / M%:R) 0 k i (unpack_abc (xa M i)) = Some [seq unpack_abc (xa M j) | j <- iota i k.+1].
Proof.
elim: k i => [//|k IH] i ik.
rewrite -[abc_loop _ _ _ _.+1 _ _]/(let? e' := abc_step P (T / M%:R) (0 + i%:R * (T / M%:R)) (unpack_abc (xa M i)) in let? l := abc_loop P (T / M%:R) 0 k i.+1 e' in Some (unpack_abc (xa M i) :: l)).
by rewrite astep ?obindS ?IH ?obindS //; lia.
Qed.
Lemma fwdbwdE M : (0 < M)%N -> clqt_seqFwdBwdPass P x0 M None None None None None = Some [seq unpack_abc (xa M j) | j <- iota 0 M.+1].
Proof.
move=> Mp; rewrite /clqt_seqFwdBwdPass /dt_or /div_nats (_ : (M == 0%N) = false); last by lia.
have e0 : (0, x0, 0) = unpack_abc (xa M 0) by rewrite -[xa M 0]/(pack_abc (0, x0, 0)) abc_unpack.
by rewrite obindS /or_else e0 (aloop (k := M) (i := 0)).
Qed.
(** the combination *)
Local Notation Kof := (Kof P). Local Notation dof := (dof P). Local Notation Sof := (Sof P). Local Notation vof := (vof P).
Definition xw (M j : nat) : 'cV[Rf]_n := odflt 0 (solve (1%:M + Cof M j *m Sof M j) (bof M j + Cof M j *m vof M j)).
Lemma cloop M k i : (forall j, (i <= j <= i + k)%N -> solve (1%:M + Cof M j *m Sof M j) (bof M j + Cof M j *m vof M j) = Some (xw M j)) ->
  combineForwardBackward [seq Kof M j | j <- iota i k] [seq dof M j | j <- iota i k] [seq Sof M j | j <- iota i k.+1] [seq vof M j | j <- iota i k.+1]
    [seq unpack_abc (xa M j) | j <- iota i k.+1] = Some ([seq - Kof M j *m xw M j + dof M j | j <- iota i k], [seq xw M j | j <- iota i k.+1]).
Proof.
have E j : unpack_abc (xa M j) = ((unpack_abc (xa M j)).1.1, bof M j, Cof M j) by rewrite /bof /Cof -!surjective_pairing.
by rewrite (eq_map E); exact: combine_iota.
Qed.
Local Notation xo t := (invmx (1%:M + C t *m S t) *m (b t + C t *m v t)).
Lemma xw_close : exists D N0, 0 <= D /\ forall M, (N0 <= M)%N -> (0 < M)%N -> forall j, (j <= M)%N -> let t := j%:R * (T / M%:R) in
  solve (1%:M + Cof M j *m Sof M j) (bof M j + Cof M j *m vof M j) = Some (xw M j) /\ nrm (xw M j - xo t) <= D / M%:R.
Proof.
have [Cc Cb] : (forall t : Rf, 0 <= t <= T -> mcont C t) /\ (forall t : Rf, 0 <= t <= T -> mcont b t) by case: fsol => _ _ c _; split=> t /c [].
have [Sc Vc] : (forall t : Rf, 0 <= t <= T -> mcont S t) /\ (forall t : Rf, 0 <= t <= T -> mcont v t) by case: sol => _ _ c _; split=> t /c [].
have [mC mC0 HC] := bounded_on T0 Cc; have [mb mb0 Hb] := bounded_on T0 Cb.
have [mS mS0 HS] := bounded_on T0 Sc; have [mv mv0 Hv] := bounded_on T0 Vc.
have Gc (t : Rf) : 0 <= t <= T -> mcont (fun t => invmx (1%:M + C t *m S t)) t.
  move=> ht; apply: (mcont_invmx (M := fun t => 1%:M + C t *m S t)); first exact: un.
  by apply: mcont_add; [exact: mcont_const | apply: mcont_mul; [exact: Cc | exact: Sc]].
have [mG mG0 HG] := bounded_on T0 Gc.
have [D [N0 [D0 H]]] := bC_close; have [D' [N1 [D0' H']]] := Sv_close T0 wP lP sol.
pose E := D + D'; have E0 : 0 <= E by rewrite addr_ge0.
pose E2 := E * (1 + (mC + E) + mv); have q0 : 0 <= mC + E + mv by rewrite !addr_ge0.
have E20 : 0 <= E2 by rewrite mulr_ge0 // -addrA addr_ge0 ?ler01 // !addr_ge0.
pose L := 1 + 2%:R * (mC + 1 + mS) * mG + 2%:R * mG ^+ 2 * (mC + 1 + mS) * (mb + mC * mv + 1) + mG.
have L0 : 0 <= L by rewrite /L !addr_ge0 ?mulr_ge0 ?exprn_ge0 ?addr_ge0 ?mulr_ge0 ?ler01 ?ler0n.
have [N2 HN2] := big_nat_above (E2 * L).
exists (L * E2), (maxn N0 (maxn N1 N2)); split; first exact: mulr_ge0.
move=> M; rewrite !geq_max => /and3P [l0 l1 l2] Mp j jM t.
have ht := grid_ok T0 Mp jM; rewrite -/t in ht.
have Mr : 0 < (M%:R : Rf) by rewrite ltr0n.
have [h1 h2] := H M l0 Mp j jM; have [h3 h4] := H' M l1 Mp j jM; rewrite -/t in h1 h2 h3 h4.
have up D1 a : D1 <= E -> a <= D1 / M%:R -> a <= E / M%:R by move=> le h; apply: le_trans h _; rewrite ler_pmul2r ?invr_gt0.
have {}h1 := up _ _ (_ : D <= E) h1; have {}h2 := up _ _ (_ : D <= E) h2; have {}h3 := up _ _ (_ : D' <= E) h3; have {}h4 := up _ _ (_ : D' <= E) h4.
have d1 : D <= E by rewrite ler_addl.
have d2 : D' <= E by rewrite ler_addr.
have {}h1 := h1 d1; have {}h2 := h2 d1; have {}h3 := h3 d2; have {}h4 := h4 d2.
have EE : E / M%:R <= E2 / M%:R by rewrite ler_pmul2r ?invr_gt0 // /E2 -[X in X <= _]mulr1 ler_wpmul2l // -addrA ler_addl.
have e2 : E2 / M%:R * L <= 1 by rewrite mulrAC ler_pdivr_mulr // mul1r HN2.
have hbv : nrm (b t + C t *m v t) <= mb + mC * mv.
  apply: le_trans (nrmD _ _) _; apply: ler_add; first exact: Hb.
  by apply: le_trans (nrm_mul _ _) _; apply: ler_pmul; rewrite ?nrm_ge0 ?HC ?Hv.
have hC' : nrm (Cof M j) <= mC + E.
  rewrite -[Cof M j](subrK (C t)) addrC; apply: le_trans (nrmD _ _) _; apply: ler_add; first exact: HC.
  by apply: le_trans h2 _; rewrite ler_pdivr_mulr // ler_pemulr // ler1n.
have dbv : nrm (bof M j + Cof M j *m vof M j - (b t + C t *m v t)) <= E2 / M%:R.
  have -> : bof M j + Cof M j *m vof M j - (b t + C t *m v t) = (bof M j - b t) + Cof M j *m (vof M j - v t) + (Cof M j - C t) *m v t.
    by rewrite mulmxBr mulmxBl; abelr.
  rewrite /E2 mulrAC 2!mulrDr mulr1; apply: le_trans (nrmD _ _) _; apply: ler_add.
    apply: le_trans (nrmD _ _) _; apply: ler_add => //; apply: le_trans (nrm_mul _ _) _; rewrite mulrC.
    by apply: ler_pmul; rewrite ?nrm_ge0.
  by apply: le_trans (nrm_mul _ _) _; apply: ler_pmul; rewrite ?nrm_ge0 ?Hv.
have [x e hx] := solve_close (un ht) (HC t ht) (HS t ht) hbv (HG t ht) (divr_ge0 E20 (ler0n _ M)) e2 (le_trans h2 EE) (le_trans h3 EE) dbv.
by rewrite /xw e /= -mulrA.
Qed.
Theorem fb_converges : exists (D : Rf) N0, forall steps, (N0 <= steps)%N -> (0 < steps)%N ->
  let t i := i%:R * (T / steps%:R) in exists Ks ds Ss vs l us xs,
  [/\ clqt_seqBackwardPass P steps None None None None = Some (Ks, ds, Ss, vs),
      clqt_seqFwdBwdPass P x0 steps None None None None None = Some l /\ combineForwardBackward Ks ds Ss vs l = Some (us, xs),
      size us = steps /\ size xs = steps.+1,
      forall i, (i <= steps)%N -> within (D / steps%:R) (nth 0 xs i) (xo (t i)) &
      forall i, (i < steps)%N -> exists K d, bwd_gain P 0 (t i) 0 (S (t i), v (t i)) = Some (K, d) /\
        within (D / steps%:R) (nth 0 us i) (- K *m xo (t i) + d)].
Proof.
have [D [N0 [D0 H]]] := xw_close; have [D' [N1 [D0' H']]] := Kd_close T0 wP lP sol.
have [Cc Cb] : (forall t : Rf, 0 <= t <= T -> mcont C t) /\ (forall t : Rf, 0 <= t <= T -> mcont b t) by case: fsol => _ _ c _; split=> t /c [].
have [Sc Vc] : (forall t : Rf, 0 <= t <= T -> mcont S t) /\ (forall t : Rf, 0 <= t <= T -> mcont v t) by case: sol => _ _ c _; split=> t /c [].
have xc (t : Rf) : 0 <= t <= T -> mcont (fun t => xo t) t.
  move=> ht; apply: mcont_mul.
    apply: (mcont_invmx (M := fun t => 1%:M + C t *m S t)); first exact: un.
    by apply: mcont_add; [exact: mcont_const | apply: mcont_mul; [exact: Cc | exact: Sc]].
  by apply: mcont_add; [exact: Cb | apply: mcont_mul; [exact: Cc | exact: Vc]].
have [mx mx0 Hx] := bounded_on T0 xc; have [mS mS0 HS] := bounded_on T0 Sc; have [B B0 HB] := lip_bounded T0 (ul_lip T0 wP lP).
pose BK := B * mS + D'; pose D2 := BK * D + D' * (mx + 1).
have BK0 : 0 <= BK by rewrite addr_ge0 ?mulr_ge0.
exists (Order.max D D2), (maxn N0 N1) => M; rewrite geq_max => /andP [M0 M1] Mp t.
exists [seq Kof M j | j <- iota 0 M], [seq dof M j | j <- iota 0 M], [seq Sof M j | j <- iota 0 M.+1], [seq vof M j | j <- iota 0 M.+1],
  [seq unpack_abc (xa M j) | j <- iota 0 M.+1], [seq - Kof M j *m xw M j + dof M j | j <- iota 0 M], [seq xw M j | j <- iota 0 M.+1].
have Mr : 0 < (M%:R : Rf) by rewrite ltr0n.
have l1 : D / M%:R <= Order.max D D2 / M%:R by rewrite ler_pmul2r ?invr_gt0 // le_maxr lexx.
have l2 : D2 / M%:R <= Order.max D D2 / M%:R by rewrite ler_pmul2r ?invr_gt0 // le_maxr lexx orbT.
split; [exact: backwardE | split; first exact: fwdbwdE | by rewrite !size_map !size_iota | |].
- by apply: cloop => j /andP [_]; rewrite add0n => jM; exact: (H M M0 Mp j jM).1.
- move=> i iM; rewrite (nth_map 0%N) ?size_iota ?ltnS // nth_iota ?ltnS // add0n; apply: within_of; apply: le_trans l1; exact: (H M M0 Mp i iM).2.
move=> i iM; have ht := grid_ok T0 Mp (ltnW iM); have [k1 k2] := H' M M1 Mp i (ltnW iM).
exists (ulT P (t i) *m S (t i)), (ulT P (t i) *m v (t i)); split; first by rewrite /bwd_gain mul0r addr0 (ULT_E wP ht).
rewrite (nth_map 0%N) ?size_iota // nth_iota // add0n; apply: within_of; apply: le_trans l2.
have hK : nrm (Kof M i) <= BK.
  rewrite -[Kof M i](subrK (ulT P (t i) *m S (t i))) addrC; apply: le_trans (nrmD _ _) _; apply: ler_add.
    by apply: le_trans (nrm_mul _ _) _; apply: ler_pmul; rewrite ?nrm_ge0 ?HB ?HS.
  by apply: le_trans k1 _; rewrite ler_pdivr_mulr // ler_pemulr // ler1n.
apply: le_trans (u_gap_le _ hK (Hx _ ht) k1 k2) _.
rewrite /D2 mulrDl [D' * _ / _]mulrAC -nrmN opprB ler_add2r -mulrA ler_wpmul2l //; exact: (H M M0 Mp i (ltnW iM)).2.
Qed.
End Fb.
