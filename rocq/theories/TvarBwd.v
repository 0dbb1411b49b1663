(** The backward pass converges to the solution of the backward equations. *)
From Coq Require Import Reals.
From mathcomp Require Import all_ssreflect all_algebra zify.
From Verif Require Import RealF MxBase LqtModel LqtCore ClqtModel ClqtSpec ClqtPack ClqtFwd2 RealExpSpec RealExp ClqrOpt RealDisc RkConvA RkConvC RkConv FbConvC TrackOptSpec TvarSpec TvarInv Tvar TvarRk TvarLip TvarPack.
Import Order.TTheory GRing.Theory Num.Theory.
Set Implicit Arguments. Unset Strict Implicit. Unset Printing Implicit Defensive.
Local Open Scope ring_scope.
Delimit Scope R_scope with Re.

Lemma grid_ok (T : Rf) (M i : nat) : 0 <= T -> (0 < M)%N -> (i <= M)%N -> 0 <= i%:R * (T / M%:R) <= T.
Proof.
move=> T0 Mp iM; have Mr : 0 < M%:R :> Rf by rewrite ltr0n.
by rewrite mulr_ge0 ?divr_ge0 ?ler0n //= mulrCA ler_pimulr // ler_pdivr_mulr // mul1r ler_nat.
Qed.
Lemma rev_ok (T t : Rf) : 0 <= t <= T -> 0 <= T - t <= T.
Proof. by move=> /andP [h1 h2]; rewrite subr_ge0 h2 ler_subl_addr ler_addl. Qed.
Lemma rev_ok' (T t : Rf) : 0 < t < T -> 0 < T - t < T.
Proof. by move=> /andP [h1 h2]; rewrite subr_gt0 h2 ltr_subl_addr ltr_addl. Qed.

Section Data.
Variables n m p pT : nat.
Variable P : clqt Rf n m p pT.
Local Notation T := (kT P).
Hypothesis T0 : 0 <= T.
Hypothesis wP : tracking_weights P 0.
Hypothesis lP : lipschitz_data P.
Local Notation ul := (ulT P).
Local Notation N := (nn P).
Lemma ul_lip : lipschitz_on T ul.
Proof.
case: lP => -[_ lL lU _] _; apply: lip_mul; last exact: lip_tr.
by apply: lip_inv => // t ht; case: wP => _ w; have [_ _ pU] := w t ht; exact: pd_unit.
Qed.
Lemma N_lip : lipschitz_on T N.
Proof. by case: lP => -[_ lL lU _] _; apply: lip_mul => //; exact: ul_lip. Qed.

Section Rhs.
Variables k l : nat.
Local Notation bl g := (@bl k l T _ _ g).
Lemma bl_F : bl (fun _ t => kF P t). Proof. by case: lP => -[h _ _ _] _; exact: bl_time. Qed.
Lemma bl_L : bl (fun _ t => kL P t). Proof. by case: lP => -[_ h _ _] _; exact: bl_time. Qed.
Lemma bl_X : bl (fun _ t => kX P t). Proof. by case: lP => -[_ _ _ h] _; exact: bl_time. Qed.
Lemma bl_c : bl (fun _ t => kc P t). Proof. by case: lP => _ [h _ _]; exact: bl_time. Qed.
Lemma bl_H : bl (fun _ t => kH P t). Proof. by case: lP => _ [_ h _]; exact: bl_time. Qed.
Lemma bl_r : bl (fun _ t => kr P t). Proof. by case: lP => _ [_ _ h]; exact: bl_time. Qed.
Lemma bl_N : bl (fun _ t => N t). Proof. exact: bl_time N_lip. Qed.
End Rhs.
Ltac blt := repeat first [exact: bl_F | exact: bl_L | exact: bl_X | exact: bl_c | exact: bl_H | exact: bl_r | exact: bl_N | exact: bl_const
  | apply: bl_tr | apply: bl_add | apply: bl_opp | apply: bl_mul | apply: bl_get; exact: bl_id | exact: bl_id].

Section Sol.
Variables (S : R -> 'M[Rf]_n) (v : R -> 'cV[Rf]_n).
Hypothesis sol : backward_solution P S v [::] 0.
Local Notation V := 'M[Rf]_(n, n + 1).
Definition rr (y : V) (s : Rf) : V := pack_Sv (riccati_rhs P s (N s) (unpack_Sv y)).
Definition rb (y : V) (s : Rf) : V := - rr y (T - s).
Definition zb (s : Rf) : V := pack_Sv (S (T - s)%R, v (T - s)%R).
Lemma bl_rr : bl T rr.
Proof.
rewrite /rr /riccati_rhs /unpack_Sv /pack_Sv /=; apply: bl_set; last apply: bl_set; by blt.
Qed.
Lemma bl_rb : bl T rb. Proof. by apply: bl_opp; apply: (bl_rev (g := rr)); exact: bl_rr. Qed.
Lemma zb_cont (t : Rf) : 0 <= t <= T -> mcont zb t.
Proof.
case: sol => _ _ c _ ht; have [cS cv _] := c _ (rev_ok ht).
by apply: mcont_Sv; exact: mcont_rev.
Qed.
Lemma Sv_deriv (t : Rf) : 0 < t < T -> mderiv (fun t => pack_Sv (S t, v t)) t (rr (pack_Sv (S t, v t)) t).
Proof.
case: sol => _ _ _ d ht; have [dS [dv [e hS hv]]] := d t ht isT.
have i : 0 <= t <= T by case/andP: ht => h1 h2; rewrite !ltW.
by rewrite /rr Sv_unpack -(ric_E wP i e); exact: mderiv_Sv.
Qed.
Lemma zb_deriv (t : Rf) : 0 < t < T -> mderiv zb t (rb (zb t) t).
Proof. by move=> ht; apply: (mderiv_rev (f := fun t => pack_Sv (S t, v t))); exact: Sv_deriv (rev_ok' ht). Qed.

(** the computed values *)
Definition sy (x : V) : V := let: (Q, w) := unpack_Sv x in pack_Sv (symz Q, w).
Fixpoint xb (M i : nat) : V := if i is i'.+1 then sy (tstp rb (T / M%:R) (xb M i') (i'%:R * (T / M%:R))) else pack_Sv (ST P, vT P).
Lemma sy_dist (x : V) Q w : symm Q -> nrm (sy x - pack_Sv (Q, w)) <= nrm (x - pack_Sv (Q, w)).
Proof.
move=> sQ; rewrite /sy -{2}[x]Sv_pack; case: (unpack_Sv x) => A a.
by rewrite !Sv_sub !nrm_Sv ler_add2r symz_sub // nrm_symz.
Qed.
Lemma xb_close : exists D N0, 0 <= D /\ forall M, (N0 <= M)%N -> (0 < M)%N -> forall i, (i <= M)%N -> nrm (xb M i - zb (i%:R * (T / M%:R))%R) <= D / M%:R.
Proof.
apply: (@rk_order1 _ _ rb zb T T0 _ zb_cont zb_deriv xb (fun _ _ => rb)).
- exact: bl_nrm bl_rb.
- by move=> M; case: sol => eS ev _ _; rewrite /zb subr0 eS ev.
- by move=> M; exists 0, 0%N; split=> // M' i _ _ _ h _ y s _ _; rewrite subrr nrm0 mul0r.
move=> M i iM /=; apply: sy_dist.
by case: sol => _ _ c _; have [] := c _ (rev_ok (grid_ok (M := M) T0 (leq_ltn_trans (leq0n i) iM) iM)).
Qed.
Definition Sof M j := (unpack_Sv (xb M (M - j))).1.
Definition vof M j := (unpack_Sv (xb M (M - j))).2.
Definition Kof M j : 'M[Rf]_(m, n) := ul (j%:R * (T / M%:R)) *m Sof M j.
Definition dof M j : 'cV[Rf]_m := ul (j%:R * (T / M%:R)) *m vof M j.
Lemma bstep M k : (k < M)%N -> bwd_step P (T / M%:R) 0 k (Sof M k.+1, vof M k.+1) = Some (Sof M k, vof M k).
Proof.
move=> kM; have Mp : (0 < M)%N by lia.
have h0 : 0 <= T / M%:R by rewrite divr_ge0 ?ler0n.
have e : 0 + k.+1%:R * (T / M%:R) = T - (M - k.+1)%:R * (T / M%:R).
  rewrite natrB // mulrBl [M%:R * _]mulrC divfK ?pnatr_eq0; last by lia.
  by abelr.
have e2 : ((M - k.+1)%:R + 1 = (M - k)%:R :> Rf) by rewrite -[1]/(1%:R) -natrD; congr (_%:R); lia.
rewrite /bwd_step -surjective_pairing Sv_pack e (@tstp_neg _ _ _ rb) //; last first.
  move=> y r /andP [h1 h2]; have g := grid_ok (M := M) (i := M - k) T0 Mp (leq_subr _ _).
  have g' := grid_ok (M := M) (i := M - k.+1) T0 Mp (leq_subr _ _).
  have ir : 0 <= r <= T.
    case/andP: g => _ g; case/andP: g' => g' _; rewrite (le_trans g' h1) (le_trans h2) //.
    by rewrite -{2}[T / _]mul1r -mulrDl e2.
  by rewrite /riccati_ode_f (ULT_E wP (rev_ok ir)) obindS /rb opprK.
rewrite obindS /Sof /vof (_ : (M - k = (M - k.+1).+1)%N); last by lia.
by rewrite [xb M _.+1]/= /sy; case: (unpack_Sv (tstp _ _ _ _)) => A a; rewrite Sv_unpack.
Qed.
Lemma bloop M k Ks ds Ss vs : (k <= M)%N -> (0 < M)%N -> bwd_loop P (T / M%:R) 0 k (Sof M k, vof M k) (Ks, ds, Ss, vs) =
  Some ([seq Kof M j | j <- iota 0 k] ++ Ks, [seq dof M j | j <- iota 0 k] ++ ds, [seq Sof M j | j <- iota 0 k] ++ Ss, [seq vof M j | j <- iota 0 k] ++ vs).
Proof.
move=> + Mp; elim: k Ks ds Ss vs => [//|k IH] Ks ds Ss vs kM.
rewrite -[bwd_loop _ _ _ _.+1 _ _]/(let? Sv' := bwd_step P (T / M%:R) 0 k (Sof M k.+1, vof M k.+1) in
      let? '(K, d) := bwd_gain P (T / M%:R) 0 k Sv' in
      bwd_loop P (T / M%:R) 0 k Sv' (K :: Ks, d :: ds, Sv'.1 :: Ss, Sv'.2 :: vs)).
rewrite bstep // obindS /bwd_gain add0r (ULT_E wP (grid_ok T0 Mp (ltnW kM))) !obindS IH; last exact: ltnW.
by rewrite -[k.+1]addn1 iotaD !map_cat -!catA.
Qed.
Lemma backwardE M : (0 < M)%N -> clqt_seqBackwardPass P M None None None None =
  Some ([seq Kof M j | j <- iota 0 M], [seq dof M j | j <- iota 0 M], [seq Sof M j | j <- iota 0 M.+1], [seq vof M j | j <- iota 0 M.+1]).
Proof.
move=> Mp; have e0 : (ST P, vT P) = (Sof M M, vof M M) by rewrite /Sof /vof subnn -[xb M 0]/(pack_Sv (ST P, vT P)) Sv_unpack.
rewrite -[M.+1]addn1 iotaD !map_cat /clqt_seqBackwardPass /dt_or /div_nats -[M in M == _]prednK // obindS /=.
by case: e0 => -> ->; rewrite bloop // !cats0.
Qed.
Lemma lip_bounded a b (g : R -> 'M[Rf]_(a, b)) : lipschitz_on T g -> exists2 B : Rf, 0 <= B & forall t : Rf, 0 <= t <= T -> nrm (g t) <= B.
Proof.
move=> /lip_nrm [L L0 H]; exists (nrm (g 0) + L * T); first by rewrite addr_ge0 ?nrm_ge0 ?mulr_ge0.
move=> t ht; rewrite -{1}[g t](subrK (g 0)) addrC; apply: le_trans (nrmD _ _) _; rewrite ler_add2l.
apply: le_trans (H t 0 ht _) _; first by rewrite lexx.
by case/andP: ht => t0 tT; rewrite subr0 ger0_norm // ler_wpmul2l.
Qed.
Lemma Sv_close : exists D N0, 0 <= D /\ forall M, (N0 <= M)%N -> (0 < M)%N -> forall j, (j <= M)%N -> let t := j%:R * (T / M%:R) in
  nrm (Sof M j - S t) <= D / M%:R /\ nrm (vof M j - v t) <= D / M%:R.
Proof.
have [D [N0 [D0 H]]] := xb_close; exists D, N0; split=> // M N0M Mp j jM /=.
have := H M N0M Mp (M - j)%N (leq_subr _ _).
have e : T - (M - j)%:R * (T / M%:R) = j%:R * (T / M%:R).
  rewrite natrB // mulrBl [M%:R * _]mulrC divfK ?pnatr_eq0; last by lia.
  by abelr.
rewrite /zb e -[xb M _]Sv_pack [unpack_Sv _]surjective_pairing -/(Sof M j) -/(vof M j) Sv_sub nrm_Sv => h.
by split; apply: le_trans h; [rewrite ler_addl | rewrite ler_addr]; exact: nrm_ge0.
Qed.
Lemma Kd_close : exists D N0, 0 <= D /\ forall M, (N0 <= M)%N -> (0 < M)%N -> forall j, (j <= M)%N -> let t := j%:R * (T / M%:R) in
  nrm (Kof M j - ul t *m S t) <= D / M%:R /\ nrm (dof M j - ul t *m v t) <= D / M%:R.
Proof.
have [D [N0 [D0 H]]] := Sv_close; have [B B0 HB] := lip_bounded ul_lip.
exists (B * D), N0; split=> [|M N0M Mp j jM /=]; first exact: mulr_ge0.
have [h1 h2] := H M N0M Mp j jM; have hb := HB _ (grid_ok T0 Mp jM).
by split; rewrite -mulmxBr; apply: le_trans (nrm_mul _ _) _; rewrite -mulrA; apply: ler_pmul; rewrite ?nrm_ge0.
Qed.
Theorem back_converges : exists (D : Rf) N0, forall steps, (N0 <= steps)%N -> (0 < steps)%N ->
  let t i := i%:R * (T / steps%:R) in exists Ks ds Ss vs,
  [/\ clqt_seqBackwardPass P steps None None None None = Some (Ks, ds, Ss, vs),
      [/\ size Ks = steps, size ds = steps, size Ss = steps.+1 & size vs = steps.+1],
      forall i, (i <= steps)%N -> within (D / steps%:R) (nth 0 Ss i) (S (t i)) /\ within (D / steps%:R) (nth 0 vs i) (v (t i)) &
      forall i, (i < steps)%N -> exists K d, [/\ bwd_gain P 0 (t i) 0 (S (t i), v (t i)) = Some (K, d),
        within (D / steps%:R) (nth 0 Ks i) K & within (D / steps%:R) (nth 0 ds i) d]].
Proof.
have [D [N0 [D0 H]]] := Sv_close; have [D' [N1 [D0' H']]] := Kd_close.
exists (Order.max D D'), (maxn N0 N1) => M; rewrite geq_max => /andP [M0 M1] Mp t.
exists [seq Kof M j | j <- iota 0 M], [seq dof M j | j <- iota 0 M], [seq Sof M j | j <- iota 0 M.+1], [seq vof M j | j <- iota 0 M.+1].
have Mr : 0 < (M%:R : Rf)^-1 by rewrite invr_gt0 ltr0n.
have l1 : D / M%:R <= Order.max D D' / M%:R by rewrite ler_pmul2r // le_maxr lexx.
have l2 : D' / M%:R <= Order.max D D' / M%:R by rewrite ler_pmul2r // le_maxr lexx orbT.
split; [exact: backwardE | by rewrite !size_map !size_iota | |] => i iM.
  have [h1 h2] := H M M0 Mp i iM.
  by rewrite !(nth_map 0%N) ?size_iota ?ltnS // !nth_iota ?ltnS // add0n; split; apply: within_of; apply: le_trans l1.
have [h1 h2] := H' M M1 Mp i (ltnW iM).
exists (ul (t i) *m S (t i)), (ul (t i) *m v (t i)); rewrite !(nth_map 0%N) ?size_iota // !nth_iota // add0n.
split; [by rewrite /bwd_gain mul0r addr0 (ULT_E wP (grid_ok T0 Mp (ltnW iM))) | |]; by apply: within_of; apply: le_trans l2.
Qed.
End Sol.
End Data.
