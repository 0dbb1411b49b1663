(** The trajectories of the regulator converge to the optimal trajectory. *)
From Coq Require Import Reals Lra.
From mathcomp Require Import all_ssreflect all_algebra zify.
From Verif Require Import RealF MxBase LqtModel LqtCore LinModModel ClqtFwd2 ClqtModel ClqtSpec Rk4Model Rk4Spec ClqrModel ClqrSpec ClqrExact RealExpSpec RealExp RealAssm ClqrOptSpec ClqrOpt RealDisc RkConvA RkConvSpec RkQuadAlg RkConvB RkConvC RkConv FwdAlg FwdConvA.
Import Order.TTheory GRing.Theory Num.Theory.
Set Implicit Arguments. Unset Strict Implicit. Unset Printing Implicit Defensive.
Local Open Scope ring_scope.
Delimit Scope R_scope with Re.

Section Fwd.
Variables n m : nat.
Variable q : clqr Rf n m.
Hypotheses (sU : symm (qU q)) (pU : pd (qU q)) (sX : symm (qX q)) (pX : psd (qX q)) (sT : symm (qXT q)) (pT : psd (qXT q)).
Local Notation T := (qT q).
Hypothesis T0 : 0 <= T.
Local Notation ulT := (ulT q).
Local Notation N := (qL q *m ulT).
Local Notation H := (qham q N).
Variable x0 : 'cV[Rf]_n.
Local Notation xo := (xo q 0 x0). Local Notation lo := (lo q 0 x0). Local Notation uo := (uo q 0 x0).
Definition gain (t : Rf) : 'M[Rf]_(m, n) := ulT *m val_at q t.
Local Notation meth b := (if b then Exact else Rk4).
Local Notation pass := (fun b (M : nat) => clqr_seqBackwardPass expmR q M None None (meth b)).

Lemma within_nrm k l (a : Rf) (A B : 'M[Rf]_(k, l)) : within a A B -> nrm (A - B) <= (k * l)%:R * a.
Proof. by move=> h; apply: nrm_le => i j; have := h i j; rewrite !mxE. Qed.
Lemma gains_close b : exists (D : Rf) N0, 0 <= D /\ forall steps, (N0 <= steps)%N -> (0 < steps)%N -> exists Ks Ss, [/\ pass b steps = Some (Ks, Ss), size Ks = steps &
  forall i, (i < steps)%N -> nrm (nth 0 Ks i - gain (i%:R * (T / steps%:R))) <= D / steps%:R].
Proof.
case: b.
  exists 0, 0%N; split=> // steps _ s0; have [Ks [Ss [E sK _ _ HK]]] := pass_val sU pU sX pX sT pT s0 T0.
  by exists Ks, Ss; split=> // i lt; rewrite HK // subrr nrm0 mul0r.
have [D [N0 HD]] := reg_rk4_order4 sU pU sX pX sT pT T0.
exists ((m * n)%:R * `|D|), N0; split; first by rewrite mulr_ge0 ?ler0n.
move=> steps N0s s0; have [Ks [Ss [Ks' [Ss' [[E [sK _]] E' _ HK]]]]] := HD steps N0s s0.
have [Ks2 [Ss2 [E2 _ _ _ HK2]]] := pass_val sU pU sX pX sT pT s0 T0.
move: E'; rewrite E2 => -[eK _]; exists Ks, Ss; split=> // i lt; rewrite /gain -HK2 // eK; apply: le_trans (within_nrm (HK i lt)) _.
rewrite -mulrA ler_wpmul2l ?ler0n //; apply: (@le_trans _ _ (`|D| / steps%:R ^+ 4)).
  by rewrite ler_wpmul2r ?ler_norm // invr_ge0 exprn_ge0 ?ler0n.
have sp : 0 < steps%:R :> Rf by rewrite ltr0n.
rewrite ler_wpmul2l // lef_pinv ?posrE ?exprn_gt0 // ler_eexpr // ler1n //.
Qed.
(** ** the optimal trajectory *)
Lemma gain_cont (t : Rf) : 0 <= t <= T -> mcont gain t.
Proof.
move=> /andP [t0 tT]; have c : mcont (val expmR q ulT (qXT q)) (T + (- 1) * t)%R.
  by apply: (W_solves sU pU pX pT).1; rewrite mulN1r subr_ge0 tT ler_subl_addr ler_addl.
apply: mcont_mul; first exact: mcont_const.
move=> i j; apply: (cont_ext (f := fun s => val expmR q ulT (qXT q) (T + (- 1) * s)%R i j)) => [s|]; first by rewrite /val_at mulN1r.
apply: (continuity_pt_comp (fun t => T + (- 1) * t)%Re (fun t => val expmR q ulT (qXT q) t i j)); last exact: c.
exact: dlim_cont (dlim_aff T (- 1) t).
Qed.
Lemma gain_bounded : exists2 k : Rf, 0 <= k & forall t : Rf, 0 <= t <= T -> nrm (gain t) <= k.
Proof. exact: bounded_on T0 gain_cont. Qed.
Definition zo (t : Rf) : 'M[Rf]_(n + n, 1) := col_mx (xo t) (lo t).
Lemma zo_deriv (t : Rf) : mderiv zo t (H *m zo t).
Proof.
have := mderiv_col (xo_deriv q 0 x0 t) (lo_deriv q 0 x0 t); congr (mderiv _ _ _).
by rewrite /zo /qham mul_block_col /ClqrOpt.uo !mulNmx mulmxN -[qL q *m ulT *m _]mulmxA opprD.
Qed.
Lemma opt_2 : exists2 C : Rf, 0 <= C & forall s h : Rf, 0 <= s -> 0 <= h <= 1 -> s + h <= T ->
  nrm (xo (s + h)%R - (xo s + h *: ((qF q - qL q *m gain s) *m xo s))) <= C * h ^+ 2.
Proof.
have [M M0 HM] := bounded_on T0 (fun (t : Rf) (_ : 0 <= t <= T) => mderiv_cont (zo_deriv t)).
pose k := nrm H; pose cst : Rf := ((n + n) * (n + n))%:R * (k ^+ 2 * (((n + n) * (n + n))%:R * exp k)).
have cst0 : 0 <= cst by rewrite /cst !mulr_ge0 ?exprn_ge0 ?ler0n ?nrm_ge0 //; apply: ltW; apply/RltP; exact: exp_pos.
exists (cst * M); first exact: mulr_ge0.
move=> s h s0 hh sh; have [h0 h1] := andP hh.
have E : zo (s + h)%R = expmR (h *: H) *m zo s.
  have := @ode_unique _ _ H zo s (s + h)%R _ (fun t _ => mderiv_cont (zo_deriv t)) (fun t _ => zo_deriv t).
  by rewrite addrAC subrr add0r; apply; rewrite ler_addl.
have sT' : s <= T by apply: le_trans sh; rewrite ler_addl.
have -> : xo s + h *: ((qF q - qL q *m gain s) *m xo s) = usubmx ((1%:M + h *: H) *m zo s).
  rewrite mulmxDl mul1mx -scalemxAl /zo /qham mul_block_col scale_col_mx add_col_mx col_mxKu.
  by rewrite lo_val // mulmxBl mulNmx /gain !mulmxA.
have -> : xo (s + h)%R = usubmx (expmR (h *: H) *m zo s) by rewrite -E /zo col_mxKu.
rewrite -linearB /= -mulmxBl; apply: le_trans (nrm_usub _) _; apply: le_trans (nrm_mul _ _) _.
rewrite mulrAC; apply: ler_pmul; rewrite ?nrm_ge0 //; first exact: expm_2.
by apply: HM; rewrite s0.
Qed.
(** ** the computed trajectory *)
Section Comp.
Variables (b ex zoh : bool).
Definition Kof (M i : nat) : 'M[Rf]_(m, n) := nth 0 (odflt ([::], [::]) (pass b M)).1 i.
Fixpoint xof (M i : nat) : 'cV[Rf]_n :=
  if i is i'.+1 then odflt 0 (stepf q ex (T / M%:R) zoh (Kof M i') (- Kof M i' *m xof M i') (xof M i')) else x0.
Lemma step_some h (K : 'M[Rf]_(m, n)) u x : exists y, stepf q ex h zoh K u x = Some y.
Proof.
rewrite /stepf; case: ex.
  by rewrite /qfwd_exact; case: (lti_disc_u _ _ _ _ _ _) => [[A B] Q]; case: zoh; eexists.
by rewrite /qfwd_rk4 /rk4_x; case: zoh; eexists.
Qed.
Lemma xofS M i : stepf q ex (T / M%:R) zoh (Kof M i) (- Kof M i *m xof M i) (xof M i) = Some (xof M i.+1).
Proof. by have [y E] := step_some (T / M%:R) (Kof M i) (- Kof M i *m xof M i) (xof M i); rewrite [xof M i.+1]/= E. Qed.
Lemma loopE M k i : qfwd_loop (stepf q ex (T / M%:R) zoh) [seq Kof M j | j <- iota i k] (xof M i) =
  Some ([seq - Kof M j *m xof M j | j <- iota i k], [seq xof M j.+1 | j <- iota i k]).
Proof.
elim: k i => [//|k IH] i.
rewrite [iota _ _]/= [map _ _]/= [qfwd_loop _ _ _]/=; rewrite xofS obindS IH obindS //.
Qed.
Lemma forwardE M Ks Ss : (0 < M)%N -> pass b M = Some (Ks, Ss) -> size Ks = M ->
  clqr_seqForwardPass expmR q x0 Ks None (meth ex) zoh = Some ([seq - Kof M j *m xof M j | j <- iota 0 M], [seq xof M j | j <- iota 0 M.+1]).
Proof.
move=> M0 E sK; have eK : Ks = [seq Kof M j | j <- iota 0 M].
  apply: (@eq_from_nth _ 0); first by rewrite size_map size_iota.
  by move=> i; rewrite sK => lt; rewrite (nth_map 0%N) ?size_iota // nth_iota // /Kof E.
rewrite /clqr_seqForwardPass /qdt_or sK /=; case: eqP => [/eqP|_]; first by rewrite ?pnatr_eq0; lia.
have := loopE M M 0; rewrite -eK /stepf => L.
have tl : [seq xof M j.+1 | j <- iota 0 M] = [seq xof M j | j <- iota 1 M] by rewrite (iotaDl 1 0 M) -map_comp.
by rewrite obindS; case: ex L => L; rewrite L obindS tl.
Qed.
Lemma traj_close : exists (D : Rf) N0, 0 <= D /\ forall M, (N0 <= M)%N -> (0 < M)%N -> forall i, (i <= M)%N -> nrm (xof M i - xo (i%:R * (T / M%:R))%R) <= D / M%:R ^+ 1.
Proof.
have [DK [N0 [DK0 HK]]] := gains_close b.
have [kp kp0 Hkp] := gain_bounded.
have k1 : 0 <= kp + DK by rewrite addr_ge0.
have [C C0 HC] := step_2 q k1; have [C' C0' HC'] := opt_2.
have [Mx Mx0 HMx] := bounded_on T0 (fun (t : Rf) (_ : 0 <= t <= T) => mderiv_cont (xo_deriv q 0 x0 t)).
pose L := nrm (qF q) + nrm (qL q) * (kp + DK).
pose C2 := C * (Mx + 1) + (nrm (qL q) * (DK / T) * Mx + C').
have L0 : 0 <= L by rewrite addr_ge0 ?mulr_ge0 ?nrm_ge0.
have DT0 : 0 <= DK / T by rewrite divr_ge0.
have C20 : 0 <= C2.
  by apply: addr_ge0; [apply: mulr_ge0 => //; exact: addr_ge0 Mx0 ler01 | apply: addr_ge0 => //; apply: mulr_ge0 => //; exact: mulr_ge0 (nrm_ge0 _) DT0].
have [N1 HN1] := big_nat_above T.
apply: (@converge T C2 L 1 1 (maxn N0 N1) (fun M i => nrm (xof M i - xo (i%:R * (T / M%:R))%R))) => //.
- exact: ltr01.
- by move=> M; rewrite mul0r /= xo0 // subrr nrm0.
- by move=> M i; exact: nrm_ge0.
move=> M i; rewrite geq_max => /andP [NM1 NM2] M0 iM small.
have Mp : 0 < M%:R :> Rf by rewrite ltr0n.
set h := T / M%:R; have h0 : 0 <= h by rewrite divr_ge0 // ltW.
have h1 : h <= 1 by rewrite ler_pdivr_mulr // mul1r; exact: HN1.
have hh : 0 <= h <= 1 by rewrite h0.
have ti : i%:R * h + h = i.+1%:R * h by rewrite -[i.+1]addn1 natrD mulrDl mul1r.
have tT : i.+1%:R * h <= T by rewrite /h mulrCA ler_pimulr // ler_pdivr_mulr // mul1r ler_nat.
have z0 : 0 <= i%:R * h by rewrite mulr_ge0 ?ler0n.
have zT : i%:R * h <= T by apply: le_trans tT; rewrite -ti ler_addl.
set s := i%:R * h in ti z0 zT small *.
have sT' : 0 <= s <= T by rewrite z0.
have [Ks [Ss [E sK HKi]]] := HK M NM1 M0.
have dK : nrm (Kof M i - gain s) <= DK / M%:R by rewrite /Kof E; exact: HKi.
have Mi1 : M%:R^-1 <= 1 :> Rf by rewrite invf_le1 // ler1n.
have bK : nrm (Kof M i) <= kp + DK.
  rewrite -[Kof M i](subrK (gain s)) addrC; apply: le_trans (nrmD _ _) _; apply: ler_add; first exact: Hkp.
  by apply: le_trans dK _; rewrite ler_pimulr.
have [y [Ey Hy]] := HC ex zoh (Kof M i) (xof M i) h bK hh.
have ey : y = xof M i.+1 by have := xofS M i; rewrite -/h Ey => -[].
rewrite ey {ey Ey} in Hy.
have := HC' s h z0 hh; rewrite ti => /(_ tT) Ho.
have bx : nrm (xof M i) <= Mx + 1.
  by rewrite -[xof M i](subrK (xo s)) addrC; apply: le_trans (nrmD _ _) _; apply: ler_add => //; exact: HMx.
pose A := qF q - qL q *m Kof M i; pose A' := qF q - qL q *m gain s.
have bA : nrm A <= L.
  apply: le_trans (nrmB _ _) _; rewrite ler_add2l; apply: le_trans (nrm_mul _ _) _; exact: ler_wpmul2l (nrm_ge0 _) _ _ bK.
have split3 (E1 E2 : 'M[Rf]_n) : xof M i.+1 - xo (i.+1%:R * h)%R = (xof M i.+1 - (xof M i + h *: (E1 *m xof M i))) +
    ((xof M i - xo s) + h *: (E1 *m (xof M i - xo s)) + (h *: ((E1 - E2) *m xo s) - (xo (i.+1%:R * h)%R - (xo s + h *: (E2 *m xo s))))).
  by rewrite mulmxBr [(E1 - E2) *m _]mulmxBl !scalerBr; exact: split_err.
rewrite (split3 A A') {split3}; apply: le_trans (nrmD _ _) _.
have t1 : nrm (xof M i.+1 - (xof M i + h *: (A *m xof M i))) <= C * (Mx + 1) * h ^+ 2.
  by apply: le_trans Hy _; rewrite mulrAC ler_wpmul2r ?exprn_ge0 // ler_wpmul2l.
have t2 : nrm (xof M i - xo s + h *: (A *m (xof M i - xo s))) <= (1 + h * L) * nrm (xof M i - xo s).
  apply: le_trans (nrmD _ _) _; rewrite mulrDl mul1r ler_add2l nrmZ ger0_norm // -mulrA ler_wpmul2l //.
  by apply: le_trans (nrm_mul _ _) _; rewrite ler_wpmul2r ?nrm_ge0.
have t3 : nrm (h *: ((A - A') *m xo s)) <= nrm (qL q) * (DK / T) * Mx * h ^+ 2.
  rewrite nrmZ ger0_norm //.
  have eA : A - A' = - (qL q *m (Kof M i - gain s)) by rewrite /A /A' mulmxBr !opprB addrC addrA subrK.
  have h2 : h * (DK / M%:R) <= DK / T * h ^+ 2.
    rewrite /h; case: (eqVneq T 0) => [->|Tn]; first by rewrite mul0r mul0r invr0 mulr0 mul0r.
    by rewrite scalT // lt0r_neq0.
  rewrite scal_gap; apply: (@le_trans _ _ (nrm (qL q) * (h * (DK / M%:R)) * Mx)); last by rewrite ler_wpmul2r // ler_wpmul2l ?nrm_ge0.
  rewrite [nrm (qL q) * _]mulrCA -[X in _ <= X]mulrA ler_wpmul2l // eA; apply: le_trans (nrm_mul _ _) _; apply: ler_pmul; rewrite ?nrm_ge0 ?HMx //.
  by rewrite nrmN; apply: le_trans (nrm_mul _ _) _; rewrite ler_wpmul2l ?nrm_ge0.
apply: (@le_trans _ _ (C * (Mx + 1) * h ^+ 2 + ((1 + h * L) * nrm (xof M i - xo s) + (nrm (qL q) * (DK / T) * Mx * h ^+ 2 + C' * h ^+ 2)))).
  apply: ler_add => //; apply: le_trans (nrmD _ _) _; apply: ler_add => //; apply: le_trans (nrmB _ _) _; exact: ler_add.
by rewrite scal_sum.
Qed.
Lemma uo_gain (t : Rf) : t <= T -> uo t = - gain t *m xo t.
Proof. by move=> tT; rewrite /ClqrOpt.uo lo_val // /gain !mulNmx mulmxA. Qed.
Theorem pass_converges : exists (D : Rf) N0, forall steps, (N0 <= steps)%N -> (0 < steps)%N -> exists Ks Ss us xs,
  [/\ pass b steps = Some (Ks, Ss), clqr_seqForwardPass expmR q x0 Ks None (meth ex) zoh = Some (us, xs), size us = steps /\ size xs = steps.+1,
   forall i, (i <= steps)%N -> within (D / steps%:R) (nth 0 xs i) (xo (i%:R * (T / steps%:R))%R) &
   forall i, (i < steps)%N -> within (D / steps%:R) (nth 0 us i) (uo (i%:R * (T / steps%:R))%R)].
Proof.
have [DK [N0 [DK0 HK]]] := gains_close b; have [D [N1 [D0 HD]]] := traj_close.
have [kp kp0 Hkp] := gain_bounded.
have [Mx Mx0 HMx] := bounded_on T0 (fun (t : Rf) (_ : 0 <= t <= T) => mderiv_cont (xo_deriv q 0 x0 t)).
pose Du := (kp + DK) * D + DK * Mx; have Du0 : 0 <= Du by rewrite addr_ge0 ?mulr_ge0 ?addr_ge0.
exists (D + Du), (maxn N0 N1) => steps; rewrite geq_max => /andP [l0 l1] s0.
have sp : 0 < steps%:R :> Rf by rewrite ltr0n.
have si : 0 <= steps%:R^-1 :> Rf by rewrite invr_ge0 ltW.
have [Ks [Ss [E sK HKi]]] := HK steps l0 s0.
have tT i : (i <= steps)%N -> 0 <= i%:R * (T / steps%:R) <= T.
  move=> le; rewrite mulr_ge0 ?ler0n ?mulr_ge0 //= mulrCA ler_pimulr // ler_pdivr_mulr // mul1r ler_nat //.
have Hx i : (i <= steps)%N -> nrm (xof steps i - xo (i%:R * (T / steps%:R))%R) <= D / steps%:R.
  by move=> le; have := HD steps l1 s0 i le; rewrite expr1.
have ent k l (A B : 'M[Rf]_(k, l)) (a : Rf) : nrm (A - B) <= a -> a <= (D + Du) / steps%:R -> within ((D + Du) / steps%:R) A B.
  by move=> h1 h2 p r; have := nrm_entry (A - B) p r; rewrite !mxE => h; apply: le_trans h (le_trans h1 h2).
exists Ks, Ss, [seq - Kof steps j *m xof steps j | j <- iota 0 steps], [seq xof steps j | j <- iota 0 steps.+1]; split=> //.
- exact: forwardE E sK.
- by rewrite !size_map !size_iota.
- move=> i le; rewrite (nth_map 0%N) ?size_iota // nth_iota // add0n; apply: ent (Hx i le) _.
  by rewrite ler_wpmul2r // ler_addl.
move=> i lt; rewrite (nth_map 0%N) ?size_iota // nth_iota // add0n.
set s := i%:R * (T / steps%:R); have hs : 0 <= s <= T by apply: tT; exact: ltnW.
have sT' : s <= T by case/andP: hs.
have dK : nrm (Kof steps i - gain s) <= DK / steps%:R by rewrite /Kof E; exact: HKi.
have bK : nrm (Kof steps i) <= kp + DK.
  rewrite -[Kof steps i](subrK (gain s)) addrC; apply: le_trans (nrmD _ _) _; apply: ler_add; first exact: Hkp.
  by apply: le_trans dK _; rewrite ler_pimulr // invf_le1 // ler1n.
apply: (@ent _ _ _ _ (Du / steps%:R)); last by rewrite ler_wpmul2r // ler_addr.
have -> : - Kof steps i *m xof steps i - uo s = - (Kof steps i *m (xof steps i - xo s) + (Kof steps i - gain s) *m xo s).
  by rewrite uo_gain // !mulNmx opprK mulmxBr [(_ - gain s) *m _]mulmxBl addrA subrK opprB addrC.
rewrite nrmN /Du mulrDl; apply: le_trans (nrmD _ _) _; apply: ler_add.
  by rewrite -mulrA; apply: le_trans (nrm_mul _ _) _; apply: ler_pmul; rewrite ?nrm_ge0 // Hx // ltnW.
by rewrite mulrAC; apply: le_trans (nrm_mul _ _) _; apply: ler_pmul; rewrite ?nrm_ge0 ?HMx.
Qed.
End Comp.
End Fwd.
Theorem trajectory_converges n m (q : clqr Rf n m) : symm (qU q) -> pd (qU q) -> symm (qX q) -> psd (qX q) -> symm (qXT q) -> psd (qXT q) ->
  0 <= qT q -> forall x0, exists x u c, [/\ driven q x u c [::] 0, x 0 = x0,
    forall x' u' c' ts, driven q x' u' c' ts 0 -> x' 0 = x0 -> cost_to_go q x c 0 <= cost_to_go q x' c' 0 &
    forall bm fm zoh, bm <> Unknown -> fm <> Unknown -> exists (D : Rf) N0, forall steps, (N0 <= steps)%N -> (0 < steps)%N ->
      let t i := i%:R * (qT q / steps%:R) in exists Ks Ss us xs,
      [/\ clqr_seqBackwardPass expmR q steps None None bm = Some (Ks, Ss),
          clqr_seqForwardPass expmR q x0 Ks None fm zoh = Some (us, xs), size us = steps /\ size xs = steps.+1,
          forall i, (i <= steps)%N -> within (D / steps%:R) (nth 0 xs i) (x (t i)) &
          forall i, (i < steps)%N -> within (D / steps%:R) (nth 0 us i) (u (t i))]].
Proof.
move=> sU pU sX pX sT pT T0 x0; exists (xo q 0 x0), (uo q 0 x0), (co q 0 x0).
have e0 : xo q 0 x0 0 = x0 by exact: xo0.
split=> //; first exact: driven_o.
  by move=> x' u' c' ts dr e; have [] := cost_gap sU pU sX pX sT pT T0 dr e.
move=> bm fm zoh hb hf; pose b := if bm is Exact then true else false; pose ex := if fm is Exact then true else false.
have -> : bm = if b then Exact else Rk4 by rewrite /b; case: (bm) hb.
have -> : fm = if ex then Exact else Rk4 by rewrite /ex; case: (fm) hf.
exact: pass_converges.
Qed.
