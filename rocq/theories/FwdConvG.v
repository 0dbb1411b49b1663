(** The forward pass converges to the optimal trajectory for any gains close to the optimal ones. *)
From Coq Require Import Reals Lra.
From mathcomp Require Import all_ssreflect all_algebra zify.
From Verif Require Import RealF MxBase LqtModel LqtCore LinModModel ClqtFwd2 ClqtModel ClqtSpec Rk4Model Rk4Spec ClqrModel ClqrSpec ClqrExact RealExpSpec RealExp RealAssm ClqrOptSpec ClqrOpt RealDisc RkConvA RkConvSpec RkQuadAlg RkConvB RkConvC RkConv RkConvP FwdAlg FwdConvA FwdConv.
Import Order.TTheory GRing.Theory Num.Theory.
Set Implicit Arguments. Unset Strict Implicit. Unset Printing Implicit Defensive.
Local Open Scope ring_scope.
Delimit Scope R_scope with Re.

Section Fwd.
Variables n m : nat.
Variable q : clqr Rf n m.
Hypotheses (sU : symm (qU q)) (pU : pd (qU q)) (sX : symm (qX q)) (pX : psd (qX q)) (sT : symm (qXT q)) (pT : psd (qXT q)).
Local Notation T := (qT q).
Hypothesis T0 : 0 <= T.
Local Notation ulT := (ulT q).
Local Notation N := (qL q *m ulT).
Variable x0 : 'cV[Rf]_n.
Local Notation xo := (xo q 0 x0). Local Notation lo := (lo q 0 x0). Local Notation uo := (uo q 0 x0).
Local Notation gain := (gain q).
Local Notation meth b := (if b then Exact else Rk4).
Variables (ex zoh : bool).
Section Comp.
Variables (M : nat) (Ks : seq 'M[Rf]_(m, n)).
Definition Kn (i : nat) : 'M[Rf]_(m, n) := nth 0 Ks i.
Fixpoint xn (i : nat) : 'cV[Rf]_n :=
  if i is i'.+1 then odflt 0 (stepf q ex (T / M%:R) zoh (Kn i') (- Kn i' *m xn i') (xn i')) else x0.
Lemma xnS i : stepf q ex (T / M%:R) zoh (Kn i) (- Kn i *m xn i) (xn i) = Some (xn i.+1).
Proof. by have [y E] := step_some q ex zoh (T / M%:R) (Kn i) (- Kn i *m xn i) (xn i); rewrite [xn i.+1]/= E. Qed.
Lemma loopnE k i : qfwd_loop (stepf q ex (T / M%:R) zoh) [seq Kn j | j <- iota i k] (xn i) =
  Some ([seq - Kn j *m xn j | j <- iota i k], [seq xn j.+1 | j <- iota i k]).
Proof.
elim: k i => [//|k IH] i.
rewrite [iota _ _]/= [map _ _]/= [qfwd_loop _ _ _]/=; rewrite xnS obindS IH obindS //.
Qed.
Lemma forwardnE : (0 < M)%N -> size Ks = M ->
  clqr_seqForwardPass expmR q x0 Ks None (meth ex) zoh = Some ([seq - Kn j *m xn j | j <- iota 0 M], [seq xn j | j <- iota 0 M.+1]).
Proof.
move=> M0 sK; have eK : Ks = [seq Kn j | j <- iota 0 M].
  apply: (@eq_from_nth _ 0); first by rewrite size_map size_iota.
  by move=> i; rewrite sK => lt; rewrite (nth_map 0%N) ?size_iota // nth_iota.
rewrite /clqr_seqForwardPass /qdt_or sK /=; case: eqP => [/eqP|_]; first by rewrite ?pnatr_eq0; lia.
have := loopnE M 0; rewrite -eK /stepf => L.
have tl : [seq xn j.+1 | j <- iota 0 M] = [seq xn j | j <- iota 1 M] by rewrite (iotaDl 1 0 M) -map_comp.
by rewrite obindS; case: ex L => L; rewrite L obindS tl.
Qed.
End Comp.
Definition near_gains (DK : Rf) M Ks := size Ks = M /\ forall i, (i < M)%N -> nrm (nth 0 Ks i - gain (i%:R * (T / M%:R))) <= DK / M%:R.
Lemma trajn_close DK : 0 <= DK -> exists2 D, 0 <= D & forall M Ks, (0 < M)%N -> D <= M%:R -> near_gains DK M Ks ->
  forall i, (i <= M)%N -> nrm (xn M Ks i - xo (i%:R * (T / M%:R))%R) <= D / M%:R ^+ 1.
Proof.
move=> DK0.
have [kp kp0 Hkp] := gain_bounded sU pU pX pT T0.
have k1 : 0 <= kp + DK by rewrite addr_ge0.
have [C C0 HC] := step_2 q k1; have [C' C0' HC'] := opt_2 sU pU pX pT T0 x0.
have [Mx Mx0 HMx] := bounded_on T0 (fun (t : Rf) (_ : 0 <= t <= T) => mderiv_cont (xo_deriv q 0 x0 t)).
pose L := nrm (qF q) + nrm (qL q) * (kp + DK).
pose C2 := C * (Mx + 1) + (nrm (qL q) * (DK / T) * Mx + C').
have L0 : 0 <= L by rewrite addr_ge0 ?mulr_ge0 ?nrm_ge0.
have DT0 : 0 <= DK / T by rewrite divr_ge0.
have C20 : 0 <= C2.
  by apply: addr_ge0; [apply: mulr_ge0 => //; exact: addr_ge0 Mx0 ler01 | apply: addr_ge0 => //; apply: mulr_ge0 => //; exact: mulr_ge0 (nrm_ge0 _) DT0].
have [D D0 HD] := @converge_from T C2 L 1 0 1 T0 C20 L0 ltr01 (lexx _) isT.
exists (Order.max D T); first by rewrite le_maxr D0.
move=> M Ks M0; rewrite le_maxl => /andP [DM TM] [sK HKi] i iM.
apply: (@le_trans _ _ (D / M%:R ^+ 1)); last by rewrite ler_wpmul2r ?le_maxr ?lexx // invr_ge0 exprn_ge0 // ler0n.
apply: (HD M M0 DM (fun i => nrm (xn M Ks i - xo (i%:R * (T / M%:R))%R))) iM => {i}.
- by rewrite mul0r /= xo0 // subrr nrm0 mul0r.
- by move=> i; exact: nrm_ge0.
move=> i iM small.
have Mp : 0 < M%:R :> Rf by rewrite ltr0n.
set h := T / M%:R; have h0 : 0 <= h by rewrite divr_ge0 // ltW.
have h1 : h <= 1 by rewrite ler_pdivr_mulr // mul1r.
have hh : 0 <= h <= 1 by rewrite h0.
have ti : i%:R * h + h = i.+1%:R * h by rewrite -[i.+1]addn1 natrD mulrDl mul1r.
have tT : i.+1%:R * h <= T by rewrite /h mulrCA ler_pimulr // ler_pdivr_mulr // mul1r ler_nat.
have z0 : 0 <= i%:R * h by rewrite mulr_ge0 ?ler0n.
have zT : i%:R * h <= T by apply: le_trans tT; rewrite -ti ler_addl.
set s := i%:R * h in ti z0 zT small *.
have sT' : 0 <= s <= T by rewrite z0.
have dK : nrm (Kn Ks i - gain s) <= DK / M%:R by exact: HKi.
have Mi1 : M%:R^-1 <= 1 :> Rf by rewrite invf_le1 // ler1n.
have bK : nrm (Kn Ks i) <= kp + DK.
  rewrite -[Kn Ks i](subrK (gain s)) addrC; apply: le_trans (nrmD _ _) _; apply: ler_add; first exact: Hkp.
  by apply: le_trans dK _; rewrite ler_pimulr.
have [y [Ey Hy]] := HC ex zoh (Kn Ks i) (xn M Ks i) h bK hh.
have ey : y = xn M Ks i.+1 by have := xnS M Ks i; rewrite -/h Ey => -[].
rewrite ey {ey Ey} in Hy.
have := HC' s h z0 hh; rewrite ti => /(_ tT) Ho.
have bx : nrm (xn M Ks i) <= Mx + 1.
  by rewrite -[xn M Ks i](subrK (xo s)) addrC; apply: le_trans (nrmD _ _) _; apply: ler_add => //; exact: HMx.
pose A := qF q - qL q *m Kn Ks i; pose A' := qF q - qL q *m gain s.
have bA : nrm A <= L.
  apply: le_trans (nrmB _ _) _; rewrite ler_add2l; apply: le_trans (nrm_mul _ _) _; exact: ler_wpmul2l (nrm_ge0 _) _ _ bK.
have split3 (E1 E2 : 'M[Rf]_n) : xn M Ks i.+1 - xo (i.+1%:R * h)%R = (xn M Ks i.+1 - (xn M Ks i + h *: (E1 *m xn M Ks i))) +
    ((xn M Ks i - xo s) + h *: (E1 *m (xn M Ks i - xo s)) + (h *: ((E1 - E2) *m xo s) - (xo (i.+1%:R * h)%R - (xo s + h *: (E2 *m xo s))))).
  by rewrite mulmxBr [(E1 - E2) *m _]mulmxBl !scalerBr; exact: split_err.
rewrite (split3 A A') {split3}; apply: le_trans (nrmD _ _) _.
have t1 : nrm (xn M Ks i.+1 - (xn M Ks i + h *: (A *m xn M Ks i))) <= C * (Mx + 1) * h ^+ 2.
  by apply: le_trans Hy _; rewrite mulrAC ler_wpmul2r ?exprn_ge0 // ler_wpmul2l.
have t2 : nrm (xn M Ks i - xo s + h *: (A *m (xn M Ks i - xo s))) <= (1 + h * L) * nrm (xn M Ks i - xo s).
  apply: le_trans (nrmD _ _) _; rewrite mulrDl mul1r ler_add2l nrmZ ger0_norm // -mulrA ler_wpmul2l //.
  by apply: le_trans (nrm_mul _ _) _; rewrite ler_wpmul2r ?nrm_ge0.
have t3 : nrm (h *: ((A - A') *m xo s)) <= nrm (qL q) * (DK / T) * Mx * h ^+ 2.
  rewrite nrmZ ger0_norm //.
  have eA : A - A' = - (qL q *m (Kn Ks i - gain s)) by rewrite /A /A' mulmxBr !opprB addrC addrA subrK.
  have h2 : h * (DK / M%:R) <= DK / T * h ^+ 2.
    rewrite /h; case: (eqVneq T 0) => [->|Tn]; first by rewrite mul0r mul0r invr0 mulr0 mul0r.
    by rewrite scalT // lt0r_neq0.
  rewrite scal_gap; apply: (@le_trans _ _ (nrm (qL q) * (h * (DK / M%:R)) * Mx)); last by rewrite ler_wpmul2r // ler_wpmul2l ?nrm_ge0.
  rewrite [nrm (qL q) * _]mulrCA -[X in _ <= X]mulrA ler_wpmul2l // eA; apply: le_trans (nrm_mul _ _) _; apply: ler_pmul; rewrite ?nrm_ge0 ?HMx //.
  by rewrite nrmN; apply: le_trans (nrm_mul _ _) _; rewrite ler_wpmul2l ?nrm_ge0.
apply: (@le_trans _ _ (C * (Mx + 1) * h ^+ 2 + ((1 + h * L) * nrm (xn M Ks i - xo s) + (nrm (qL q) * (DK / T) * Mx * h ^+ 2 + C' * h ^+ 2)))).
  apply: ler_add => //; apply: le_trans (nrmD _ _) _; apply: ler_add => //; apply: le_trans (nrmB _ _) _; exact: ler_add.
by rewrite scal_sum.
Qed.
Theorem forward_converges DK : 0 <= DK -> exists2 D, 0 <= D & forall steps Ks, (0 < steps)%N -> D <= steps%:R -> near_gains DK steps Ks -> exists us xs,
  [/\ clqr_seqForwardPass expmR q x0 Ks None (meth ex) zoh = Some (us, xs), size us = steps /\ size xs = steps.+1,
   forall i, (i <= steps)%N -> within (D / steps%:R) (nth 0 xs i) (xo (i%:R * (T / steps%:R))%R) &
   forall i, (i < steps)%N -> within (D / steps%:R) (nth 0 us i) (uo (i%:R * (T / steps%:R))%R)].
Proof.
move=> DK0; have [D D0 HD] := trajn_close DK0.
have [kp kp0 Hkp] := gain_bounded sU pU pX pT T0.
have [Mx Mx0 HMx] := bounded_on T0 (fun (t : Rf) (_ : 0 <= t <= T) => mderiv_cont (xo_deriv q 0 x0 t)).
pose Du := (kp + DK) * D + DK * Mx; have Du0 : 0 <= Du by rewrite addr_ge0 ?mulr_ge0 ?addr_ge0.
exists (D + Du); first exact: addr_ge0.
move=> steps Ks s0 ls hK; have [sK HKi] := hK; have l1 : D <= steps%:R by apply: le_trans ls; rewrite ler_addl.
have sp : 0 < steps%:R :> Rf by rewrite ltr0n.
have si : 0 <= steps%:R^-1 :> Rf by rewrite invr_ge0 ltW.
have tT i : (i <= steps)%N -> 0 <= i%:R * (T / steps%:R) <= T.
  move=> le; rewrite mulr_ge0 ?ler0n ?mulr_ge0 //= mulrCA ler_pimulr // ler_pdivr_mulr // mul1r ler_nat //.
have Hx i : (i <= steps)%N -> nrm (xn steps Ks i - xo (i%:R * (T / steps%:R))%R) <= D / steps%:R.
  by move=> le; have := HD steps Ks s0 l1 hK i le; rewrite expr1.
have ent k l (A B : 'M[Rf]_(k, l)) (a : Rf) : nrm (A - B) <= a -> a <= (D + Du) / steps%:R -> within ((D + Du) / steps%:R) A B.
  by move=> h1 h2 p r; have := nrm_entry (A - B) p r; rewrite !mxE => h; apply: le_trans h (le_trans h1 h2).
exists [seq - Kn Ks j *m xn steps Ks j | j <- iota 0 steps], [seq xn steps Ks j | j <- iota 0 steps.+1]; split=> //.
- exact: forwardnE.
- by rewrite !size_map !size_iota.
- move=> i le; rewrite (nth_map 0%N) ?size_iota // nth_iota // add0n; apply: ent (Hx i le) _.
  by rewrite ler_wpmul2r // ler_addl.
move=> i lt; rewrite (nth_map 0%N) ?size_iota // nth_iota // add0n.
set s := i%:R * (T / steps%:R); have hs : 0 <= s <= T by apply: tT; exact: ltnW.
have sT' : s <= T by case/andP: hs.
have dK : nrm (Kn Ks i - gain s) <= DK / steps%:R by exact: HKi.
have bK : nrm (Kn Ks i) <= kp + DK.
  rewrite -[Kn Ks i](subrK (gain s)) addrC; apply: le_trans (nrmD _ _) _; apply: ler_add; first exact: Hkp.
  by apply: le_trans dK _; rewrite ler_pimulr // invf_le1 // ler1n.
apply: (@ent _ _ _ _ (Du / steps%:R)); last by rewrite ler_wpmul2r // ler_addr.
have -> : - Kn Ks i *m xn steps Ks i - uo s = - (Kn Ks i *m (xn steps Ks i - xo s) + (Kn Ks i - gain s) *m xo s).
  by rewrite uo_gain // !mulNmx opprK mulmxBr [(_ - gain s) *m _]mulmxBl addrA subrK opprB addrC.
rewrite nrmN /Du mulrDl; apply: le_trans (nrmD _ _) _; apply: ler_add.
  by rewrite -mulrA; apply: le_trans (nrm_mul _ _) _; apply: ler_pmul; rewrite ?nrm_ge0 // Hx // ltnW.
by rewrite mulrAC; apply: le_trans (nrm_mul _ _) _; apply: ler_pmul; rewrite ?nrm_ge0 ?HMx.
Qed.
End Fwd.
