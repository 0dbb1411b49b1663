(** First order convergence of the Runge-Kutta method for right-hand sides that are Lipschitz on bounded sets in the state
    and in time, with perturbed right-hand sides allowed. *)
From Coq Require Import Reals Lra Ring Field.
From mathcomp Require Import all_ssreflect all_algebra zify.
From Verif Require Import RealF MxBase LqtModel LqtCore Rk4Model Rk4Proofs RealExpSpec RealExp ClqrOpt RealDisc RkConvA RkConvC.
Import Order.TTheory GRing.Theory Num.Theory.
Set Implicit Arguments. Unset Strict Implicit. Unset Printing Implicit Defensive.
Local Open Scope ring_scope.
Delimit Scope R_scope with Re.

Section Alg.
Variable R : realFieldType.
Add Ring Rr : (mc_ring R).
Add Field Rff : (mc_field R).
Ltac sfield := rsn R; field; repeat split; num_neq0 R.
Lemma rk_gap_sc (h x a b c d f : R) : x + 1 / 6%:R * (h * a + 2%:R * (h * b) + 2%:R * (h * c) + h * d) - (x + h * f) =
  h / 6%:R * (a - f + 2%:R * (b - f) + 2%:R * (c - f) + (d - f)).
Proof. sfield. Qed.
Lemma rk_gap k l (h : R) (x k1 k2 k3 k4 f : 'M[R]_(k, l)) :
  rk4_sum (V := matrix_lmodType R k l) x (h *: k1) (h *: k2) (h *: k3) (h *: k4) - (x + h *: f) =
  (h / 6%:R) *: ((k1 - f) + 2%:R *: (k2 - f) + 2%:R *: (k3 - f) + (k4 - f)).
Proof. by rewrite /rk4_sum; apply/matrixP => i j; rewrite !mxE; exact: rk_gap_sc. Qed.
Lemma six (a : R) : a + 2%:R * a + 2%:R * a + a = 6%:R * a. Proof. by rsn R; ring. Qed.
Lemma six' (h a : R) : h / 6%:R * (6%:R * (h * a)) = h ^+ 2 * a. Proof. sfield. Qed.
Lemma tri3 k l (a x h f z w e : 'M[R]_(k, l)) : a - w = (a - (x + f)) + ((x - z) + (f - e) + - (w - (z + e))).
Proof. by apply/matrixP => i j; rewrite !mxE; abel. Qed.
Lemma sum3 (h a b c L e : R) : h ^+ 2 * a + (e + h * (L * e) + c * h ^+ 2) = (1 + h * L) * e + (a + c) * h ^+ 2.
Proof. by rsn R; ring. Qed.
End Alg.

Section Rk.
Variables k l : nat.
Local Notation V := (matrix_lmodType Rf k l).
Local Notation half := (2%:R^-1 : Rf).
(** the step for a right-hand side that does not raise *)
Definition tstp (g : V -> Rf -> V) (h : Rf) (x : V) (t : Rf) : V :=
  let k1 := g x t in let k2 := g (x + half *: (h *: k1)) (t + h / 2%:R) in
  let k3 := g (x + half *: (h *: k2)) (t + h / 2%:R) in let k4 := g (x + h *: k3) (t + h) in
  rk4_sum x (h *: k1) (h *: k2) (h *: k3) (h *: k4).
Lemma tstp_rk4 (f : V -> Rf -> option V) g h x t : 0 <= h -> (forall y s, t <= s <= t + h -> f y s = Some (g y s)) -> rk4_xt f h x t = Some (tstp g h x t).
Proof.
move=> h0 H; have hh : h / 2%:R <= h by rewrite ler_pdivr_mulr ?ltr0n // ler_pemulr // ler1n.
have d0 : 0 <= h / 2%:R by rewrite divr_ge0 ?ler0n.
have i1 : t <= t <= t + h by rewrite lexx ler_addl.
have i2 : t <= t + h / 2%:R <= t + h by rewrite ler_addl ler_add2l d0.
have i3 : t <= t + h <= t + h by rewrite lexx ler_addl h0.
by rewrite /rk4_xt H //= H //= H //= H.
Qed.
Lemma tstp_neg (f : V -> Rf -> option V) g T h x s : 0 <= h -> (forall y r, s <= r <= s + h -> f y (T - r) = Some (- g y r)) ->
  rk4_xt f (- h) x (T - s) = Some (tstp g h x s).
Proof.
move=> h0 H; have hh : h / 2%:R <= h by rewrite ler_pdivr_mulr ?ltr0n // ler_pemulr // ler1n.
have e1 : T - s + - h / 2%:R = T - (s + h / 2%:R) by rewrite opprD mulNr addrA.
have e2 : T - s - h = T - (s + h) by rewrite opprD addrA.
have d0 : 0 <= h / 2%:R by rewrite divr_ge0 ?ler0n.
have i1 : s <= s <= s + h by rewrite lexx ler_addl.
have i2 : s <= s + h / 2%:R <= s + h by rewrite ler_addl ler_add2l d0.
have i3 : s <= s + h <= s + h by rewrite lexx ler_addl h0.
have n a : - h *: - a = h *: a :> V by rewrite scalerN scaleNr opprK.
by rewrite /rk4_xt e1 e2 H //= n H //= n H //= n H //= n.
Qed.

Section Stage.
Variables (x : V) (t h L G E : Rf) (f g : V -> Rf -> V).
Hypothesis h0 : 0 <= h.
Hypothesis L0 : 0 <= L.
Hypothesis G0 : 0 <= G.
Hypothesis hL : h * (L + 1) <= 1.
Hypothesis hG : h * (G * (L + 2%:R)) <= 1.
(** around x and t *)
Hypothesis fb : forall y s, nrm (y - x) <= 1 -> t <= s <= t + h -> nrm (f y s) <= L.
Hypothesis fl : forall y s, nrm (y - x) <= 1 -> t <= s <= t + h -> nrm (f y s - f x t) <= L * (nrm (y - x) + (s - t)).
Hypothesis gf : forall y s, nrm (y - x) <= 1 -> t <= s <= t + h -> nrm (g y s - f y s) <= G * (h + nrm (y - x)).
Local Notation B := ((L + 2%:R) * (G + L)).
Lemma stage y s : nrm (y - x) <= h * (L + 1) -> t <= s <= t + h -> nrm (g y s) <= L + 1 /\ nrm (g y s - f x t) <= h * B.
Proof.
move=> hy hs; have y1 := le_trans hy hL.
have e2 : L + 2%:R = 1 + (L + 1) by rewrite (natrD _ 1 1) !addrA [1 + L]addrC.
have p : nrm (g y s - f y s) <= h * (G * (L + 2%:R)).
  apply: le_trans (gf y1 hs) _; rewrite mulrCA ler_wpmul2l // e2 mulrDr mulr1 ler_add2l //.
split.
  rewrite -[g y s](subrK (f y s)); apply: le_trans (nrmD _ _) _; rewrite addrC ler_add ?fb //; exact: le_trans p hG.
apply: le_trans (nrm_tri _ (f y s) _) _; rewrite mulrDr mulrDr; apply: ler_add; first by rewrite [_ * G]mulrC.
apply: le_trans (fl y1 hs) _; rewrite mulrA mulrC ler_wpmul2r // e2 mulrDr mulr1 addrC ler_add //.
by case/andP: hs => _; rewrite ler_subl_addl.
Qed.
Lemma step_euler : nrm (tstp g h x t - (x + h *: f x t)) <= h ^+ 2 * B.
Proof.
have hh : h / 2%:R <= h by rewrite ler_pdivr_mulr ?ltr0n // ler_pemulr // ler1n.
have d0 : 0 <= h / 2%:R by rewrite divr_ge0 ?ler0n.
have h1 y : nrm y <= L + 1 -> nrm (x + half *: (h *: y) - x) <= h * (L + 1).
  move=> H; rewrite addrAC subrr add0r !nrmZ !ger0_norm ?invr_ge0 ?ler0n // mulrA [half * h]mulrC.
  by apply: ler_pmul => //; exact: nrm_ge0.
have h2 y : nrm y <= L + 1 -> nrm (x + h *: y - x) <= h * (L + 1).
  by move=> H; rewrite addrAC subrr add0r !nrmZ ger0_norm // ler_wpmul2l.
have L1 : 0 <= L + 1 by rewrite addr_ge0 ?ler01.
have [] := @stage x t; rewrite ?subrr ?nrm0 ?mulr_ge0 ?lexx ?ler_addl //; set k1 := g x t => b1 e1.
have [] := @stage (x + half *: (h *: k1)) (t + h / 2%:R); rewrite ?h1 ?ler_addl ?ler_add2l ?d0 //; set k2 := g _ _ => b2 e2.
have [] := @stage (x + half *: (h *: k2)) (t + h / 2%:R); rewrite ?h1 ?ler_addl ?ler_add2l ?d0 //; set k3 := g _ _ => b3 e3.
have [] := @stage (x + h *: k3) (t + h); rewrite ?h2 ?ler_addl ?lexx ?h0 //; set k4 := g _ _ => b4 e4.
have -> : tstp g h x t - (x + h *: f x t) = (h / 6%:R) *: ((k1 - f x t) + 2%:R *: (k2 - f x t) + 2%:R *: (k3 - f x t) + (k4 - f x t)) by exact: rk_gap.
rewrite nrmZ ger0_norm ?divr_ge0 ?ler0n // -six' ler_wpmul2l ?divr_ge0 ?ler0n // -six.
have n2 (a : V) : nrm a <= h * B -> nrm (2%:R *: a) <= 2%:R * (h * B) by move=> H; rewrite nrmZ ger0_norm ?ler0n // ler_wpmul2l ?ler0n.
apply: le_trans (nrmD _ _) _; apply: ler_add => //.
apply: le_trans (nrmD _ _) _; apply: ler_add; last exact: n2.
by apply: le_trans (nrmD _ _) _; apply: ler_add => //; exact: n2.
Qed.
End Stage.

Lemma lin_deriv (A : V) (t : Rf) : mderiv (fun t : Rf => t *: A) t A.
Proof.
move=> i j; have := derivable_pt_lim_scal id (A i j) t 1 (derivable_pt_lim_id t); rewrite RmultE mulr1.
by apply: dlim_ext => s; rewrite /mult_real_fct RmultE mulrC mxE.
Qed.
(** ** the error recursion *)
Section Conv.
Variables (f : V -> Rf -> V) (z : R -> V) (T : Rf).
Hypothesis T0 : 0 <= T.
(** bounded and Lipschitz on bounded sets *)
Hypothesis flip : forall M : Rf, exists2 L : Rf, 0 <= L & forall x y s t, nrm x <= M -> nrm y <= M -> 0 <= s <= T -> 0 <= t <= T ->
  nrm (f x s) <= L /\ nrm (f x s - f y t) <= L * (nrm (x - y) + `|s - t|).
Hypothesis zc : forall t : Rf, 0 <= t <= T -> mcont z t.
Hypothesis zd : forall t : Rf, 0 < t < T -> mderiv z t (f (z t) t).
Lemma grow_mx (y d : R -> V) (a C : Rf) m : 0 <= a -> 0 <= C -> y 0 = 0 -> (forall t : Rf, 0 <= t <= a -> mcont y t) ->
  (forall t : Rf, 0 < t < a -> mderiv y t (d t) /\ nrm (d t) <= C * t ^+ m) -> nrm (y a) <= (k * l)%:R * (C * a ^+ m.+1).
Proof.
move=> a0 C0 y0 yc yd; apply: nrm_le => i j; apply: (grow (g := fun t => y t i j) (d := fun t => d t i j)) => //.
- by rewrite y0 mxE.
- by move=> t ht; exact: yc.
move=> t ht; have [h1 h2] := yd t ht; split; first exact: h1.
by apply: le_trans h2; exact: nrm_entry.
Qed.
Lemma mcont_shift (s t : Rf) : mcont z (s + t)%R -> mcont (fun t : Rf => z (s + t)%R) t.
Proof.
move=> H; have := @shift_cont k l z s t; rewrite mul1r => /(_ H) H' i j.
by apply: (cont_ext _ (H' i j)) => r; rewrite mul1r.
Qed.
Lemma mderiv_shift (s t : Rf) D : mderiv z (s + t)%R D -> mderiv (fun t : Rf => z (s + t)%R) t D.
Proof.
move=> H; have e : s + 1 * t = s + t :> Rf by rewrite mul1r.
have e' : mderiv z (s + 1 * t)%R D by rewrite e.
have := mderiv_aff (a := s) (c := 1) (t := t) e'; rewrite scale1r.
by apply: mderiv_ext => r; rewrite mul1r.
Qed.
Lemma exact_euler : exists2 C : Rf, 0 <= C & forall s h : Rf, 0 <= s -> 0 <= h -> s + h <= T -> nrm (z (s + h)%R - (z s + h *: f (z s) s)) <= C * h ^+ 2.
Proof.
have [M M0 HM] := bounded_on T0 zc; have [L L0 HL] := flip M.
pose C1 := (k * l)%:R * L.
have C10 : 0 <= C1 by rewrite mulr_ge0 ?ler0n.
exists ((k * l)%:R * (L * (C1 + 1))); first by rewrite !mulr_ge0 ?ler0n // addr_ge0 ?ler01.
move=> s h s0 h0 sh.
have inT (t : Rf) : 0 <= t <= h -> 0 <= s + t <= T.
  by move=> /andP [t0 th]; rewrite addr_ge0 //=; apply: le_trans sh; rewrite ler_add2l.
have inT' (t : Rf) : 0 < t < h -> 0 < s + t < T.
  by move=> /andP [t0 th]; apply/andP; split; [exact: ltr_paddl | apply: lt_le_trans sh; rewrite ltr_add2l].
have zs : nrm (z s) <= M by apply: HM; rewrite s0 /=; apply: le_trans sh; rewrite ler_addl.
have sT : 0 <= s <= T by rewrite s0 /=; apply: le_trans sh; rewrite ler_addl.
have move1 (t : Rf) : 0 <= t <= h -> nrm (z (s + t)%R - z s) <= C1 * t.
  move=> /andP [t0 th]; rewrite /C1 -mulrA -{2}[t]expr1.
  apply: (@grow_mx (fun t => z (s + t)%R - z s) (fun t => f (z (s + t)%R) (s + t)) t L 0) => //.
  - by rewrite addr0 subrr.
  - move=> r /andP [r0 rt]; apply: mcont_sub; last exact: mcont_const.
    by apply: mcont_shift; apply: zc; apply: inT; rewrite r0 (le_trans rt th).
  move=> r /andP [r0 rt]; have rh : 0 < r < h by rewrite r0 (lt_le_trans rt th).
  split; last by rewrite expr0 mulr1; have := inT' r rh => /andP [i1 i2]; apply: (proj1 (HL _ (z s) _ s _ zs _ sT)); rewrite ?(ltW i1) ?(ltW i2) ?HM ?(ltW i1) ?(ltW i2).
  by have := mderiv_add (mderiv_shift (zd (inT' r rh))) (mderiv_const (- z s) r); rewrite addr0.
rewrite -mulrA; apply: (@grow_mx (fun t => z (s + t)%R - (z s + t *: f (z s) s)) (fun t => f (z (s + t)%R) (s + t) - f (z s) s) h (L * (C1 + 1)) 1) => //.
- by rewrite mulr_ge0 // addr_ge0 ?ler01.
- by rewrite addr0 scale0r addr0 subrr.
- move=> t ht; apply: mcont_sub; first by apply: mcont_shift; apply: zc; exact: inT.
  by apply: mcont_add; [exact: mcont_const | apply: mderiv_cont; exact: lin_deriv].
move=> t ht; have [i1 i2] := andP (inT' t ht); have [t0 th] := andP ht; split.
  have := mderiv_add (mderiv_shift (zd (inT' t ht))) (mderiv_opp (mderiv_add (mderiv_const (z s) t) (lin_deriv (f (z s) s) t))).
  by rewrite add0r.
have st : 0 <= s + t <= T by rewrite !ltW.
have [_ H] := HL (z (s + t)%R) (z s) (s + t) s (HM _ st) zs st sT.
apply: le_trans H _; rewrite -mulrA ler_wpmul2l // [s + t]addrC addrK ger0_norm ?(ltW t0) // mulrDl mul1r expr1 ler_add2r [t + s]addrC.
by apply: move1; rewrite !ltW.
Qed.
(** Sequences whose error is at most that of a step with a perturbed right-hand side g. *)
Theorem rk_order1 (xs : nat -> nat -> V) (g : nat -> nat -> V -> Rf -> V) : (forall N, xs N 0%N = z 0) ->
  (forall M : Rf, exists (G : Rf) N1, 0 <= G /\ forall N i, (N1 <= N)%N -> (0 < N)%N -> (i < N)%N -> let h := T / N%:R in nrm (xs N i) <= M ->
     forall y s, nrm y <= M -> i%:R * h <= s <= i%:R * h + h -> nrm (g N i y s - f y s) <= G * (h + nrm (y - xs N i))) ->
  (forall N i, (i < N)%N -> let h := T / N%:R in nrm (xs N i.+1 - z (i.+1%:R * h)%R) <= nrm (tstp (g N i) h (xs N i) (i%:R * h) - z (i.+1%:R * h)%R)) ->
  exists D N0, 0 <= D /\ forall N, (N0 <= N)%N -> (0 < N)%N -> forall i, (i <= N)%N -> nrm (xs N i - z (i%:R * (T / N%:R))%R) <= D / N%:R.
Proof.
move=> x0 pert step; have [M M0 HM] := bounded_on T0 zc; have [C C0 HC] := exact_euler.
have [L L0 HL] := flip (M + 2%:R); have [G [N1 [G0 HG]]] := pert (M + 2%:R).
have [N2 HN2] := big_nat_above (T * (L + 1)); have [N3 HN3] := big_nat_above (T * (G * (L + 2%:R))).
pose B := (L + 2%:R) * (G + L).
have [||||D [N0 [D0 HD]]] := @converge T (B + C) L 1 1 (maxn N1 (maxn N2 N3)) (fun N i => nrm (xs N i - z (i%:R * (T / N%:R))%R)) T0 _ L0 ltr01 isT; last first.
- by exists D, N0; split=> // N N0N Np i iN; have := HD N N0N Np i iN; rewrite expr1.
- move=> N i; rewrite !geq_max => /and3P [l1 l2 l3] Np iN small.
  have Nr : 0 < N%:R :> Rf by rewrite ltr0n.
  pose h := T / N%:R; have h0 : 0 <= h by rewrite divr_ge0 // ltW.
  rewrite -/h in small *.
  have ti : i%:R * h + h = i.+1%:R * h by rewrite -[i.+1]addn1 natrD mulrDl mul1r.
  have tT : i.+1%:R * h <= T by rewrite mulrCA ler_pimulr // ler_pdivr_mulr // mul1r ler_nat.
  have z0 : 0 <= i%:R * h by rewrite mulr_ge0 ?ler0n.
  have iT : 0 <= i%:R * h <= T by rewrite z0 /=; apply: le_trans tT; rewrite -ti ler_addl.
  have hz := HM _ iT.
  have hx : nrm (xs N i) <= M + 1.
    by rewrite -[xs N i](subrK (z (i%:R * h)%R)) addrC; apply: le_trans (nrmD _ _) _; exact: ler_add.
  have hx2 : nrm (xs N i) <= M + 2%:R by apply: le_trans hx _; rewrite ler_add2l ler1n.
  have hz2 : nrm (z (i%:R * h)%R) <= M + 2%:R by apply: le_trans hz _; rewrite ler_addl ler0n.
  have near y : nrm (y - xs N i) <= 1 -> nrm y <= M + 2%:R.
    move=> H; rewrite -[y](subrK (xs N i)); apply: le_trans (nrmD _ _) _; rewrite addrC (natrD _ 1 1) addrA; exact: ler_add.
  have sT s : i%:R * h <= s <= i%:R * h + h -> 0 <= s <= T.
    by move=> /andP [h1 h2]; rewrite (le_trans z0 h1) (le_trans h2) // ti.
  apply: le_trans (step N i iN) _; rewrite -/h.
  have S1 : nrm (tstp (g N i) h (xs N i) (i%:R * h) - (xs N i + h *: f (xs N i) (i%:R * h))) <= h ^+ 2 * B.
    apply: step_euler => //.
    - by rewrite /h mulrAC ler_pdivr_mulr // mul1r HN2.
    - by rewrite /h mulrAC ler_pdivr_mulr // mul1r HN3.
    - by move=> y s /near hy /sT hs; exact: (proj1 (HL y (xs N i) s _ hy hx2 hs iT)).
    - move=> y s /near hy hs; have := proj2 (HL y (xs N i) s _ hy hx2 (sT s hs) iT).
      by rewrite [`|_|]ger0_norm // subr_ge0; case/andP: hs.
    - by move=> y s /near hy hs; apply: HG.
  rewrite (tri3 _ (xs N i) 0 (h *: f (xs N i) (i%:R * h)) (z (i%:R * h)%R) _ (h *: f (z (i%:R * h)%R) (i%:R * h))).
  apply: le_trans (nrmD _ _) _; rewrite -(sum3 h B 0 C L); apply: ler_add => //.
  apply: le_trans (nrmD _ _) _; apply: ler_add; last by rewrite nrmN -ti; apply: HC => //; rewrite ti.
  apply: le_trans (nrmD _ _) _; rewrite ler_add2l -scalerBr nrmZ ger0_norm // ler_wpmul2l //.
  by apply: le_trans (proj2 (HL _ _ _ _ hx2 hz2 iT iT)) _; rewrite subrr normr0 addr0.
- by move=> N i; exact: nrm_ge0.
- by move=> N; rewrite x0 mul0r subrr nrm0.
- by apply: addr_ge0 => //; apply: mulr_ge0; apply: addr_ge0 => //; exact: ler0n.
Qed.
End Conv.
End Rk.
