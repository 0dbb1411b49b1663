(** The classical Runge-Kutta method is of order four on quadratic vector fields. *)
From Coq Require Import Reals Lra Ring Field.
From mathcomp Require Import all_ssreflect all_algebra zify.
From Verif Require Import RealF MxBase LqtModel LqtSpec LqtCore LinComb Rk4Model Rk4Spec Rk4Proofs RealExpSpec RealExp ClqrOptSpec ClqrOpt RkConvA RkConvSpec RkQuadAlg RkConvB.
Import Order.TTheory GRing.Theory Num.Theory.
Set Implicit Arguments. Unset Strict Implicit. Unset Printing Implicit Defensive.
Local Open Scope ring_scope.
Delimit Scope R_scope with Re.

Section Quad.
Variables k l : nat.
Local Notation V := (matrix_lmodType Rf k l).
Variables (c : V) (B : V -> V) (b : V -> V -> V).
Hypothesis HB : linear_map B.
Hypothesis Hb : bilinear_map b.
Local Notation f := (f c B b). Local Notation bs := (bs b). Local Notation dA := (dA B b).
Local Notation g2 := (g2 c B b). Local Notation g3 := (g3 c B b). Local Notation g4 := (g4 c B b). Local Notation g5 := (g5 c B b). Local Notation gs := (gs c B b).
Local Notation stp := (stp c B b). Local Notation incr := (incr c B b). Local Notation rr := (rr c B b). Local Notation pp := (pp c B b). Local Notation qq := (qq c B b). Local Notation qq1 := (qq1 c B b). Local Notation qq2 := (qq2 c B b).
(** derivatives of the solution *)
Lemma bs_deriv (y z : R -> V) (t : Rf) D E : mderiv y t D -> mderiv z t E -> mderiv (fun t => bs (y t) (z t)) t (bs D (z t) + bs (y t) E).
Proof.
move=> hy hz; have := mderiv_add (mderiv_bil Hb hy hz) (mderiv_bil Hb hz hy); congr (mderiv _ _ _).
by rewrite /bs [b E _ + _]addrC addrACA.
Qed.
Lemma bs_cont (y z : R -> V) (t : Rf) : mcont y t -> mcont z t -> mcont (fun t => bs (y t) (z t)) t.
Proof.
move=> hy hz i j; apply: (cont_ext (f := ((fun t => b (y t) (z t) i j) + (fun t => b (z t) (y t) i j))%F)) => [s|]; first by rewrite mxE.
by apply: continuity_pt_plus; exact: mcont_bil.
Qed.
Lemma mcont_add (y z : R -> V) (t : Rf) : mcont y t -> mcont z t -> mcont (fun t => y t + z t) t.
Proof.
move=> hy hz i j; apply: (cont_ext (f := ((fun t => y t i j) + (fun t => z t i j))%F)) => [s|]; first by rewrite mxE.
by apply: continuity_pt_plus; [exact: hy | exact: hz].
Qed.
Lemma mcont_scale (a : Rf) (z : R -> V) (t : Rf) : mcont z t -> mcont (fun t => a *: z t) t.
Proof.
move=> hz i j; apply: (cont_ext (f := mult_real_fct a (fun t => z t i j))) => [s|]; first by rewrite mxE.
by apply: continuity_pt_scal; exact: hz.
Qed.
Lemma mderiv_scale (a : Rf) (z : R -> V) (t : Rf) D : mderiv z t D -> mderiv (fun t => a *: z t) t (a *: D).
Proof.
move=> hz i j; apply: (dlim_ext (f := mult_real_fct a (fun t => z t i j))) => [s|]; first by rewrite mxE.
by rewrite mxE; apply: derivable_pt_lim_scal; exact: hz.
Qed.
Section Path.
Variable z : R -> V.
Variable t : Rf.
Lemma dA_deriv (y : R -> V) D E : mderiv z t D -> mderiv y t E -> mderiv (fun t => dA (z t) (y t)) t (dA (z t) E + bs D (y t)).
Proof.
move=> hz hy; have := mderiv_add (mderiv_lin HB hy) (bs_deriv hz hy); congr (mderiv _ _ _).
by rewrite /dA [bs D _ + _]addrC addrA.
Qed.
Lemma gs_cont m : (m <= 5)%N -> mcont z t -> mcont (fun t => gs m (z t)) t.
Proof.
move=> hm cz.
have cA y : mcont y t -> mcont (fun t => dA (z t) (y t)) t by move=> cy; apply: mcont_add; [exact: mcont_lin | exact: bs_cont].
have c1 : mcont (fun t => f (z t)) t.
  apply: mcont_add; last exact: mcont_bil.
  by apply: mcont_add; [move=> i j; exact: continuity_pt_const | exact: mcont_lin].
have c2 : mcont (fun t => g2 (z t)) t by exact: cA.
have c3 : mcont (fun t => g3 (z t)) t by apply: mcont_add; [exact: cA | apply: mcont_scale; exact: mcont_bil].
have c4 : mcont (fun t => g4 (z t)) t by apply: mcont_add; [exact: cA | apply: mcont_scale; exact: bs_cont].
have c5 : mcont (fun t => g5 (z t)) t.
  apply: mcont_add; first by apply: mcont_add; [exact: cA | exact: bs_cont].
  by apply: mcont_scale; apply: mcont_add; exact: bs_cont.
by case: m hm => [|[|[|[|[|[|]]]]]].
Qed.
Lemma gs_deriv m : (m < 5)%N -> mderiv z t (f (z t)) -> mderiv (fun t => gs m (z t)) t (gs m.+1 (z t)).
Proof.
move=> hm dz.
have d1 : mderiv (fun t => f (z t)) t (g2 (z t)).
  have := mderiv_add (mderiv_add (mderiv_const c t) (mderiv_lin HB dz)) (mderiv_bil Hb dz dz); congr (mderiv _ _ _).
  by rewrite add0r /g2 /dA /bs [b (z t) _ + _]addrC.
have d2 : mderiv (fun t => g2 (z t)) t (g3 (z t)).
  by have := dA_deriv dz d1; congr (mderiv _ _ _); rewrite /RkQuadAlg.g3 /bs scaler_nat mulr2n.
have d3 : mderiv (fun t => g3 (z t)) t (g4 (z t)).
  have := mderiv_add (dA_deriv dz d2) (mderiv_scale 2%:R (mderiv_bil Hb d1 d1)); congr (mderiv _ _ _).
  rewrite /RkQuadAlg.g4 -addrA; congr (_ + _); rewrite [b (g2 _) _ + _]addrC -/(bs _ _).
  by rewrite (_ : 3%:R = 1 + 2%:R) ?scalerDl ?scale1r // -natrD.
have d4 : mderiv (fun t => g4 (z t)) t (g5 (z t)).
  exact: (mderiv_add (dA_deriv dz d3) (mderiv_scale 3%:R (bs_deriv d1 d2))).
by case: m hm => [|[|[|[|[|]]]]].
Qed.
End Path.

(** ** the step *)
Lemma ll_bs g g' : ll g -> ll g' -> ll (fun h x => bs (g h x) (g' h x)).
Proof. by move=> H H'; apply: ll_add; exact: ll_bil. Qed.
Lemma ll_dA g g' : ll g -> ll g' -> ll (fun h x => dA (g h x) (g' h x)).
Proof. by move=> H H'; apply: ll_add; [exact: ll_lin | exact: ll_bs]. Qed.
Lemma ll_f g : ll g -> ll (fun h x => f (g h x)).
Proof. by move=> H; apply: ll_add; [apply: ll_add; [exact: ll_const | exact: ll_lin] | exact: ll_bil]. Qed.
Ltac llt := lazymatch goal with
  | |- ll (fun _ x => x) => exact: ll_id
  | |- ll (fun _ x => RkQuadAlg.f _ _ _ (@?g x)) => apply: ll_f; llt
  | |- ll (fun h x => RkQuadAlg.f _ _ _ (@?g h x)) => apply: ll_f; llt
  | |- ll (fun h x => GRing.add (@?g h x) (@?g' h x)) => apply: ll_add; [llt | llt]
  | |- ll (fun h x => GRing.scale h (@?g h x)) => apply: ll_h; llt
  | |- ll (fun h x => GRing.scale _ (@?g h x)) => apply: ll_scale; llt
  | |- ll (fun h x => RkQuadAlg.bs _ (@?g h x) (@?g' h x)) => apply: ll_bs; [llt | llt]
  | |- ll (fun h x => RkQuadAlg.dA _ _ (@?g h x) (@?g' h x)) => apply: ll_dA; [llt | llt]
  | |- ll (fun h x => RkQuadAlg.f _ _ _ (@?g h x)) => apply: ll_f; llt
  | |- ll (fun h x => b (@?g h x) (@?g' h x)) => apply: (ll_bil Hb); [llt | llt]
  | |- _ => eassumption
  end.
Lemma ll_incr : ll incr.
Proof.
have L1 : ll (fun h x => f x) by llt.
have L2 : ll (fun h x => f (x + 2%:R^-1 *: (h *: f x))) by llt.
have L3 : ll (fun h x => f (x + 2%:R^-1 *: (h *: f (x + 2%:R^-1 *: (h *: f x))))) by llt.
rewrite /RkQuadAlg.incr; llt.
Qed.
Lemma ll_rr : ll rr.
Proof.
have Lf : ll (fun _ x => f x) by llt.
have Lw : ll (fun _ x => b (f x) (f x)) by llt.
have La : ll (fun _ x => dA x (f x)) by llt.
have Lp : ll pp by rewrite /RkQuadAlg.pp; llt.
have L2 : ll qq2 by rewrite /RkQuadAlg.qq2; llt.
have L1 : ll qq1 by rewrite /RkQuadAlg.qq1; llt.
have L : ll qq by rewrite /RkQuadAlg.qq; llt.
rewrite /RkQuadAlg.rr; llt.
Qed.
(** ** the local error *)
Lemma ll_g5 : ll (fun _ x => g5 x).
Proof.
have L1 : ll (fun _ x => f x) by llt.
have L2 : ll (fun _ x => g2 x) by exact: (ll_dA (@ll_id k l) L1).
have L3 : ll (fun _ x => g3 x) by exact: (ll_add (ll_dA (@ll_id k l) L2) (ll_scale 2%:R (ll_bil Hb L1 L1))).
have L4 : ll (fun _ x => g4 x) by exact: (ll_add (ll_dA (@ll_id k l) L3) (ll_scale 3%:R (ll_bs L1 L2))).
exact: (ll_add (ll_add (ll_dA (@ll_id k l) L4) (ll_bs L1 L3)) (ll_scale 3%:R (ll_add (ll_bs L2 L2) (ll_bs L1 L3)))).
Qed.
Lemma bounded_on (z : R -> V) (T : Rf) : 0 <= T -> (forall t : Rf, 0 <= t <= T -> mcont z t) ->
  exists2 M : Rf, 0 <= M & forall t : Rf, 0 <= t <= T -> nrm (z t) <= M.
Proof.
move=> T0 zc.
have [C HC] : exists C : 'I_k -> 'I_l -> Rf, forall i j, forall t : Rf, 0 <= t <= T -> `|z t i j| <= C i j.
  apply: (@fin_all_exists _ _ (fun i c => forall j, forall t : Rf, 0 <= t <= T -> `|z t i j| <= c j)) => i.
  apply: (@fin_all_exists _ _ (fun j (c : Rf) => forall t : Rf, 0 <= t <= T -> `|z t i j| <= c)) => j.
  have H (s : R) : (0 <= s <= T)%Re -> continuity_pt (fun t => Rabs (z t i j)) s.
    move=> [h1 h2]; apply: (continuity_pt_comp (fun t => z t i j) Rabs); last exact: Rcontinuity_abs.
    by apply: zc; apply/andP; split; exact/RleP.
  have [m [Hm _]] := continuity_ab_maj _ 0 T (elimT (RleP _ _) T0) H.
  by exists (Rabs (z m i j)) => t /andP [/RleP h1 /RleP h2]; apply/RleP; rewrite -RabsE; exact: Hm.
exists (\sum_i \sum_j `|C i j|); first by apply: sumr_ge0 => i _; apply: sumr_ge0 => j _.
move=> t ht; apply: ler_sum => i _; apply: ler_sum => j _; apply: le_trans (HC i j t ht) _; exact: ler_norm.
Qed.
Section Sol.
Variables (z : R -> V) (T : Rf).
Hypothesis T0 : 0 <= T.
Hypothesis sol : solves f z 0 T.
Lemma shift_cont (y : R -> V) (s t : Rf) : mcont y (s + 1 * t)%R -> mcont (fun t : Rf => y (s + 1 * t)%R) t.
Proof.
move=> H i j; apply: (continuity_pt_comp (fun t => s + 1 * t)%Re (fun t => y t i j)); last exact: H.
exact: dlim_cont (dlim_aff s 1 t).
Qed.
Lemma local_taylor : exists2 C : Rf, 0 <= C & forall s h : Rf, 0 <= s -> 0 <= h -> s + h <= T -> nrm (z (s + h)%R - tayl c B b h (z s)) <= C * h ^+ 5.
Proof.
have [M M0 HM] := bounded_on T0 sol.1.
have [L L0 HL] := ll_g5 M0.
exists ((k * l)%:R * L); first by rewrite mulr_ge0 ?ler0n.
move=> s h s0 h0 sh; rewrite -mulrA; apply: nrm_le => i j.
pose G m (t : Rf) := gs m (z (s + 1 * t)%R).
have inT (t : Rf) : 0 <= t <= h -> 0 <= s + 1 * t <= T.
  by move=> /andP [t0 th]; rewrite mul1r addr_ge0 //=; apply: le_trans sh; rewrite ler_add2l.
have H : `|(G 0%N h - tay G 0 5 h) i j| <= L * h ^+ 5.
  apply: (@taylor k l G h L 5) => //; rewrite ?h0 ?lexx //.
  - by move=> m t hm ht; apply: (@shift_cont (fun r => gs m (z r)) s t); apply: gs_cont => //; apply: sol.1; exact: inT.
  - move=> m t hm ht; have [t0 th] := andP ht.
    have hs : 0 < s + 1 * t < T by rewrite mul1r; apply/andP; split; [exact: ltr_paddl | apply: lt_le_trans sh; rewrite ltr_add2l].
    by have := mderiv_aff (a := s) (c := 1) (t := t) (gs_deriv hm (sol.2 (s + 1 * t)%R hs)); rewrite scale1r.
  move=> t i' j' ht; apply: le_trans (nrm_entry _ _ _) _.
  by have [] := HL 0 _ (z (s + 1 * t)%R) _ (HM _ (inT t ht)) (HM _ (inT t ht)); rewrite ?lexx ?ler01.
move: H; have -> : G 0%N h = z (s + h)%R by rewrite /G mul1r.
have -> // : tay G 0 5 h = tayl c B b h (z s).
rewrite /tay /tayl !big_ord_recl big_ord0 addr0 /G /= mulr0 addr0 expr0 divr1 scale1r !addrA.
have e4 : 4%:R * 6%:R = 4`!%:R :> Rf by rewrite -natrM.
by rewrite e4 expr1 divr1 /bump /=.
Qed.
Lemma local_error : exists2 C : Rf, 0 <= C & forall s h : Rf, 0 <= s -> 0 <= h <= 1 -> s + h <= T -> nrm (stp h (z s) - z (s + h)%R) <= C * h ^+ 5.
Proof.
have [M M0 HM] := bounded_on T0 sol.1.
have [L L0 HL] := ll_rr M0; have [C C0 HC] := local_taylor.
exists (L + C); first exact: addr_ge0.
move=> s h s0 hh sh; have [h0 h1] := andP hh; apply: le_trans (nrm_tri _ (tayl c B b h (z s)) _) _; rewrite mulrDl; apply: ler_add; last by rewrite nrmC; exact: HC.
rewrite stp_expand // addrAC subrr add0r nrmZ ger0_norm ?exprn_ge0 // mulrC ler_wpmul2r ?exprn_ge0 //.
have zs : nrm (z s) <= M by apply: HM; rewrite s0 /=; apply: le_trans sh; rewrite ler_addl.
by have [] := HL h _ _ hh zs zs.
Qed.
(** sequences whose error is at most that of a step of the method *)
Theorem rk_order4 (xs : nat -> nat -> V) : (forall N, xs N 0%N = z 0) ->
  (forall N i, (i < N)%N -> nrm (xs N i.+1 - z (i.+1%:R * (T / N%:R))%R) <= nrm (stp (T / N%:R) (xs N i) - z (i.+1%:R * (T / N%:R))%R)) ->
  exists D N0, 0 <= D /\ forall N, (N0 <= N)%N -> (0 < N)%N -> forall i, (i <= N)%N -> nrm (xs N i - z (i%:R * (T / N%:R))%R) <= D / N%:R ^+ 4.
Proof.
move=> x0 step; have [M M0 HM] := bounded_on T0 sol.1; have [C C0 HC] := local_error.
have M1 : 0 <= M + 1 by rewrite addr_ge0 ?ler01.
have [L L0 HL] := ll_incr M1; have [N1 HN1] := big_nat_above T.
apply: (@converge T C L 1 4 N1 (fun N i => nrm (xs N i - z (i%:R * (T / N%:R))%R))) => //.
- exact: ltr01.
- by move=> N; rewrite x0 mul0r subrr nrm0.
- by move=> N i; exact: nrm_ge0.
move=> N i N1N N0 iN small.
have Np : 0 < N%:R :> Rf by rewrite ltr0n.
pose h := T / N%:R; have h0 : 0 <= h by rewrite divr_ge0 // ltW.
have h1 : h <= 1 by rewrite ler_pdivr_mulr // mul1r; exact: HN1.
have ti : i%:R * h + h = i.+1%:R * h by rewrite -[i.+1]addn1 natrD mulrDl mul1r.
have tT : i.+1%:R * h <= T by rewrite mulrCA ler_pimulr // ler_pdivr_mulr // mul1r ler_nat.
have z0 : 0 <= i%:R * h by rewrite mulr_ge0 ?ler0n.
apply: le_trans (step N i iN) _; rewrite -/h.
apply: le_trans (nrm_tri _ (stp h (z (i%:R * h)%R)) _) _; apply: ler_add; last first.
  by rewrite -ti; apply: HC => //; rewrite ?h0 ?ti.
rewrite !stp_incr opprD addrACA -scalerBr; apply: le_trans (nrmD _ _) _; rewrite nrmZ (ger0_norm h0) mulrDl mul1r -mulrA ler_add2l ler_wpmul2l //.
have hz : nrm (z (i%:R * h)%R) <= M by apply: HM; rewrite z0 /=; apply: le_trans tT; rewrite -ti ler_addl.
have hx : nrm (xs N i) <= M + 1.
  by rewrite -[xs N i](subrK (z (i%:R * h)%R)) addrC; apply: le_trans (nrmD _ _) _; exact: ler_add.
have [] := HL h (xs N i) (z (i%:R * h)%R) _ hx _ => //; first by rewrite h0.
by apply: le_trans hz _; rewrite ler_addl ler01.
Qed.
End Sol.
End Quad.
