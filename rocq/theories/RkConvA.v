(** Tools for convergence of one-step methods over the real numbers: norms, Taylor's theorem, the error recursion. *)
From Coq Require Import Reals Lra.
From mathcomp Require Import all_ssreflect all_algebra zify.
From Verif Require Import RealF MxBase RealExpSpec RealExp RealAssm ClqrOptSpec ClqrOpt RealDisc.
Import Order.TTheory GRing.Theory Num.Theory.
Set Implicit Arguments. Unset Strict Implicit. Unset Printing Implicit Defensive.
Local Open Scope ring_scope.
Delimit Scope R_scope with Re.

(** ** the sum of the absolute values of the entries *)
Section Nrm.
Variables k l : nat.
Implicit Types A B : 'M[Rf]_(k, l).
Lemma nrmD A B : nrm (A + B) <= nrm A + nrm B.
Proof.
rewrite /nrm -big_split /=; apply: ler_sum => i _; rewrite -big_split /=; apply: ler_sum => j _; rewrite mxE; exact: ler_norm_add.
Qed.
Lemma nrmZ (a : Rf) A : nrm (a *: A) = `|a| * nrm A.
Proof. by rewrite /nrm mulr_sumr; apply: eq_bigr => i _; rewrite mulr_sumr; apply: eq_bigr => j _; rewrite mxE normrM. Qed.
Lemma nrmN A : nrm (- A) = nrm A. Proof. by rewrite -scaleN1r nrmZ normrN normr1 mul1r. Qed.
Lemma nrm0 : nrm (0 : 'M[Rf]_(k, l)) = 0. Proof. by rewrite -(scale0r 0) nrmZ normr0 mul0r. Qed.
Lemma nrmB A B : nrm (A - B) <= nrm A + nrm B. Proof. by rewrite -(nrmN B); exact: nrmD. Qed.
Lemma nrmC A B : nrm (A - B) = nrm (B - A). Proof. by rewrite -nrmN opprB. Qed.
Lemma nrm_tri A B C : nrm (A - C) <= nrm (A - B) + nrm (B - C).
Proof. by apply: le_trans (nrmD _ _); rewrite addrA subrK. Qed.
Lemma nrm_entry A i j : `|A i j| <= nrm A.
Proof.
rewrite /nrm (bigD1 i) //= (bigD1 j) //= -addrA ler_addl addr_ge0 ?sumr_ge0 // => i' _; exact: sumr_ge0.
Qed.
Lemma nrm_le A (C : Rf) : (forall i j, `|A i j| <= C) -> nrm A <= (k * l)%:R * C.
Proof.
move=> H; apply: (@le_trans _ _ (\sum_(i < k) \sum_(j < l) C)); first by apply: ler_sum => i _; apply: ler_sum => j _; exact: H.
by rewrite !sumr_const !card_ord -mulrnA mulr_natl mulnC.
Qed.
Lemma nrm_sum (I : Type) (r : seq I) (P : pred I) (F : I -> 'M[Rf]_(k, l)) : nrm (\sum_(i <- r | P i) F i) <= \sum_(i <- r | P i) nrm (F i).
Proof.
elim: r => [|i r IH]; first by rewrite !big_nil nrm0.
by rewrite !big_cons; case: (P i) => //; apply: le_trans (nrmD _ _) _; rewrite ler_add2l.
Qed.
End Nrm.
Lemma nrm_mul k l p (A : 'M[Rf]_(k, l)) (B : 'M[Rf]_(l, p)) : nrm (A *m B) <= nrm A * nrm B.
Proof.
rewrite {1}/nrm; apply: (@le_trans _ _ (\sum_i \sum_j \sum_q `|A i q| * `|B q j|)).
  apply: ler_sum => i _; apply: ler_sum => j _; rewrite mxE; apply: le_trans (ler_norm_sum _ _ _) _.
  by apply: ler_sum => q _; rewrite normrM.
rewrite {1}/nrm mulr_suml; apply: ler_sum => i _; rewrite exchange_big mulr_suml /=; apply: ler_sum => q _.
by rewrite -mulr_sumr ler_wpmul2l // row_nrm.
Qed.
Lemma nrm_tr k l (A : 'M[Rf]_(k, l)) : nrm A^T = nrm A.
Proof. by rewrite /nrm exchange_big /=; apply: eq_bigr => i _; apply: eq_bigr => j _; rewrite mxE. Qed.

(** ** Taylor's theorem *)
Section Taylor.
Lemma dlim_powS (C : Rf) (m : nat) (t : Rf) : derivable_pt_lim (fun t : Rf => C * t ^+ m.+1) t (C * (m.+1%:R * t ^+ m)).
Proof.
apply: (dlim_ext (f := mult_real_fct C (fun t => pow t m.+1))) => [s|]; first by rewrite /mult_real_fct powE.
have := derivable_pt_lim_scal _ C t _ (derivable_pt_lim_pow t m.+1); rewrite INRE powE; exact.
Qed.
Lemma grow (g : R -> R) (d : R -> Rf) (a C : Rf) (m : nat) : 0 <= a -> 0 <= C -> g 0 = 0 ->
  (forall t : Rf, 0 <= t <= a -> continuity_pt g t) -> (forall t : Rf, 0 < t < a -> derivable_pt_lim g t (d t) /\ `|d t| <= C * t ^+ m) ->
  `|g a : Rf| <= C * a ^+ m.+1.
Proof.
rewrite le_eqVlt => /orP [/eqP <- _ -> _ _|a0 C0 g0 gc gd]; first by rewrite normr0 exprS mul0r mulr0.
have le (t : Rf) : 0 < t -> C * t ^+ m <= C * (m.+1%:R * t ^+ m).
  by move=> t0; rewrite ler_wpmul2l // ler_pemull ?ler1n // exprn_ge0 // ltW.
have cp (t : Rf) : continuity_pt (fun t : Rf => C * t ^+ m.+1) t by apply: dlim_cont (dlim_powS C m t).
have h1 := @mono0 (fun t => C * t ^+ m.+1 - g t : Rf) 0 a a0.
have h2 := @mono0 (fun t => C * t ^+ m.+1 + g t : Rf) 0 a a0.
rewrite /= g0 exprS mul0r mulr0 subr0 subr_ge0 in h1; rewrite /= g0 exprS mul0r mulr0 addr0 addrC -ler_subl_addr sub0r in h2.
rewrite ler_norml h1 ?h2 //.
- by move=> t ht; exact: (continuity_pt_plus _ _ t (cp t) (gc t ht)).
- move=> t ht; have [h hb] := gd t ht; have [/(le t) hl _] := andP ht; exists (C * (m.+1%:R * t ^+ m) + d t).
    exact: (derivable_pt_lim_plus _ _ t _ _ (dlim_powS C m t) h).
  by move: hb; rewrite ler_norml => /andP [hb _]; rewrite -ler_subl_addr sub0r ler_oppl; apply: le_trans hb; rewrite ler_opp2.
- by move=> t ht; exact: (continuity_pt_minus _ _ t (cp t) (gc t ht)).
move=> t ht; have [h hb] := gd t ht; have [/(le t) hl _] := andP ht; exists (C * (m.+1%:R * t ^+ m) - d t).
  exact: (derivable_pt_lim_minus _ _ t _ _ (dlim_powS C m t) h).
by move: hb; rewrite ler_norml => /andP [_ hb]; rewrite subr_ge0; apply: le_trans hl.
Qed.

Variables k l : nat.
Variable G : nat -> R -> 'M[Rf]_(k, l).
Variables (a C : Rf) (N : nat).
Hypothesis a0 : 0 <= a.
Hypothesis C0 : 0 <= C.
Hypothesis Gc : forall m (t : Rf), (m <= N)%N -> 0 <= t <= a -> mcont (G m) t.
Hypothesis Gd : forall m (t : Rf), (m < N)%N -> 0 < t < a -> mderiv (G m) t (G m.+1 t).
Hypothesis Gb : forall (t : Rf) i j, 0 <= t <= a -> `|G N t i j| <= C.
Definition tay (p m : nat) (t : Rf) : 'M[Rf]_(k, l) := \sum_(q < m) (t ^+ q / q`!%:R) *: G (p + q) 0.
Lemma tay_deriv p m (t : Rf) : mderiv (tay p m.+1) t (tay p.+1 m t).
Proof.
move=> i j; rewrite /tay summxE.
apply: (dlim_ext (f := fun s => \sum_(q < m.+1) ((s ^+ q / q`!%:R) * G (p + q) 0 i j : Rf))) => [s|].
  by rewrite summxE; apply: eq_bigr => q _; rewrite mxE.
have -> : \sum_(q < m) ((t ^+ q / q`!%:R) *: G (p.+1 + q) 0) i j = \sum_(q < m.+1) (if val q is q'.+1 then (t ^+ q' / q'`!%:R) * G (p + q) 0 i j else 0).
  by rewrite [RHS]big_ord_recl add0r; apply: eq_bigr => q _; rewrite mxE /= /bump /= add1n addnS addSn.
apply: dlim_sum => -[[|q] hq] /=.
  by apply: (dlim_ext (f := fun _ => G (p + 0) 0 i j)) => [s|]; [rewrite expr0 divr1 mul1r | exact: derivable_pt_lim_const].
have := dlim_powS (G (p + q.+1)%N 0 i j / q.+1`!%:R) q t.
have -> : G (p + q.+1)%N 0 i j / q.+1`!%:R * (q.+1%:R * t ^+ q) = t ^+ q / q`!%:R * G (p + q.+1)%N 0 i j.
  rewrite factS natrM invfM; have nz : q.+1%:R != 0 :> Rf by rewrite pnatr_eq0.
  by rewrite -mulrA mulrACA mulVf // mul1r [RHS]mulrC [X in _ * X = _]mulrC.
by apply: dlim_ext => s; rewrite mulrAC [X in X / _]mulrC mulrAC.
Qed.
Lemma taylor m (p : nat) (t : Rf) i j : (p + m = N)%N -> 0 <= t <= a -> `|(G p t - tay p m t) i j| <= C * t ^+ m.
Proof.
elim: m p t => [|m IH] p t e ht.
  by rewrite addn0 in e; rewrite /tay big_ord0 subr0 expr0 mulr1 e; exact: Gb.
have [t0 ta] := andP ht.
have pN : (p < N)%N by lia.
pose g (s : Rf) := (G p s - tay p m.+1 s) i j.
apply: (@grow g (fun s => (G p.+1 s - tay p.+1 m s) i j)) => //.
- by rewrite /g /tay big_ord_recl /= !addn0 expr0 divr1 scale1r big1 ?addr0 ?subrr ?mxE // => q _; rewrite exprS !mul0r scale0r.
- move=> s /andP [s0 st]; apply: (@mcont_sub _ _ (G p) (tay p m.+1)).
    by apply: Gc; [exact: ltnW | rewrite s0 (le_trans st ta)].
  exact: mderiv_cont (tay_deriv p m s).
move=> s /andP [s0 st]; split; last by apply: IH; [lia | rewrite (ltW s0) (le_trans (ltW st) ta)].
apply: (mderiv_add (Gd pN _) (mderiv_opp (tay_deriv p m s))); by rewrite s0 (lt_le_trans st ta).
Qed.
End Taylor.

(** ** the error recursion *)
Section Rec.
Lemma le_exp (x : Rf) : 1 + x <= exp x.
Proof. by apply/RleP; exact: exp_ineq1_le. Qed.
Lemma exp_nat (x : Rf) n : (exp x : Rf) ^+ n = exp (n%:R * x)%R.
Proof.
elim: n => [|n IH]; first by rewrite expr0 mul0r exp_0.
by rewrite exprS IH -[n.+1]add1n natrD mulrDl mul1r -RplusE exp_plus.
Qed.
Lemma pow_le_exp (T L : Rf) N : (0 < N)%N -> 0 <= T -> 0 <= L -> (1 + T / N%:R * L) ^+ N <= exp (T * L)%R.
Proof.
move=> N0 T0 L0; have h0 : 0 <= T / N%:R * L by rewrite !mulr_ge0 ?invr_ge0 ?ler0n.
have -> : T * L = N%:R * (T / N%:R * L) by rewrite mulrA [N%:R * _]mulrC divfK // pnatr_eq0; lia.
by rewrite -exp_nat; apply: ler_expn2r (le_exp _); rewrite nnegrE ?addr_ge0 ?ler01 //; apply: le_trans (le_exp _); rewrite addr_ge0 ?ler01.
Qed.
Lemma big_nat_above (x : Rf) : exists N : nat, forall M, (N <= M)%N -> x <= M%:R.
Proof.
have [n hn] := R_archi x; exists n => M le; apply: le_trans (ler_norm x) _; apply: le_trans (ltW hn) _; by rewrite ler_nat.
Qed.
Lemma converge (T C L delta : Rf) (p N1 : nat) (e : nat -> nat -> Rf) : 0 <= T -> 0 <= C -> 0 <= L -> 0 < delta -> (0 < p)%N ->
  (forall N, e N 0%N = 0) -> (forall N i, 0 <= e N i) ->
  (forall N i, (N1 <= N)%N -> (0 < N)%N -> (i < N)%N -> e N i <= delta -> e N i.+1 <= (1 + T / N%:R * L) * e N i + C * (T / N%:R) ^+ p.+1) ->
  exists D N0, 0 <= D /\ forall N, (N0 <= N)%N -> (0 < N)%N -> forall i, (i <= N)%N -> e N i <= D / N%:R ^+ p.
Proof.
move=> T0 C0 L0 d0 p0 e0 ege0 rec; pose E : Rf := exp (T * L)%R; pose D := C * T ^+ p.+1 * E.
have E0 : 0 < E by apply/RltP; exact: exp_pos.
have D0 : 0 <= D by rewrite !mulr_ge0 ?exprn_ge0 // ltW.
have [N2 HN2] := big_nat_above (D / delta).
exists D, (maxn N1 N2); split=> // N; rewrite geq_max => /andP [l1 l2] N0 i.
have Np : 0 < N%:R :> Rf by rewrite ltr0n.
have h0 : 0 <= T / N%:R by rewrite divr_ge0 // ltW.
have b0 : 0 <= 1 + T / N%:R * L by rewrite addr_ge0 ?ler01 // mulr_ge0.
have b1 : 1 <= 1 + T / N%:R * L by rewrite ler_addl mulr_ge0.
have c0 : 0 <= C * (T / N%:R) ^+ p.+1 by rewrite mulr_ge0 ?exprn_ge0.
have small : D / N%:R ^+ p <= delta.
  rewrite ler_pdivr_mulr ?exprn_gt0 // mulrC -ler_pdivr_mulr //; apply: le_trans (HN2 N l2) _.
  by rewrite -(prednK p0) exprS ler_pemulr ?ler0n // exprn_ege1 // ler1n.
have fin j : (j <= N)%N -> j%:R * (C * (T / N%:R) ^+ p.+1) * (1 + T / N%:R * L) ^+ j <= D / N%:R ^+ p.
  move=> le; apply: (@le_trans _ _ (N%:R * (C * (T / N%:R) ^+ p.+1) * E)).
    apply: ler_pmul; rewrite ?mulr_ge0 ?ler0n ?exprn_ge0 //; first by rewrite ler_wpmul2r // ler_nat.
    by apply: le_trans (pow_le_exp N0 T0 L0); exact: ler_weexpn2l.
  rewrite /D expr_div_n [X in _ / X]exprS invfM !mulrA le_eqVlt; apply/orP; left; apply/eqP.
  rewrite [X in X * E = _](_ : _ = C * T ^+ p.+1 / N%:R ^+ p); first by rewrite mulrAC.
  rewrite [N%:R * C]mulrC -!mulrA; congr (_ * _); rewrite mulrCA; congr (_ * _); rewrite mulrA mulfV ?mul1r //; exact: lt0r_neq0.
move=> le; apply: le_trans (fin i le); elim: i le => [|i IH] le; first by rewrite e0 !mul0r.
have {IH} IH := IH (ltnW le).
apply: le_trans (rec N i l1 N0 le (le_trans IH (le_trans (fin i (ltnW le)) small))) _.
apply: (@le_trans _ _ ((1 + T / N%:R * L) * (i%:R * (C * (T / N%:R) ^+ p.+1) * (1 + T / N%:R * L) ^+ i) + C * (T / N%:R) ^+ p.+1 * (1 + T / N%:R * L) ^+ i.+1)).
  by apply: ler_add; [exact: ler_wpmul2l | rewrite ler_pemulr // exprn_ege1].
have -> : i.+1%:R * (C * (T / N%:R) ^+ p.+1) = i%:R * (C * (T / N%:R) ^+ p.+1) + C * (T / N%:R) ^+ p.+1 by rewrite -[i.+1]addn1 natrD mulrDl mul1r.
by rewrite mulrCA -exprS -mulrDl.
Qed.
End Rec.
