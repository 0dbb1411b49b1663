(** Convergence of one-step methods from a perturbed initial value, perturbation of inverses, and uniform constants. *)
From Coq Require Import Reals Lra.
From mathcomp Require Import all_ssreflect all_algebra zify.
From Verif Require Import RealF MxBase LqtModel LqtCore Rk4Model Rk4Spec Rk4Proofs RealExpSpec RealExp ClqrOptSpec ClqrOpt RkConvA RkConvSpec RkQuadAlg RkConvB RkConvC RkConv.
Import Order.TTheory GRing.Theory Num.Theory.
Set Implicit Arguments. Unset Strict Implicit. Unset Printing Implicit Defensive.
Local Open Scope ring_scope.
Delimit Scope R_scope with Re.

(** one constant for finitely many statements *)
Lemma fin_unif (P : nat -> Rf -> Prop) M : (forall i L L', L <= L' -> P i L -> P i L') ->
  (forall i, (i < M)%N -> exists L, P i L) -> exists2 L, 0 <= L & forall i, (i < M)%N -> P i L.
Proof.
move=> mono; elim: M => [|M IH] H; first by exists 0.
have [|L L0 HL] := IH; first by move=> i lt; apply: H; exact: ltnW.
have [L' HL'] := H M (ltnSn M).
exists (Order.max L L'); first by rewrite le_maxr L0.
move=> i; rewrite ltnS leq_eqVlt => /orP [/eqP ->|lt].
  by apply: mono HL'; rewrite le_maxr lexx orbT.
by apply: mono (HL i lt); rewrite le_maxr lexx.
Qed.

(** the error recursion *)
Lemma converge_from (T C L delta E0 : Rf) (p : nat) : 0 <= T -> 0 <= C -> 0 <= L -> 0 < delta -> 0 <= E0 -> (0 < p)%N ->
  exists2 D, 0 <= D & forall N, (0 < N)%N -> D <= N%:R -> forall e : nat -> Rf, e 0%N <= E0 / N%:R ^+ p -> (forall i, 0 <= e i) ->
  (forall i, (i < N)%N -> e i <= delta -> e i.+1 <= (1 + T / N%:R * L) * e i + C * (T / N%:R) ^+ p.+1) ->
  forall i, (i <= N)%N -> e i <= D / N%:R ^+ p.
Proof.
move=> T0 C0 L0 d0 E00 p0; pose E : Rf := exp (T * L)%R; pose D1 := (E0 + C * T ^+ p.+1) * E; pose D := Order.max D1 (D1 / delta).
have Ep : 0 < E by apply/RltP; exact: exp_pos.
have D10 : 0 <= D1 by rewrite mulr_ge0 ?(ltW Ep) // addr_ge0 // mulr_ge0 ?exprn_ge0.
have DD1 : D1 <= D by rewrite le_maxr lexx.
exists D; first by rewrite le_maxr D10.
move=> N N0 lN e e0 ege0 rec i.
have Np : 0 < N%:R :> Rf by rewrite ltr0n.
have h0 : 0 <= T / N%:R by rewrite divr_ge0 // ltW.
have b0 : 0 <= 1 + T / N%:R * L by rewrite addr_ge0 ?ler01 // mulr_ge0.
have b1 : 1 <= 1 + T / N%:R * L by rewrite ler_addl mulr_ge0.
have c0 : 0 <= C * (T / N%:R) ^+ p.+1 by rewrite mulr_ge0 ?exprn_ge0.
have small : D1 / N%:R ^+ p <= delta.
  rewrite ler_pdivr_mulr ?exprn_gt0 // mulrC -ler_pdivr_mulr //.
  apply: (@le_trans _ _ N%:R); first by apply: le_trans lN; rewrite le_maxr lexx orbT.
  by rewrite -(prednK p0) exprS ler_pemulr ?ler0n // exprn_ege1 // ler1n.
have fin j : (j <= N)%N -> (E0 / N%:R ^+ p + j%:R * (C * (T / N%:R) ^+ p.+1)) * (1 + T / N%:R * L) ^+ j <= D1 / N%:R ^+ p.
  move=> le; apply: (@le_trans _ _ ((E0 / N%:R ^+ p + N%:R * (C * (T / N%:R) ^+ p.+1)) * E)).
    apply: ler_pmul; rewrite ?addr_ge0 ?divr_ge0 ?mulr_ge0 ?ler0n ?exprn_ge0 ?ler0n //; first by rewrite ler_add2l ler_wpmul2r // ler_nat.
    by apply: le_trans (pow_le_exp N0 T0 L0); exact: ler_weexpn2l.
  rewrite /D1 mulrAC le_eqVlt; apply/orP; left; apply/eqP; congr (_ * _); rewrite mulrDl; congr (_ + _).
  rewrite expr_div_n [X in _ / X]exprS invfM mulrCA -!mulrA; congr (_ * _); rewrite mulrCA; congr (_ * _).
  by rewrite mulrA mulfV ?mul1r //; exact: lt0r_neq0.
move=> le; apply: (@le_trans _ _ (D1 / N%:R ^+ p)); last by rewrite ler_wpmul2r // invr_ge0 exprn_ge0 // ltW.
apply: le_trans (fin i le); elim: i le => [|i IH] le; first by rewrite mul0r addr0 expr0 mulr1.
have {IH} IH := IH (ltnW le).
apply: le_trans (rec i le (le_trans IH (le_trans (fin i (ltnW le)) small))) _.
apply: (@le_trans _ _ ((1 + T / N%:R * L) * ((E0 / N%:R ^+ p + i%:R * (C * (T / N%:R) ^+ p.+1)) * (1 + T / N%:R * L) ^+ i) + C * (T / N%:R) ^+ p.+1 * (1 + T / N%:R * L) ^+ i.+1)).
  by apply: ler_add; [exact: ler_wpmul2l | rewrite ler_pemulr // exprn_ege1].
have -> : i.+1%:R * (C * (T / N%:R) ^+ p.+1) = i%:R * (C * (T / N%:R) ^+ p.+1) + C * (T / N%:R) ^+ p.+1 by rewrite -[i.+1]addn1 natrD mulrDl mul1r.
by rewrite mulrCA -exprS -mulrDl addrA.
Qed.

Section Quad.
Variables k l : nat.
Local Notation V := (matrix_lmodType Rf k l).
Variables (c : V) (B : V -> V) (b : V -> V -> V).
Hypothesis HB : linear_map B.
Hypothesis Hb : bilinear_map b.
Local Notation stp := (stp c B b).
Variables (z : R -> V) (T : Rf).
Hypothesis T0 : 0 <= T.
Hypothesis sol : solves (RkQuadAlg.f c B b) z 0 T.
Theorem rk_order4_from (E0 : Rf) : 0 <= E0 ->
  exists2 D, 0 <= D & forall N, (0 < N)%N -> D <= N%:R -> forall xs : nat -> V, nrm (xs 0%N - z 0) <= E0 / N%:R ^+ 4 ->
  (forall i, (i < N)%N -> nrm (xs i.+1 - z (i.+1%:R * (T / N%:R))%R) <= nrm (stp (T / N%:R) (xs i) - z (i.+1%:R * (T / N%:R))%R)) ->
  forall i, (i <= N)%N -> nrm (xs i - z (i%:R * (T / N%:R))%R) <= D / N%:R ^+ 4.
Proof.
move=> E00; have [M M0 HM] := bounded_on T0 sol.1; have [C C0 HC] := local_error HB Hb T0 sol.
have M1 : 0 <= M + 1 by rewrite addr_ge0 ?ler01.
have [L L0 HL] := ll_incr c HB Hb M1.
have [D D0 HD] := @converge_from T C L 1 E0 4 T0 C0 L0 ltr01 E00 isT.
exists (Order.max D T); first by rewrite le_maxr D0.
move=> N N0; rewrite le_maxl => /andP [DN TN] xs x0 step i iN.
apply: (@le_trans _ _ (D / N%:R ^+ 4)); last by rewrite ler_wpmul2r ?le_maxr ?lexx // invr_ge0 exprn_ge0 // ler0n.
apply: (HD N N0 DN (fun i => nrm (xs i - z (i%:R * (T / N%:R))%R))) iN => {i}.
- by rewrite mul0r.
- by move=> i; exact: nrm_ge0.
move=> i iN small.
have Np : 0 < N%:R :> Rf by rewrite ltr0n.
pose h := T / N%:R; have h0 : 0 <= h by rewrite divr_ge0 // ltW.
have h1 : h <= 1 by rewrite ler_pdivr_mulr // mul1r.
have ti : i%:R * h + h = i.+1%:R * h by rewrite -[i.+1]addn1 natrD mulrDl mul1r.
have tT : i.+1%:R * h <= T by rewrite mulrCA ler_pimulr // ler_pdivr_mulr // mul1r ler_nat.
have z0 : 0 <= i%:R * h by rewrite mulr_ge0 ?ler0n.
apply: le_trans (step i iN) _; rewrite -/h.
apply: le_trans (nrm_tri _ (stp h (z (i%:R * h)%R)) _) _; apply: ler_add; last first.
  by rewrite -ti; apply: HC => //; rewrite ?h0 ?ti.
rewrite !stp_incr opprD addrACA -scalerBr; apply: le_trans (nrmD _ _) _; rewrite nrmZ (ger0_norm h0) mulrDl mul1r -mulrA ler_add2l ler_wpmul2l //.
have hz : nrm (z (i%:R * h)%R) <= M by apply: HM; rewrite z0 /=; apply: le_trans tT; rewrite -ti ler_addl.
have hx : nrm (xs i) <= M + 1.
  by rewrite -[xs i](subrK (z (i%:R * h)%R)) addrC; apply: le_trans (nrmD _ _) _; exact: ler_add.
have [] := HL h (xs i) (z (i%:R * h)%R) _ hx _ => //; first by rewrite h0.
by apply: le_trans hz _; rewrite ler_addl ler01.
Qed.
End Quad.

(** perturbation of an inverse *)
Section Pert.
Variables (n : nat) (M M0 : 'M[Rf]_n).
Hypothesis u0 : M0 \in unitmx.
Hypothesis small : nrm (M - M0) * (2%:R * nrm (invmx M0)) <= 1.
Lemma half_le (a x : Rf) : 0 <= x -> a * 2%:R <= 1 -> x <= a * x -> x = 0.
Proof.
move=> x0 ha h; apply: le_anti; rewrite x0 andbT.
have h2 : 2%:R * x <= x.
  apply: (@le_trans _ _ (2%:R * (a * x))); first by rewrite ler_wpmul2l ?ler0n.
  by rewrite mulrA [2%:R * a]mulrC ler_pimull.
by rewrite mulrDl mul1r -subr_ge0 opprD addrA subrr add0r oppr_ge0 in h2.
Qed.
Lemma small' : nrm (invmx M0) * nrm (M - M0) * 2%:R <= 1.
Proof. by apply: le_trans small; rewrite [_ * nrm (M - M0)]mulrC -mulrA [nrm (invmx M0) * _]mulrC. Qed.
Lemma nrm_eq0 k l (A : 'M[Rf]_(k, l)) : nrm A = 0 -> A = 0.
Proof. by move=> h; apply/matrixP => i j; rewrite mxE; apply/eqP; rewrite -normr_le0 -h; exact: nrm_entry. Qed.
Lemma pert_unit : M \in unitmx.
Proof.
apply: unit_ker => x Mx; apply: nrm_eq0; apply: (@half_le (nrm (invmx M0) * nrm (M - M0))); first exact: nrm_ge0.
  exact: small'.
have {1}-> : x = invmx M0 *m ((M0 - M) *m x) by rewrite mulmxBl Mx subr0 mulKmx.
apply: le_trans (nrm_mul _ _) _; rewrite -mulrA ler_wpmul2l ?nrm_ge0 // [nrm (M - M0)]nrmC; exact: nrm_mul.
Qed.
Lemma pert_inv : nrm (invmx M - invmx M0) <= 2%:R * nrm (invmx M0) ^+ 2 * nrm (M - M0).
Proof.
have u := pert_unit.
have E : invmx M - invmx M0 = invmx M *m (M0 - M) *m invmx M0.
  by rewrite mulmxBr mulmxBl mulVmx // mul1mx -mulmxA mulmxV // mulmx1.
have Ei : nrm (invmx M) <= 2%:R * nrm (invmx M0).
  have h : nrm (invmx M) <= nrm (invmx M0) + nrm (invmx M) * (nrm (M - M0) * nrm (invmx M0)).
    rewrite -{1}[invmx M](subrK (invmx M0)) addrC; apply: le_trans (nrmD _ _) _; rewrite ler_add2l E -mulmxA.
    apply: le_trans (nrm_mul _ _) _; rewrite ler_wpmul2l ?nrm_ge0 // [nrm (M - M0)]nrmC; exact: nrm_mul.
  have h2 : nrm (invmx M) * (nrm (M - M0) * nrm (invmx M0)) * 2%:R <= nrm (invmx M).
    by rewrite -mulrA ler_pimulr ?nrm_ge0 // [_ * nrm (invmx M0)]mulrC small'.
  have h3 : nrm (invmx M) * 2%:R <= nrm (invmx M0) * 2%:R + nrm (invmx M).
    by apply: le_trans (_ : _ <= (nrm (invmx M0) + nrm (invmx M) * (nrm (M - M0) * nrm (invmx M0))) * 2%:R) _;
      [rewrite ler_wpmul2r ?ler0n | rewrite mulrDl ler_add2l].
  by move: h3; rewrite [nrm (invmx M) * _]mulrDr mulr1 ler_add2r mulrC.
rewrite E; apply: le_trans (nrm_mul _ _) _; apply: le_trans (_ : _ <= 2%:R * nrm (invmx M0) * nrm (M - M0) * nrm (invmx M0)) _.
  rewrite ler_wpmul2r ?nrm_ge0 //; apply: le_trans (nrm_mul _ _) _; rewrite [nrm (M0 - M)]nrmC ler_wpmul2r ?nrm_ge0 //.
by rewrite expr2 !mulrA le_eqVlt; apply/orP; left; apply/eqP; rewrite mulrAC.
Qed.
End Pert.

(** ** quantities that depend on a parameter in a locally Lipschitz way *)
Section Lip.
Variables (X : Type) (near : Rf -> X -> Prop).
Definition lip k l (f : X -> 'M[Rf]_(k, l)) (y : 'M[Rf]_(k, l)) : Prop :=
  exists2 L : Rf, 0 <= L & forall eps x, 0 <= eps -> eps * L <= 1 -> near eps x -> nrm (f x - y) <= L * eps.
Lemma lip_weak (L L' eps d : Rf) : L <= L' -> 0 <= eps -> d <= L * eps -> d <= L' * eps.
Proof. by move=> le e0 h; apply: le_trans h _; rewrite ler_wpmul2r. Qed.
Lemma lip_dom (L L' eps : Rf) : L <= L' -> 0 <= eps -> eps * L' <= 1 -> eps * L <= 1.
Proof. by move=> le e0 h; apply: le_trans h; rewrite ler_wpmul2l. Qed.
Lemma lip_cst k l (A : 'M[Rf]_(k, l)) : lip (fun _ => A) A.
Proof. by exists 0 => // eps x _ _ _; rewrite subrr nrm0 mul0r. Qed.
Lemma lip_add k l (f g : X -> 'M[Rf]_(k, l)) y w : lip f y -> lip g w -> lip (fun x => f x + g x) (y + w).
Proof.
move=> [L L0 H] [L' L0' H']; exists (L + L') => [|eps x e0 hl hn]; first exact: addr_ge0.
rewrite opprD addrACA; apply: le_trans (nrmD _ _) _; rewrite mulrDl; apply: ler_add.
  by apply: H => //; apply: lip_dom hl => //; rewrite ler_addl.
by apply: H' => //; apply: lip_dom hl => //; rewrite ler_addr.
Qed.
Lemma lip_tr k l (f : X -> 'M[Rf]_(k, l)) y : lip f y -> lip (fun x => (f x)^T) y^T.
Proof. by move=> [L L0 H]; exists L => // eps x e0 hl hn; rewrite -linearB /= nrm_tr; exact: H. Qed.
Lemma lip_mul k l p (f : X -> 'M[Rf]_(k, l)) (g : X -> 'M[Rf]_(l, p)) y w : lip f y -> lip g w -> lip (fun x => f x *m g x) (y *m w).
Proof.
move=> [L L0 H] [L' L0' H'].
have a0 : 0 <= L * (nrm w + 1) by rewrite mulr_ge0 // addr_ge0 ?nrm_ge0 ?ler01.
have b0 : 0 <= nrm y * L' by rewrite mulr_ge0 ?nrm_ge0.
exists (L * (nrm w + 1) + nrm y * L' + L') => [|eps x e0 hl hn]; first by rewrite !addr_ge0.
have hl' : eps * L' <= 1 by apply: lip_dom hl => //; rewrite ler_addr addr_ge0.
have hL : eps * L <= 1.
  apply: lip_dom hl => //; rewrite -addrA; apply: ler_paddr; first by rewrite addr_ge0.
  by rewrite ler_pemulr // ler_addr nrm_ge0.
have h := H eps x e0 hL hn; have h' := H' eps x e0 hl' hn.
have -> : f x *m g x - y *m w = (f x - y) *m g x + y *m (g x - w) by rewrite mulmxBl mulmxBr addrA subrK.
apply: le_trans (nrmD _ _) _; apply: (@le_trans _ _ ((L * (nrm w + 1) + nrm y * L') * eps)); last by rewrite ler_wpmul2r // ler_addl.
rewrite mulrDl; apply: ler_add; apply: le_trans (nrm_mul _ _) _; last by rewrite -mulrA ler_wpmul2l ?nrm_ge0.
rewrite mulrAC; apply: ler_pmul; rewrite ?nrm_ge0 //.
rewrite -[g x](subrK w) addrC; apply: le_trans (nrmD _ _) _; rewrite ler_add2l; apply: le_trans h' _; by rewrite mulrC.
Qed.
Lemma lip_inv n (f : X -> 'M[Rf]_n) y : lip f y -> y \in unitmx ->
  lip (fun x => invmx (f x)) (invmx y) /\ exists2 L, 0 <= L & forall eps x, 0 <= eps -> eps * L <= 1 -> near eps x -> f x \in unitmx.
Proof.
move=> [L L0 H] u.
have a0 : 0 <= L * (2%:R * nrm (invmx y)) by rewrite !mulr_ge0 ?nrm_ge0 ?ler0n.
have b0 : 0 <= 2%:R * nrm (invmx y) ^+ 2 * L by rewrite !mulr_ge0 ?exprn_ge0 ?nrm_ge0 ?ler0n.
pose L' := L + L * (2%:R * nrm (invmx y)) + 2%:R * nrm (invmx y) ^+ 2 * L.
have L0' : 0 <= L' by rewrite !addr_ge0.
have key eps x : 0 <= eps -> eps * L' <= 1 -> near eps x -> nrm (f x - y) <= L * eps /\ nrm (f x - y) * (2%:R * nrm (invmx y)) <= 1.
  move=> e0 hl hn; have h : nrm (f x - y) <= L * eps by apply: H => //; apply: lip_dom hl => //; rewrite /L' -addrA ler_addl addr_ge0.
  split=> //; apply: (@le_trans _ _ (L * eps * (2%:R * nrm (invmx y)))); first by rewrite ler_wpmul2r // mulr_ge0 ?nrm_ge0 ?ler0n.
  by rewrite mulrAC mulrC; apply: lip_dom hl => //; rewrite /L' addrAC ler_addr addr_ge0.
split; last by exists L' => // eps x e0 hl hn; have [_ s] := key eps x e0 hl hn; exact: (pert_unit u s).
exists L' => // eps x e0 hl hn; have [h s] := key eps x e0 hl hn; apply: le_trans (pert_inv u s) _.
apply: (@le_trans _ _ (2%:R * nrm (invmx y) ^+ 2 * (L * eps))); first by rewrite ler_wpmul2l // mulr_ge0 ?exprn_ge0 ?nrm_ge0 ?ler0n.
by rewrite mulrA ler_wpmul2r // /L' ler_addr addr_ge0.
Qed.
End Lip.
