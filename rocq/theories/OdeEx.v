(** Existence and uniqueness of solutions of differential equations whose right-hand side is Lipschitz in the state and in
    time, over the real numbers, by Euler's polygons. *)
From Coq Require Import Reals Lra Ring Field.
From mathcomp Require Import all_ssreflect all_algebra zify.
From Verif Require RkConvP.
From Verif Require Import RealF MxBase LqtModel LqtCore RealExpSpec RealExp ClqrSpec ClqrOpt RealDisc RkConvA RkConv RkConvC TvarSpec TvarInv TvarLip TvarRk.
Import Order.TTheory GRing.Theory Num.Theory.
Set Implicit Arguments. Unset Strict Implicit. Unset Printing Implicit Defensive.
Local Open Scope ring_scope.
Delimit Scope R_scope with Re.

Section Alg.
Variable R : realFieldType.
Add Ring Rr : (mc_ring R).
Add Field Rff : (mc_field R).
Ltac sfield := rsn R; field.
Lemma sol_alg (a c T Dt Ds L q : R) : (a * c * T + (Dt + Ds + a * (L * Ds))) * q + c * a ^+ 2 =
  a * (c * (a + T * q)) + (Ds * q + Dt * q + a * (L * (Ds * q))).
Proof. by rewrite expr2; sfield. Qed.
End Alg.

(** ** limits *)
Lemma small_le (x A B : Rf) : 0 <= A -> (forall N, x <= A / N.+1%:R + B) -> x <= B.
Proof.
move=> A0 H; rewrite leNgt; apply/negP => lt; have d0 : 0 < x - B by rewrite subr_gt0.
have [k hk] := R_archi (A / (x - B)); have := H k; rewrite -ler_subl_addr leNgt => /negP; apply.
have q0 : 0 <= A / (x - B) by rewrite divr_ge0 // ltW.
move: hk; rewrite (ger0_norm q0) => hk.
rewrite ltr_pdivr_mulr ?ltr0n // mulrC -ltr_pdivr_mulr //; apply: lt_le_trans hk _; by rewrite ler_nat.
Qed.
Lemma lim_ex (a : nat -> Rf) (C : Rf) : 0 <= C -> (forall N M, `|a N - a M| <= C / N.+1%:R + C / M.+1%:R) ->
  {l : Rf | forall N, `|a N - l| <= C / N.+1%:R}.
Proof.
move=> C0 H.
have cau : Cauchy_crit a.
  move=> eps /RltP he; have [k hk] := R_archi ((C + C) / eps).
  exists k => N M hN hM; rewrite /Rfunctions.R_dist; apply/RltP; rewrite RminusE RabsE.
  apply: le_lt_trans (H _ _) _.
  have q0 : 0 <= (C + C) / (eps : Rf) by rewrite divr_ge0 ?addr_ge0 // ltW.
  have le (j : nat) : (k <= j)%coq_nat -> C / j.+1%:R <= C / k.+1%:R :> Rf.
    by move=> hj; rewrite ler_wpmul2l // lef_pinv ?posrE ?ltr0n // ler_nat; lia.
  apply: le_lt_trans (ler_add (le _ hN) (le _ hM)) _.
  rewrite -mulrDl ltr_pdivr_mulr ?ltr0n // mulrC -ltr_pdivr_mulr //; move: hk; rewrite (ger0_norm q0) => hk.
  by apply: lt_le_trans hk _; rewrite ler_nat.
have [l hl] := R_complete _ cau; exists l => N.
apply: (@small_le _ C) => // M; rewrite [X in _ <= X]addrC.
apply/negPn/negP; rewrite -ltNge -subr_gt0; set d := (X in 0 < X) => d0.
have [N0 h0] := hl d (elimT (RltP _ _) d0).
have := h0 (maxn N0 M); rewrite /Rfunctions.R_dist => h; have {h} : `|a (maxn N0 M) - l| < d by apply/RltP/h; have := leq_maxl N0 M; lia.
apply/negP; rewrite -leNgt /d ler_subl_addr.
have -> : a N - l = (a N - a (maxn N0 M)) + (a (maxn N0 M) - l) by rewrite addrA subrK.
apply: le_trans (ler_norm_add _ _) _; rewrite addrC ler_add2l; apply: le_trans (H _ _) _.
by rewrite ler_add2l ler_wpmul2l // lef_pinv ?posrE ?ltr0n // ler_nat ltnS leq_maxr.
Qed.

(** ** the discrete Gronwall inequality, with steps that become small *)
Lemma gron (e : Rf -> Rf) (a L K eta : Rf) : 0 <= a -> 0 <= L -> 0 <= K -> 0 <= eta -> e 0 = 0 ->
  (forall s d : Rf, 0 <= s -> 0 <= d -> s + d <= a -> e (s + d)%R <= (1 + d * L) * e s + d * K * (d + eta)) ->
  e a <= a * K * exp (a * L)%R * eta.
Proof.
move=> a0 L0 K0 h0 e0 H; set E : Rf := exp _.
have E0 : 0 <= E by apply: ltW; apply/RltP; exact: exp_pos.
apply: (@small_le _ (a * K * E * a)); first by rewrite !mulr_ge0.
move=> N; pose d := a / N.+1%:R; have d0 : 0 <= d by rewrite divr_ge0 ?ler0n.
have dN : N.+1%:R * d = a by rewrite mulrC divfK ?pnatr_eq0.
have q1 : 1 <= 1 + d * L by rewrite ler_addl mulr_ge0.
have q0 := le_trans ler01 q1.
have key i : (i <= N.+1)%N -> e (i%:R * d) <= i%:R * (d * K * (d + eta)) * (1 + d * L) ^+ i.
  elim: i => [|i IH] hi; first by rewrite !mul0r e0.
  have -> : i.+1%:R * d = i%:R * d + d by rewrite -addn1 natrD mulrDl mul1r.
  have hs : 0 <= i%:R * d by rewrite mulr_ge0 ?ler0n.
  have hd : i%:R * d + d <= a by rewrite -dN -[X in _ + X]mul1r -mulrDl ler_wpmul2r // -mulrSr ler_nat.
  apply: le_trans (H _ _ hs d0 hd) _.
  apply: (@le_trans _ _ ((1 + d * L) * (i%:R * (d * K * (d + eta)) * (1 + d * L) ^+ i) + d * K * (d + eta) * (1 + d * L) ^+ i.+1)).
    apply: ler_add; first by apply: ler_wpmul2l => //; apply: IH; exact: ltnW.
    have dk : 0 <= d * K * (d + eta) := mulr_ge0 (mulr_ge0 d0 K0) (addr_ge0 d0 h0).
    by apply: ler_pemulr dk _; exact: exprn_ege1.
  by rewrite mulrCA -exprS -mulrDl -[X in _ + X]mul1r -mulrDl -mulrSr.
have := key N.+1 (leqnn _); rewrite dN mulrA mulrA dN => h; apply: le_trans h _.
apply: (@le_trans _ _ (a * K * (d + eta) * E)).
  by apply: ler_wpmul2l; [rewrite !mulr_ge0 ?addr_ge0 | exact: pow_le_exp].
by rewrite /d [_ * E]mulrAC mulrDr mulrA.
Qed.

(** ** the part of the interval from a to b that is before t *)
Definition seen (a b t : Rf) : Rf := Order.min t b - Order.min t a.
Lemma minE (x y : Rf) : Order.min x y = Rmin x y.
Proof. by rewrite /Rmin; case: Rle_dec => h; [apply/min_idPl/RleP | apply/min_idPr/RleP; lra]. Qed.
Ltac rmin := rewrite /Rmin; repeat (case: Rle_dec => ?); lra.
Section Seen.
Variables a b : Rf.
Hypothesis ab : a <= b.
Lemma seenE t : seen a b t = (Rmin t b - Rmin t a)%Re. Proof. by rewrite /seen !minE. Qed.
Lemma seen_mono s t : s <= t -> seen a b s <= seen a b t.
Proof. by move/RleP => st; apply/RleP; rewrite !seenE; move/RleP: ab => ab'; rmin. Qed.
Lemma seen_near s t : seen a b t <> seen a b s -> `|a - s| <= `|t - s| + (b - a).
Proof.
rewrite !seenE => ne; apply/RleP; change (Rabs (a - s) <= Rabs (t - s) + (b - a))%Re; move/RleP: ab ne => ab'.
rewrite /Rabs; case: Rcase_abs => ?; case: Rcase_abs => ?; rmin.
Qed.
Lemma seen_before t : t <= a -> seen a b t = 0.
Proof. by move/RleP => h; rewrite seenE; move/RleP: ab => ab'; change 0 with R0; rmin. Qed.
Lemma seen_after t : b <= t -> seen a b t = b - a.
Proof. by move/RleP => h; rewrite seenE; move/RleP: ab => ab'; change (b - a) with (b - a)%Re; rmin. Qed.
End Seen.

Section Poly.
Variables k l : nat.
Notation V := 'M[Rf]_(k, l).
Variable f : V -> Rf -> V.
Variables T L : Rf.
Hypothesis T0 : 0 <= T.
Hypothesis L0 : 0 <= L.
Hypothesis fL : forall x y s t, 0 <= s <= T -> 0 <= t <= T -> nrm (f x s - f y t) <= L * (nrm (x - y) + `|s - t| * (1 + nrm x)).
Variable z0 : V.

(** the points of Euler's method, and the polygon through them *)
Fixpoint eul (h : Rf) (i : nat) : V := if i is j.+1 then eul h j + h *: f (eul h j) (j%:R * h) else z0.
Definition st (N : nat) : Rf := T / N.+1%:R.
Definition poly (N : nat) (t : Rf) : V :=
  z0 + \sum_(i < N.+1) seen (i%:R * st N) (i.+1%:R * st N) t *: f (eul (st N) i) (i%:R * st N).
Lemma st0 N : 0 <= st N. Proof. by rewrite divr_ge0 ?ler0n. Qed.
Lemma stN N : N.+1%:R * st N = T. Proof. by rewrite mulrC divfK ?pnatr_eq0. Qed.
Lemma st_le N i j : (i <= j)%N -> i%:R * st N <= j%:R * st N.
Proof. by move=> ij; rewrite ler_wpmul2r ?st0 // ler_nat. Qed.
Lemma st_in N i : (i <= N.+1)%N -> 0 <= i%:R * st N <= T.
Proof. by move=> h; rewrite mulr_ge0 ?ler0n ?st0 //= -[X in _ <= X](stN N) st_le. Qed.
Lemma st_w N i : i.+1%:R * st N - i%:R * st N = st N.
Proof. by rewrite -mulrBl mulrSr addrC addKr mul1r. Qed.
Lemma seen_sum N t : 0 <= t <= T -> \sum_(i < N.+1) seen (i%:R * st N) (i.+1%:R * st N) t = t.
Proof.
move=> /andP [h1 h2]; rewrite /seen -(big_mkord xpredT (fun i => Order.min t (i.+1%:R * st N) - Order.min t (i%:R * st N))).
by rewrite (telescope_sumr (fun i => Order.min t (i%:R * st N))) // stN mul0r (min_idPl h2) (min_idPr h1) subr0.
Qed.
Lemma polyE N j : (j <= N.+1)%N -> poly N (j%:R * st N) = eul (st N) j.
Proof.
move=> hj; have E i : (i <= j)%N -> z0 + \sum_(0 <= q < i) st N *: f (eul (st N) q) (q%:R * st N) = eul (st N) i.
  by elim: i => [|i IH] hi; [rewrite big_geq ?addr0 | rewrite big_nat_recr //= addrA IH // ltnW].
rewrite -E // /poly -(big_mkord xpredT (fun i => seen (i%:R * st N) (i.+1%:R * st N) (j%:R * st N) *: f (eul (st N) i) (i%:R * st N))).
rewrite (big_cat_nat _ _ _ (leq0n j) hj) /= [X in _ + (_ + X)]big_nat_cond [X in _ + (_ + X)]big1 => [|i /andP [/andP [h _] _]].
  rewrite addr0; congr (_ + _); apply: eq_big_nat => i /andP [_ h]; rewrite seen_after ?st_le // ?st_w //.
by rewrite seen_before ?scale0r ?st_le.
Qed.
Lemma poly0 N : poly N 0 = z0. Proof. by have := polyE (leq0n N.+1); rewrite mul0r. Qed.

(** the points are bounded *)
Definition gr : Rf := L + L * T + nrm (f 0 0).
Lemma gr0 : 0 <= gr. Proof. by rewrite /gr !addr_ge0 ?mulr_ge0 ?nrm_ge0. Qed.
Lemma T00 : 0 <= (0 : Rf) <= T. Proof. by rewrite lexx. Qed.
Lemma f_grow x s : 0 <= s <= T -> nrm (f x s) <= gr * (1 + nrm x).
Proof.
move=> hs; have /andP [s0 s1] := hs; have := fL x 0 hs T00; rewrite !subr0 (ger0_norm s0) => h.
have n0 := nrm_ge0 x; have n1 : 0 <= 1 + nrm x by rewrite addr_ge0 ?ler01.
have -> : f x s = f x s - f 0 0 + f 0 0 by rewrite subrK.
apply: le_trans (nrmD _ _) _; rewrite /gr mulrDl; apply: ler_add; last by rewrite ler_pemulr ?nrm_ge0 // ler_addl.
apply: le_trans h _; rewrite [X in X <= _]mulrDr [X in _ <= X]mulrDl; apply: ler_add; first by rewrite ler_wpmul2l // ler_addr ler01.
by rewrite -mulrA ler_wpmul2l // ler_wpmul2r.
Qed.
Definition bd : Rf := (1 + nrm z0) * exp (T * gr)%R.
Lemma eul_bd N i : (i <= N.+1)%N -> 1 + nrm (eul (st N) i) <= bd.
Proof.
have q1 : 1 <= 1 + st N * gr by rewrite ler_addl mulr_ge0 ?st0 ?gr0.
move=> hi; have : 1 + nrm (eul (st N) i) <= (1 + nrm z0) * (1 + st N * gr) ^+ i.
  elim: i hi => [|i IH] hi; first by rewrite mulr1.
  rewrite /= exprSr mulrA; apply: le_trans (ler_wpmul2r (le_trans ler01 q1) (IH (ltnW hi))).
  rewrite mulrDr mulr1 -addrA ler_add2l; apply: le_trans (nrmD _ _) _; rewrite ler_add2l nrmZ (ger0_norm (st0 N)).
  by rewrite [X in _ <= X]mulrCA ler_wpmul2l ?st0 // [X in _ <= X]mulrC f_grow // st_in // ltnW.
move=> h; apply: le_trans h _; apply: ler_wpmul2l; first by rewrite addr_ge0 ?ler01 ?nrm_ge0.
by apply: le_trans (pow_le_exp (ltn0Sn N) T0 gr0); apply: ler_weexpn2l.
Qed.
Definition sp : Rf := gr * bd.
Lemma bd0 : 0 <= bd. Proof. by apply: le_trans (@eul_bd 0 0 isT); rewrite addr_ge0 ?ler01 ?nrm_ge0. Qed.
Lemma sp0 : 0 <= sp. Proof. by rewrite mulr_ge0 ?gr0 ?bd0. Qed.

(** the polygon moves with bounded speed and almost follows the equation *)
Definition dw N (i : nat) (s t : Rf) : Rf := seen (i%:R * st N) (i.+1%:R * st N) t - seen (i%:R * st N) (i.+1%:R * st N) s.
Lemma dw_sum N s t : 0 <= s <= T -> 0 <= t <= T -> \sum_(i < N.+1) dw N i s t = t - s.
Proof. by move=> hs ht; rewrite /dw sumrB !seen_sum. Qed.
Lemma dw_abs N s t : 0 <= s <= T -> 0 <= t <= T -> \sum_(i < N.+1) `|dw N i s t| = `|t - s|.
Proof.
move=> hs ht; have le (i : 'I_N.+1) : i%:R * st N <= i.+1%:R * st N by apply: st_le.
case: (leP s t) => h.
  rewrite ger0_norm ?subr_ge0 // -(dw_sum N hs ht); apply: eq_bigr => i _; rewrite ger0_norm // subr_ge0; exact: seen_mono.
rewrite ler0_norm ?subr_le0 ?ltW // -(dw_sum N hs ht) -sumrN; apply: eq_bigr => i _; rewrite ler0_norm // subr_le0; apply: seen_mono => //; exact: ltW.
Qed.
Lemma poly_sub N s t : poly N t - poly N s = \sum_(i < N.+1) dw N i s t *: f (eul (st N) i) (i%:R * st N).
Proof.
by rewrite /poly opprD addrACA subrr add0r -sumrB; apply: eq_bigr => i _; rewrite -scalerBl.
Qed.
Lemma f_pt N (i : 'I_N.+1) : nrm (f (eul (st N) i) (i%:R * st N)) <= sp.
Proof.
have hi : (i <= N.+1)%N by apply: ltnW.
by apply: le_trans (f_grow _ (st_in hi)) _; rewrite ler_wpmul2l ?gr0 // eul_bd.
Qed.
Lemma poly_lip N s t : 0 <= s <= T -> 0 <= t <= T -> nrm (poly N t - poly N s) <= `|t - s| * sp.
Proof.
move=> hs ht; rewrite poly_sub -(dw_abs N hs ht) mulr_suml; apply: le_trans (nrm_sum _ _ _) _.
by apply: ler_sum => i _; rewrite nrmZ ler_wpmul2l // f_pt.
Qed.
Definition cv : Rf := L * (sp + bd).
Lemma cv0 : 0 <= cv. Proof. by rewrite mulr_ge0 ?addr_ge0 ?sp0 ?bd0. Qed.
Lemma poly_ode N s t : 0 <= s <= T -> 0 <= t <= T ->
  nrm (poly N t - poly N s - (t - s) *: f (poly N s) s) <= `|t - s| * (cv * (`|t - s| + st N)).
Proof.
move=> hs ht; rewrite poly_sub -{1}(dw_abs N hs ht) -{1}(dw_sum N hs ht) scaler_suml -sumrB [X in _ <= X]mulr_suml.
apply: le_trans (nrm_sum _ _ _) _; apply: ler_sum => i _; rewrite -scalerBr nrmZ.
case: (boolP (dw N i s t == 0)) => [/eqP ->|ne]; first by rewrite normr0 !mul0r.
apply: ler_wpmul2l => //; have hi : (i <= N.+1)%N by apply: ltnW.
apply: le_trans (fL _ _ (st_in hi) hs) _; rewrite /cv -[X in _ <= X]mulrA; apply: ler_wpmul2l => //.
have near : `|i%:R * st N - s| <= `|t - s| + st N.
  have := @seen_near (i%:R * st N) (i.+1%:R * st N) (st_le N (leqnSn i)) s t; rewrite st_w; apply.
  by move=> e; move: ne; rewrite /dw e subrr eqxx.
apply: (@le_trans _ _ (`|i%:R * st N - s| * (sp + bd))); last by rewrite [X in _ <= X]mulrC ler_wpmul2r ?addr_ge0 ?sp0 ?bd0.
rewrite [X in _ <= X]mulrDr; apply: ler_add; last by rewrite ler_wpmul2l // eul_bd.
by rewrite -(polyE hi); apply: poly_lip => //; exact: st_in.
Qed.

(** two polygons are close *)
Definition cc (t : Rf) : Rf := t * (cv + cv) * exp (t * L)%R * T.
Lemma cc0 t : 0 <= t <= T -> 0 <= cc t.
Proof. by move=> /andP [h _]; rewrite !mulr_ge0 ?addr_ge0 ?cv0 //; apply: ltW; apply/RltP; exact: exp_pos. Qed.
Lemma fLs x y s : 0 <= s <= T -> nrm (f x s - f y s) <= L * nrm (x - y).
Proof. by move=> hs; have := fL x y hs hs; rewrite subrr normr0 mul0r addr0. Qed.
Lemma step_le (X Y : R -> V) (K1 K2 : Rf) (s d : Rf) : 0 <= s <= T -> 0 <= d ->
  nrm (X (s + d)%R - X s - d *: f (X s) s) <= K1 -> nrm (Y (s + d)%R - Y s - d *: f (Y s) s) <= K2 ->
  nrm (X (s + d)%R - Y (s + d)%R) <= (1 + d * L) * nrm (X s - Y s) + (K1 + K2).
Proof.
move=> hs d0 h1 h2.
have -> : X (s + d)%R - Y (s + d)%R = (X s - Y s) + d *: (f (X s) s - f (Y s) s) +
   ((X (s + d)%R - X s - d *: f (X s) s) - (Y (s + d)%R - Y s - d *: f (Y s) s)).
  by rewrite scalerBr; abelr.
apply: le_trans (nrmD _ _) _; apply: ler_add; last by apply: le_trans (nrmB _ _) _; exact: ler_add.
apply: le_trans (nrmD _ _) _; rewrite mulrDl mul1r ler_add2l nrmZ ger0_norm // -mulrA ler_wpmul2l //; exact: fLs.
Qed.
Lemma poly_cauchy N M t : 0 <= t <= T -> nrm (poly N t - poly M t) <= cc t / N.+1%:R + cc t / M.+1%:R.
Proof.
move=> /andP [t0 t1]; have := @gron (fun s => nrm (poly N s - poly M s)) t L (cv + cv) (st N + st M) t0 L0.
have -> : cc t / N.+1%:R + cc t / M.+1%:R = t * (cv + cv) * exp (t * L)%R * (st N + st M) :> Rf.
  by rewrite /cc /st; move: (_ * (exp _ : Rf)) => A; rewrite mulrDr !mulrA.
apply; rewrite ?addr_ge0 ?cv0 ?st0 //; first by rewrite !poly0 subrr nrm0.
move=> s d s0 d0 sd.
have hs : 0 <= s <= T by rewrite s0; apply: le_trans t1; apply: le_trans sd; rewrite ler_addl.
have hd : 0 <= s + d <= T by rewrite addr_ge0 //=; exact: le_trans t1.
have E : s + d - s = d by rewrite addrC addKr.
have h1 := poly_ode N hs hd; have h2 := poly_ode M hs hd; rewrite E (ger0_norm d0) in h1 h2.
apply: le_trans (step_le hs d0 h1 h2) _; rewrite ler_add2l -mulrDr -[X in _ <= X]mulrA ler_wpmul2l // [X in _ <= X]mulrDl.
by apply: ler_add; rewrite ler_wpmul2l ?cv0 // ler_add2l ?ler_addl ?ler_addr st0.
Qed.

(** the limit *)
Notation cl := (clamp T).
Lemma ent_cauchy i j t N M : `|poly N (cl t) i j - poly M (cl t) i j| <= cc (cl t) / N.+1%:R + cc (cl t) / M.+1%:R.
Proof. by have := nrm_entry (poly N (cl t) - poly M (cl t)) i j; rewrite !mxE => h; apply: le_trans h (poly_cauchy _ _ (clamp_in T0 t)). Qed.
Definition sol (t : R) : V := \matrix_(i, j) sval (lim_ex (cc0 (clamp_in T0 t)) (ent_cauchy i j t)).
Lemma sol_ent t N i j : `|poly N (cl t) i j - sol t i j| <= cc (cl t) / N.+1%:R.
Proof. by rewrite /sol [X in _ - X]mxE; have := svalP (lim_ex (cc0 (clamp_in T0 t)) (ent_cauchy i j t)); exact. Qed.
Lemma mxB (A B : V) i j : (A - B) i j = A i j - B i j. Proof. by rewrite !mxE. Qed.
Lemma sol_poly t N : 0 <= t <= T -> nrm (poly N t - sol t) <= (k * l)%:R * cc t / N.+1%:R.
Proof.
move=> ht; rewrite -mulrA; apply: nrm_le => i j; rewrite mxB.
by have := sol_ent t N i j; rewrite clamp_id.
Qed.
Lemma sol_clamp t : sol (cl t) = sol t.
Proof.
apply/eqP; rewrite -subr_eq0; apply/eqP.
have h0 : 0 <= cl t <= T := clamp_in T0 t.
have E : cl (cl t) = cl t by rewrite clamp_id.
have H N : nrm (poly N (cl t) - sol t) <= (k * l)%:R * cc (cl t) / N.+1%:R.
  rewrite -mulrA; apply: nrm_le => i j; rewrite mxB; exact: sol_ent.
apply: RkConvP.nrm_eq0; apply/eqP; rewrite eq_le nrm_ge0 andbT.
apply: (@small_le _ ((k * l)%:R * cc (cl t) + (k * l)%:R * cc (cl t))) => [|N]; first by rewrite addr_ge0 // mulr_ge0 ?ler0n ?cc0.
by rewrite addr0 [X in _ <= X]mulrDl; apply: le_trans (nrm_tri _ (poly N (cl t)) _) _; rewrite nrmC; apply: ler_add; [exact: sol_poly | exact: H].
Qed.
Lemma sol0 : sol 0 = z0.
Proof.
apply/eqP; rewrite -subr_eq0; apply/eqP; apply: RkConvP.nrm_eq0; apply/eqP; rewrite eq_le nrm_ge0 andbT.
have := sol_poly 0 T00; rewrite poly0 nrmC /cc !mul0r mulr0 mul0r; exact.
Qed.
Lemma sol_ode s t : 0 <= s <= T -> 0 <= t <= T -> nrm (sol t - sol s - (t - s) *: f (sol s) s) <= cv * `|t - s| ^+ 2.
Proof.
move=> hs ht; pose Ds := (k * l)%:R * cc s; pose Dt := (k * l)%:R * cc t.
have Ds0 : 0 <= Ds by rewrite mulr_ge0 ?ler0n ?cc0.
have Dt0 : 0 <= Dt by rewrite mulr_ge0 ?ler0n ?cc0.
have a0 := normr_ge0 (t - s); have c0 := cv0.
apply: (@small_le _ (`|t - s| * cv * T + (Dt + Ds + `|t - s| * (L * Ds)))) => [|N].
  by repeat (done || apply: addr_ge0 || apply: mulr_ge0).
have h1 := poly_ode N hs ht; have h2 := sol_poly N hs; have h3 := sol_poly N ht.
have -> : sol t - sol s - (t - s) *: f (sol s) s = (poly N t - poly N s - (t - s) *: f (poly N s) s) +
   ((poly N s - sol s) - (poly N t - sol t) + (t - s) *: (f (poly N s) s - f (sol s) s)).
  by rewrite scalerBr; abelr.
have -> : (`|t - s| * cv * T + (Dt + Ds + `|t - s| * (L * Ds))) / N.+1%:R + cv * `|t - s| ^+ 2 =
   `|t - s| * (cv * (`|t - s| + st N)) + (Ds / N.+1%:R + Dt / N.+1%:R + `|t - s| * (L * (Ds / N.+1%:R))).
  exact: sol_alg.
apply: le_trans (nrmD _ _) _; apply: ler_add => //.
apply: le_trans (nrmD _ _) _; apply: ler_add; first by apply: le_trans (nrmB _ _) _; exact: ler_add.
rewrite nrmZ ler_wpmul2l //; apply: le_trans (fLs _ _ hs) _; by rewrite ler_wpmul2l.
Qed.
End Poly.
