(** Second-order expansions of the forward steps of the regulator, uniform in the gain. *)
From Coq Require Import Reals Lra.
From Coquelicot Require Import Coquelicot.
From mathcomp Require Import all_ssreflect all_algebra zify.
From Verif Require Import RealF MxBase LqtModel LinModModel LinModSpec Rk4Model Rk4Spec ClqtModel ClqrModel ClqrSpec RealExpSpec RealExp RealAssm ClqrOptSpec ClqrOpt RealDisc RkConvA FwdAlg ClqtFwd2.
Import Order.TTheory GRing.Theory Num.Theory.
Set Implicit Arguments. Unset Strict Implicit. Unset Printing Implicit Defensive.
Local Open Scope ring_scope.
Delimit Scope R_scope with Re.

(** ** the exponential *)
Lemma expm_entry n (A : 'M[Rf]_n) i j : `|expmR A i j| <= exp (nrm A).
Proof.
rewrite mxE -RabsE; apply/RleP.
pose a (k : nat) : Rf := mxpow A k i j / k`!%:R.
pose b (k : nat) : R := (nrm A ^+ k / k`!%:R : Rf).
have bE k : scal (pow_n (nrm A : R) k) (/ INR (fact k))%Re = b k.
  have -> : pow_n (nrm A : R) k = pow (nrm A) k by elim: k => [|k IH] //=; rewrite /= -IH.
  rewrite /scal /= /mult /= factE RinvE ?fact_neq0 // powE RmultE //.
have H := is_exp_Reals (nrm A); have {}H : is_series b (exp (nrm A)) by apply: is_series_ext H => k; exact: bE.
have le k : (0 <= Rabs (a k) <= b k)%Re.
  split; first exact: Rabs_pos.
  apply/RleP; rewrite RabsE /a normrM ler_pmul ?normr_ge0 //; first exact: mpow_bound.
  by rewrite normfV normr_nat.
have ex : ex_series (fun k => Rabs (a k)).
  apply: (ex_series_le (fun k => Rabs (a k)) b); last by exists (exp (nrm A)).
  by move=> k; rewrite /norm /= /abs /= Rabs_Rabsolu; have [] := le k.
apply: Rle_trans (Series_Rabs _ ex) _; rewrite -(is_series_unique _ _ H); apply: Series_le => //.
by exists (exp (nrm A)).
Qed.
Lemma exp_le (a b : Rf) : a <= b -> exp a <= exp b :> Rf.
Proof. by rewrite le_eqVlt => /orP [/eqP -> //|/RltP h]; apply: ltW; apply/RltP; exact: exp_increasing. Qed.
Lemma nrm1 n : nrm (1%:M : 'M[Rf]_n) <= (n * n)%:R.
Proof.
rewrite -[_%:R]mulr1; apply: nrm_le => i j; rewrite mxE; case: eqP => _; rewrite ?normr1 ?normr0 ?ler01 //.
Qed.
Lemma expm_2 n (M : 'M[Rf]_n) (h kappa : Rf) : 0 <= h <= 1 -> nrm M <= kappa ->
  nrm (expmR (h *: M) - (1%:M + h *: M)) <= (n * n)%:R * (kappa ^+ 2 * ((n * n)%:R * exp kappa)) * h ^+ 2.
Proof.
move=> /andP [h0 h1] Mk; have k0 : 0 <= kappa by apply: le_trans Mk; exact: nrm_ge0.
pose G m (t : Rf) := mxpow M m *m expmR (t *: M).
have Gd m (t : Rf) : mderiv (G m) t (G m.+1 t).
  have := mderiv_mull (mxpow M m) (expm_deriv M t); congr (mderiv _ _ _).
  by rewrite /G mulmxA; congr (_ *m _); rewrite [LHS]mpow_comm.
rewrite -mulrA; apply: nrm_le => i j.
have -> : expmR (h *: M) - (1%:M + h *: M) = G 0%N h - tay G 0 2 h.
  rewrite /tay !big_ord_recl big_ord0 addr0 /G /= !scale0r expm0 !mulmx1 mul1mx expr0 divr1 scale1r.
  by rewrite /bump /= expr1 divr1.
apply: (@taylor n n G h (kappa ^+ 2 * ((n * n)%:R * exp kappa)) 2) => //.
- by rewrite !mulr_ge0 ?exprn_ge0 ?ler0n //; apply: ltW; apply/RltP; exact: exp_pos.
- by move=> m t _ _; exact: mderiv_cont (Gd m t).
- by move=> t i' j' /andP [t0 th]; apply: le_trans (nrm_entry _ _ _) _; rewrite /G /= mulmx1;
  apply: le_trans (nrm_mul _ _) _; apply: ler_pmul; rewrite ?nrm_ge0 //;
  [apply: le_trans (nrm_mul _ _) _; rewrite expr2; apply: ler_pmul; rewrite ?nrm_ge0 |
   apply: nrm_le => p r; apply: le_trans (expm_entry _ _ _) _; apply: exp_le; rewrite nrmZ ger0_norm //;
   apply: le_trans Mk; rewrite ler_pimull ?nrm_ge0 // (le_trans th)].
by rewrite h0 lexx.
Qed.
Lemma nrm_col k l p (A : 'M[Rf]_(k, p)) (B : 'M[Rf]_(l, p)) : nrm (col_mx A B) = nrm A + nrm B.
Proof.
rewrite /nrm big_split_ord /=; congr (_ + _); apply: eq_bigr => i _; apply: eq_bigr => j _; by rewrite ?col_mxEu ?col_mxEd.
Qed.
Lemma nrm_usub k l p (A : 'M[Rf]_(k + l, p)) : nrm (usubmx A) <= nrm A.
Proof. by rewrite -{2}[A]vsubmxK nrm_col ler_addl nrm_ge0. Qed.
(** ** one Runge-Kutta step *)
Lemma aff_2 n (A : 'M[Rf]_n) (c x : 'cV[Rf]_n) (h al : Rf) : 0 <= h <= 1 -> nrm A <= al ->
  exists y, rk4_x (V := matrix_lmodType Rf n 1) (fun y => Some (A *m y + c)) h x = Some y /\
  nrm (y - (x + h *: (A *m x + c))) <= al * (3%:R * (1 + al) ^+ 2) * h ^+ 2 * nrm (A *m x + c).
Proof.
move=> /andP [h0 h1] Aal; have a0 : 0 <= al by apply: le_trans Aal; exact: nrm_ge0.
eexists; split; first exact: aff_rk4.
rewrite -/(ak1 A c x); set g := ak1 A c x; rewrite addrAC subrr add0r nrmZ.
have g0 : 0 <= nrm g by exact: nrm_ge0.
have one : 1 <= 1 + al by rewrite ler_addl.
have b0 : 0 <= 1 + al by rewrite addr_ge0 ?ler01.
have mA v (b : Rf) : nrm v <= b -> nrm (A *m v) <= al * b.
  by move=> hv; apply: le_trans (nrm_mul _ _) _; apply: ler_pmul; rewrite ?nrm_ge0.
have half (v : 'cV[Rf]_n) : nrm (2%:R^-1 *: (h *: v)) <= nrm v.
  rewrite !nrmZ mulrA ler_pimull ?nrm_ge0 // ger0_norm ?invr_ge0 ?ler0n // ger0_norm // mulr_ile1 ?invr_ge0 ?ler0n //.
  by rewrite invf_le1 ?ltr0n // ler1n.
have k1 : nrm g <= (1 + al) ^+ 2 * nrm g by rewrite ler_pemull // exprn_ege1.
have k2' : nrm (ak2 A c h x) <= (1 + al) * nrm g.
  apply: le_trans (nrmD _ _) _; rewrite mulrDl mul1r ler_add2l; apply: le_trans (half _) _; exact: mA.
have k2 : nrm (ak2 A c h x) <= (1 + al) ^+ 2 * nrm g by apply: le_trans k2' _; rewrite ler_wpmul2r // ler_eexpr.
have k3 : nrm (ak3 A c h x) <= (1 + al) ^+ 2 * nrm g.
  apply: le_trans (nrmD _ _) _; apply: (@le_trans _ _ ((1 + al) * nrm g + al * ((1 + al) * nrm g))).
    by apply: ler_add; [rewrite ler_pemull | apply: le_trans (half _) _; exact: mA].
  by rewrite -{1}[_ * nrm g]mul1r -mulrDl expr2 mulrA.
rewrite normrM [`|_ ^+ _|]ger0_norm ?exprn_ge0 // ger0_norm ?invr_ge0 ?ler0n //.
apply: (@le_trans _ _ (h ^+ 2 * nrm (A *m g + A *m ak2 A c h x + A *m ak3 A c h x))).
  by rewrite ler_wpmul2r ?nrm_ge0 // ler_pimulr ?exprn_ge0 // invf_le1 ?ltr0n // ler1n.
rewrite scal3.
rewrite ler_wpmul2l ?exprn_ge0 // mulrSr mulr2n; apply: le_trans (nrmD _ _) _; apply: ler_add; last exact: mA.
  by apply: le_trans (nrmD _ _) _; apply: ler_add; exact: mA.
Qed.
Lemma rk4_ext (V : lmodType Rf) (f g : V -> V) h x : (forall x, f x = g x) -> rk4_x (fun x => Some (f x)) h x = rk4_x (fun x => Some (g x)) h x.
Proof. by move=> E; rewrite /rk4_x !obindS !E. Qed.

(** ** the forward steps *)
Section Step.
Variables n m : nat.
Variable q : clqr Rf n m.
Definition stepf (ex : bool) := if ex then qfwd_exact expmR q else qfwd_rk4 q.
Lemma step_2 (kappa : Rf) : 0 <= kappa -> exists2 C : Rf, 0 <= C & forall ex zoh (K : 'M[Rf]_(m, n)) x (h : Rf), nrm K <= kappa -> 0 <= h <= 1 ->
  exists y, stepf ex h zoh K (- K *m x) x = Some y /\ nrm (y - (x + h *: ((qF q - qL q *m K) *m x))) <= C * h ^+ 2 * nrm x.
Proof.
move=> k0; pose al := nrm (qF q) + nrm (qL q) * kappa; pose M : 'M[Rf]_(n + m) := block_mx (qF q) (qL q) 0 0.
have al0 : 0 <= al by rewrite addr_ge0 ?mulr_ge0 ?nrm_ge0.
have Al K : nrm K <= kappa -> nrm (qF q - qL q *m K) <= al.
  move=> hK; apply: le_trans (nrmB _ _) _; rewrite ler_add2l; apply: le_trans (nrm_mul _ _) _; exact: ler_wpmul2l (nrm_ge0 _) _ _ hK.
have Fl : nrm (qF q) <= al by rewrite ler_addl mulr_ge0 ?nrm_ge0.
pose C1 := al * (3%:R * (1 + al) ^+ 2) * al.
pose cst k (r : Rf) := (k * k)%:R * (r ^+ 2 * ((k * k)%:R * exp r)) : Rf.
pose C2 := cst n al; pose C3 := cst (n + m)%N (nrm M) * (1 + kappa).
have cst0 k (r : Rf) : 0 <= r -> 0 <= cst k r.
  by move=> r0; rewrite /cst !mulr_ge0 ?exprn_ge0 ?ler0n //; apply: ltW; apply/RltP; exact: exp_pos.
have C10 : 0 <= C1 by apply: mulr_ge0 => //; apply: mulr_ge0 => //; apply: mulr_ge0; [exact: ler0n | apply: exprn_ge0; exact: addr_ge0 ler01 al0].
have C20 : 0 <= C2 by exact: cst0.
have C30 : 0 <= C3 by apply: mulr_ge0; [exact: cst0 (nrm_ge0 _) | exact: addr_ge0 ler01 k0].
exists (C1 + C2 + C3); first by rewrite !addr_ge0.
move=> ex zoh K x h hK hh; have [h0 h1] := andP hh.
have x0 : 0 <= nrm x by exact: nrm_ge0.
have gE : qF q *m x + qL q *m (- K *m x) = (qF q - qL q *m K) *m x by rewrite mulmxBl mulNmx mulmxN mulmxA.
have gl : nrm ((qF q - qL q *m K) *m x) <= al * nrm x by apply: le_trans (nrm_mul _ _) _; rewrite ler_wpmul2r // Al.
have w (c e : Rf) : 0 <= e -> c <= C1 + C2 + C3 -> c * h ^+ 2 * nrm x <= (C1 + C2 + C3) * h ^+ 2 * nrm x.
  by move=> _ le; rewrite ler_wpmul2r // ler_wpmul2r ?exprn_ge0.
have w1 : C1 * h ^+ 2 * nrm x <= (C1 + C2 + C3) * h ^+ 2 * nrm x by apply: (w _ 0) => //; rewrite -addrA ler_addl addr_ge0.
have w2 : C2 * h ^+ 2 * nrm x <= (C1 + C2 + C3) * h ^+ 2 * nrm x by apply: (w _ 0) => //; rewrite addrAC ler_addr addr_ge0.
have w3 : C3 * h ^+ 2 * nrm x <= (C1 + C2 + C3) * h ^+ 2 * nrm x by apply: (w _ 0) => //; rewrite ler_addr addr_ge0.
have rk A c : nrm A <= al -> A *m x + c = (qF q - qL q *m K) *m x -> exists y,
    rk4_x (V := matrix_lmodType Rf n 1) (fun y => Some (A *m y + c)) h x = Some y /\
    nrm (y - (x + h *: ((qF q - qL q *m K) *m x))) <= (C1 + C2 + C3) * h ^+ 2 * nrm x.
  move=> hA e; have [y [Ey Hy]] := aff_2 c x hh hA; exists y; split=> //; rewrite e in Hy; apply: le_trans Hy _; apply: le_trans w1.
  rewrite /C1; set P := al * (3%:R * _); have P0 : 0 <= P by apply: mulr_ge0 => //; apply: mulr_ge0; [exact: ler0n | apply: exprn_ge0; exact: addr_ge0 ler01 al0].
  by rewrite [P * al * _]mulrAC -[P * _ * al * _]mulrA ler_wpmul2l // mulr_ge0 ?exprn_ge0.
rewrite /stepf; case: ex.
- rewrite /qfwd_exact; have := @discA n m (qF q) (qL q) None h; rewrite /lti_disc_u; case: (lti_disc _ _ _ _ _) => A Q /= ->; case: zoh.
    eexists; split; first by [].
    have -> : expmR (h *: qF q) *m x + ursubmx (expmR (h *: M)) *m (- K *m x) = usubmx (expmR (h *: M) *m col_mx x (- K *m x)) by rewrite discB.
    have -> : x + h *: ((qF q - qL q *m K) *m x) = usubmx ((1%:M + h *: M) *m col_mx x (- K *m x)).
      by rewrite mulmxDl mul1mx -scalemxAl /M mul_block_col !mul0mx addr0 scale_col_mx scaler0 add_col_mx col_mxKu gE.
    rewrite -linearB /= -mulmxBl; apply: le_trans (nrm_usub _) _; apply: le_trans (nrm_mul _ _) _; apply: le_trans w3.
    apply: (@le_trans _ _ (cst (n + m)%N (nrm M) * h ^+ 2 * ((1 + kappa) * nrm x))); last by rewrite /C3 [_ * (1 + kappa) * _]mulrAC -[X in _ <= X]mulrA.
    apply: ler_pmul; rewrite ?nrm_ge0 //; first exact: expm_2.
    rewrite nrm_col mulrDl mul1r ler_add2l; apply: le_trans (nrm_mul _ _) _; by rewrite nrmN ler_wpmul2r.
  eexists; split; first by [].
  rewrite -[x in _ - (x + _)]mul1mx scalemxAl -mulmxDl -mulmxBl; apply: le_trans (nrm_mul _ _) _; apply: le_trans w2.
  by rewrite ler_wpmul2r //; apply: expm_2 => //; exact: Al.
rewrite /qfwd_rk4; case: zoh; first by apply: rk.
rewrite (rk4_ext (g := fun y => (qF q - qL q *m K) *m y + 0)); last by move=> y; rewrite addr0.
by apply: rk; [exact: Al | rewrite addr0].
Qed.
End Step.
