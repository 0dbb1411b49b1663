(** Combination of forward elements and value matrices near the exact ones gives states near the optimal trajectory. *)
From Coq Require Import Reals Lra.
From mathcomp Require Import all_ssreflect all_algebra zify.
From Verif Require Import RealF MxBase LqtModel LqtCore ScanModel ClqtFwd2 ClqtModel ClqtSpec ClqtPack Rk4Model Rk4Spec Rk4Proofs ClqrModel ClqrSpec ClqrExact ClqrElem RealExpSpec RealExp RealAssm ClqrOptSpec ClqrOpt RealDisc RkConvA RkConvSpec RkQuadAlg RkConvB RkConvC RkConv RkConvP ParAlg ParConvA ParConvB ParConvC FwdConvA FwdConv FbAlg FbConvA.
Import Order.TTheory GRing.Theory Num.Theory.
Set Implicit Arguments. Unset Strict Implicit. Unset Printing Implicit Defensive.
Local Open Scope ring_scope.
Delimit Scope R_scope with Re.

Section Solve.
Variable n : nat.
(** perturbation of (1 + C S)^-1 b *)
Lemma solve_close (mC mS mb mG eps : Rf) (C S C' S' : 'M[Rf]_n) (b b' : 'cV[Rf]_n) :
  let a := mC + 1 + mS in let L := 1 + 2%:R * a * mG + 2%:R * mG ^+ 2 * a * (mb + 1) + mG in
  1%:M + C *m S \in unitmx -> nrm C <= mC -> nrm S <= mS -> nrm b <= mb -> nrm (invmx (1%:M + C *m S)) <= mG ->
  0 <= eps -> eps * L <= 1 -> nrm (C' - C) <= eps -> nrm (S' - S) <= eps -> nrm (b' - b) <= eps ->
  exists2 x, solve (1%:M + C' *m S') b' = Some x & nrm (x - invmx (1%:M + C *m S) *m b) <= L * eps.
Proof.
move=> a L u hC hS hb hG e0 eL dC dS db.
have mC0 := le_trans (nrm_ge0 _) hC; have mS0 := le_trans (nrm_ge0 _) hS; have mb0 := le_trans (nrm_ge0 _) hb; have mG0 := le_trans (nrm_ge0 _) hG.
have a0 : 0 <= a by rewrite !addr_ge0 ?ler01.
have p1 : 0 <= 2%:R * a * mG by rewrite !mulr_ge0 ?ler0n.
have p2 : 0 <= 2%:R * mG ^+ 2 * a * (mb + 1) by rewrite !mulr_ge0 ?ler0n ?exprn_ge0 ?addr_ge0 ?ler01.
have e1 : eps <= 1.
  by apply: le_trans eL; rewrite ler_pemulr // /L -!addrA ler_addl !addr_ge0.
set M := 1%:M + C' *m S'; set M0 := 1%:M + C *m S.
have dM : nrm (M - M0) <= a * eps.
  have -> : M - M0 = C' *m (S' - S) + (C' - C) *m S.
    by rewrite /M /M0 mulmxBr mulmxBl addrA subrK opprD addrACA subrr add0r.
  apply: le_trans (nrmD _ _) _; rewrite /a mulrDl; apply: ler_add; apply: le_trans (nrm_mul _ _) _.
    apply: ler_pmul; rewrite ?nrm_ge0 //; rewrite -[C'](subrK C) addrC; apply: le_trans (nrmD _ _) _; apply: ler_add => //; exact: le_trans dC e1.
  by rewrite mulrC; apply: ler_pmul; rewrite ?nrm_ge0.
have small : nrm (M - M0) * (2%:R * nrm (invmx M0)) <= 1.
  apply: le_trans (_ : _ <= a * eps * (2%:R * mG)) _.
    by apply: ler_pmul; rewrite ?nrm_ge0 ?mulr_ge0 ?ler0n ?nrm_ge0 // ler_wpmul2l ?ler0n.
  apply: le_trans eL; rewrite [a * eps]mulrC -mulrA; apply: ler_wpmul2l => //.
  rewrite mulrA [a * 2%:R]mulrC /L.
  by rewrite -!addrA addrCA ler_addl !addr_ge0 ?ler01.
have uM := pert_unit u small; have dI := pert_inv u small.
exists (invmx M *m b'); first by rewrite solve_unit.
have -> : invmx M *m b' - invmx M0 *m b = (invmx M - invmx M0) *m b' + invmx M0 *m (b' - b).
  by rewrite mulmxBl mulmxBr addrA subrK.
apply: le_trans (nrmD _ _) _.
apply: le_trans (_ : _ <= 2%:R * mG ^+ 2 * a * (mb + 1) * eps + mG * eps) _; last first.
  by rewrite -mulrDl ler_wpmul2r // /L -[X in _ <= X]addrA ler_addr addr_ge0 ?ler01.
apply: ler_add; apply: le_trans (nrm_mul _ _) _; last by apply: ler_pmul; rewrite ?nrm_ge0.
rewrite -[X in _ <= X]mulrA [(mb + 1) * _]mulrC [X in _ <= X]mulrA; apply: ler_pmul; rewrite ?nrm_ge0 //.
  apply: le_trans dI _; rewrite -[X in _ <= X]mulrA; apply: ler_pmul; rewrite ?mulr_ge0 ?exprn_ge0 ?nrm_ge0 ?ler0n //.
  by rewrite ler_wpmul2l ?ler0n // ler_expn2r // ?nnegrE ?nrm_ge0.
rewrite -[b'](subrK b) addrC; apply: le_trans (nrmD _ _) _; apply: ler_add => //; exact: le_trans db e1.
Qed.
Lemma inv_fact (P M A B : 'M[Rf]_n) : P \in unitmx -> B \in unitmx -> P *m M *m A = B -> M *m (A *m invmx B *m P) = 1%:M.
Proof.
move=> uP uB E; apply: (can_inj (mulKmx uP)); by rewrite !mulmxA E mulmxV // mul1mx mulmx1.
Qed.
Lemma inv_of (M H : 'M[Rf]_n) : M *m H = 1%:M -> M \in unitmx /\ invmx M = H.
Proof. by move=> E; have [u _] := mulmx1_unit E; split=> //; apply: (can_inj (mulKmx u)); rewrite mulmxV. Qed.
End Solve.

Section Fb.
Variables n m : nat.
Variable q : clqr Rf n m.
Hypotheses (sU : symm (qU q)) (pU : pd (qU q)) (sX : symm (qX q)) (pX : psd (qX q)) (sT : symm (qXT q)) (pT : psd (qXT q)).
Local Notation T := (qT q).
Hypothesis T0 : 0 <= T.
Local Notation ulT := (ulT q).
Local Notation N := (qL q *m ulT).
Local Notation P11 := (P11 expmR q ulT).
Local Notation As := (As expmR q ulT).
Local Notation Cs := (Cs expmR q ulT).
Local Notation Ct := (ClqrOpt.C q).
Local Notation W := (val expmR q ulT (qXT q)).
Local Notation VA := (val_at q).
Local Notation gain := (gain q).
Variable x0 : 'cV[Rf]_n.
Local Notation xo := (xo q 0 x0). Local Notation uo := (uo q 0 x0).
Definition G (t : Rf) : 'M[Rf]_n := Ct (T + (- 1) * t) *m invmx (Ct T) *m P11 t.
Lemma fact (t : Rf) : 0 <= t <= T -> P11 t *m (1%:M + Cs t *m VA t) *m Ct (T - t) = Ct T.
Proof.
move=> /andP [t0 tT]; have T1 : 0 <= T - t by rewrite subr_ge0.
have ua : Ct (T - t) \in unitmx := unit_C sU pU pX pT T1.
rewrite -(CD_fact (ultS sU pU) (expmR_group _) expmR_natural sU sX pU (VA t) (goodt sU pU pX t0)).
have E : CD expmR q ulT (qXT q) T = CD expmR q ulT (VA t) t *m Ct (T - t).
  rewrite -{1}(subrK t T) addrC CD_add; last exact: expmR_group.
  by rewrite /CD -mulmxA mul_col_mx mul1mx /val_at /val mulmxKV // vsubmxK.
by rewrite [in RHS]/ClqrOpt.C E; exact: mul_usub_mx.
Qed.
Lemma G_inv (t : Rf) : 0 <= t <= T -> 1%:M + Cs t *m VA t \in unitmx /\ invmx (1%:M + Cs t *m VA t) = G t.
Proof.
move=> ht; have [t0 tT] := andP ht.
have uT : Ct T \in unitmx := unit_C sU pU pX pT T0.
have E : (1%:M + Cs t *m VA t) *m G t = 1%:M.
  by rewrite /G mulN1r; exact: (inv_fact (goodt sU pU pX t0) uT (fact ht)).
exact: inv_of E.
Qed.
Lemma xo_G (t : Rf) : 0 <= t <= T -> xo t = G t *m (As t *m x0).
Proof.
move=> /andP [t0 tT]; rewrite /ClqrOpt.xo /yy subr0 /G mulN1r -!mulmxA [P11 t *m _]mulmxA (PA sU pU sX pX t0) mul1mx //.
Qed.
Lemma C_cont (t : Rf) : mcont (fun t : Rf => Ct (T + (- 1) * t)) t.
Proof. exact: mderiv_cont (mderiv_aff (C_deriv q (T + (- 1) * t))). Qed.
Lemma G_bounded : exists2 k : Rf, 0 <= k & forall t : Rf, 0 <= t <= T -> nrm (G t) <= k.
Proof.
apply: bounded_on T0 _ => t ht; apply: mcont_mul; last exact: mderiv_cont (P11_deriv' q t).
apply: mcont_mul; [exact: C_cont | exact: mcont_const].
Qed.
Lemma VA_cont (t : Rf) : 0 <= t <= T -> mcont VA t.
Proof.
move=> /andP [t0 tT]; have c : mcont W (T + (- 1) * t)%R.
  by apply: (W_solves sU pU pX pT).1; rewrite mulN1r subr_ge0 tT ler_subl_addr ler_addl.
move=> i j; apply: (cont_ext (f := fun s => W (T + (- 1) * s)%R i j)) => [s|]; first by rewrite /val_at mulN1r.
apply: (continuity_pt_comp (fun t => T + (- 1) * t)%Re (fun t => W t i j)); last exact: c.
exact: dlim_cont (dlim_aff T (- 1) t).
Qed.
Lemma comb_close : exists2 L, 1 <= L & forall t eps C' S' b', 0 <= t <= T -> 0 <= eps -> eps * L <= 1 -> nrm (C' - Cs t) <= eps -> nrm (S' - VA t) <= eps ->
  nrm (b' - As t *m x0) <= eps -> exists2 x, solve (1%:M + C' *m S') b' = Some x & nrm (x - xo t) <= L * eps.
Proof.
have [mG mG0 HG] := G_bounded.
have [mS mS0 HS] := bounded_on T0 VA_cont.
have [mC mC0 HC] := bounded_on T0 (fun (t : Rf) (h : 0 <= t <= T) => mderiv_cont (Cs_deriv' sU pU sX pX (proj1 (andP h)))).
have [mb mb0 Hb] := bounded_on T0 (fun (t : Rf) (h : 0 <= t <= T) => mderiv_cont (mderiv_mulr x0 (As_deriv' sU pU sX pX (proj1 (andP h))))).
exists (1 + 2%:R * (mC + 1 + mS) * mG + 2%:R * mG ^+ 2 * (mC + 1 + mS) * (mb + 1) + mG).
  by rewrite -!addrA ler_addl !addr_ge0 ?mulr_ge0 ?exprn_ge0 ?addr_ge0 ?ler0n ?ler01.
move=> t eps C' S' b' ht e0 eL dC dS db; have [u GE] := G_inv ht.
have hG : nrm (invmx (1%:M + Cs t *m VA t)) <= mG by rewrite GE HG.
have [x E Hx] := solve_close u (HC t ht) (HS t ht) (Hb t ht) hG e0 eL dC dS db.
by exists x => //; rewrite xo_G // -GE.
Qed.

(** ** the list of combinations *)
Lemma combine_list Ks Ss es (xs : seq 'cV[Rf]_n) : size xs = size Ss -> (size Ss <= size es)%N ->
  (forall i, (i < size Ss)%N -> solve (1%:M + (nth (0, 0, 0) es i).2 *m nth 0 Ss i) (nth (0, 0, 0) es i).1.2 = Some (nth 0 xs i)) ->
  qcombineForwardBackward (m := m) Ks Ss es = Some ([seq - p.1 *m p.2 | p <- zip Ks xs], xs).
Proof.
elim: Ss Ks es xs => [|S Ss IH] Ks [|[[A b] C] es] [|x xs] //= sx se H; try by case: Ks.
have := H 0%N isT; rewrite /= => -> /=; rewrite (IH (behead Ks) es xs) //=.
- by case: Ks => [|K Ks] //=; rewrite (_ : zip [::] xs = [::]) //; case: (xs).
- by case: sx.
by move=> i lt; exact: (H i.+1).
Qed.
Lemma combine_conv : exists2 L, 1 <= L & forall (M : nat) (ts : nat -> Rf) eps Ks Ss es, 0 <= eps -> eps * L <= 1 ->
  size Ks = M -> size Ss = M.+1 -> size es = M.+1 -> (forall i, (i <= M)%N -> 0 <= ts i <= T) ->
  (forall i, (i < M)%N -> nrm (nth 0 Ks i - gain (ts i)) <= eps) ->
  (forall i, (i <= M)%N -> nrm (nth 0 Ss i - VA (ts i)) <= eps) ->
  (forall i, (i <= M)%N -> nrm ((nth (0, 0, 0) es i).1.2 - As (ts i) *m x0) <= eps /\ nrm ((nth (0, 0, 0) es i).2 - Cs (ts i)) <= eps) ->
  exists us xs, [/\ qcombineForwardBackward Ks Ss es = Some (us, xs), size us = M, size xs = M.+1,
    forall i, (i <= M)%N -> nrm (nth 0 xs i - xo (ts i)) <= L * eps &
    forall i, (i < M)%N -> nrm (nth 0 us i - uo (ts i)) <= L * eps].
Proof.
have [L0 L1 HL] := comb_close; have L00 : 0 <= L0 := le_trans ler01 L1.
have [kp kp0 Hkp] := gain_bounded sU pU pX pT T0.
have [Mx Mx0 HMx] := bounded_on T0 (fun (t : Rf) (_ : 0 <= t <= T) => mderiv_cont (xo_deriv q 0 x0 t)).
have p1 : 0 <= (kp + 1) * L0 + Mx by rewrite addr_ge0 ?mulr_ge0 ?addr_ge0 ?ler01.
exists (L0 + ((kp + 1) * L0 + Mx)); first by apply: le_trans L1 _; rewrite ler_addl.
move=> M ts eps Ks Ss es e0 eL sK sS se ht HK HS He.
have eL0 : eps * L0 <= 1 by apply: le_trans eL; rewrite ler_wpmul2l // ler_addl.
have e1 : eps <= 1 by apply: le_trans eL0; rewrite ler_pemulr.
pose f i := odflt 0 (solve (1%:M + (nth (0, 0, 0) es i).2 *m nth 0 Ss i) (nth (0, 0, 0) es i).1.2).
have Hf i : (i <= M)%N -> solve (1%:M + (nth (0, 0, 0) es i).2 *m nth 0 Ss i) (nth (0, 0, 0) es i).1.2 = Some (f i) /\ nrm (f i - xo (ts i)) <= L0 * eps.
  by move=> le; have [hb hC] := He i le; have [x E Hx] := HL _ _ _ _ _ (ht i le) e0 eL0 hC (HS i le) hb; rewrite /f E.
have nx i : (i <= M)%N -> nth 0 (mkseq f M.+1) i = f i by move=> le; rewrite nth_mkseq.
exists [seq - p.1 *m p.2 | p <- zip Ks (mkseq f M.+1)], (mkseq f M.+1); split.
- apply: combine_list; rewrite ?size_mkseq ?sS ?se // => i; rewrite ltnS => le; rewrite nx //; exact: (Hf i le).1.
- by rewrite size_map size_zip size_mkseq sK; lia.
- by rewrite size_mkseq.
- by move=> i le; rewrite nx //; apply: le_trans (Hf i le).2 _; rewrite ler_wpmul2r // ler_addl.
move=> i lt; have sz : size (zip Ks (mkseq f M.+1)) = M by rewrite size_zip size_mkseq sK; lia.
rewrite (nth_map (0, 0)) ?sz // nth_zip_cond sz lt /= nx ?(ltnW lt) //.
have hx := (Hf i (ltnW lt)).2; have dK := HK i lt; have hti := ht i (ltnW lt); have [_ tT] := andP hti.
have bK : nrm (nth 0 Ks i) <= kp + 1.
  rewrite -[nth 0 Ks i](subrK (gain (ts i))) addrC; apply: le_trans (nrmD _ _) _; apply: ler_add; [exact: Hkp | exact: le_trans dK e1].
have -> : - nth 0 Ks i *m f i - uo (ts i) = - (nth 0 Ks i *m (f i - xo (ts i)) + (nth 0 Ks i - gain (ts i)) *m xo (ts i)).
  by rewrite uo_gain // !mulNmx opprK mulmxBr [(_ - gain (ts i)) *m _]mulmxBl addrA subrK opprB addrC.
rewrite nrmN; apply: le_trans (_ : _ <= ((kp + 1) * L0 + Mx) * eps) _; last by rewrite ler_wpmul2r // ler_addr.
rewrite mulrDl; apply: le_trans (nrmD _ _) _; apply: ler_add.
  by rewrite -mulrA; apply: le_trans (nrm_mul _ _) _; apply: ler_pmul; rewrite ?nrm_ge0.
by rewrite [Mx * _]mulrC; apply: le_trans (nrm_mul _ _) _; apply: ler_pmul; rewrite ?nrm_ge0 // HMx.
Qed.
End Fb.
