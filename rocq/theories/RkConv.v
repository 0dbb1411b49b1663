(** Order four of the Runge-Kutta step, and of the regulator's backward pass. *)
From Coq Require Import Reals Lra.
From mathcomp Require Import all_ssreflect all_algebra zify.
From Verif Require Import RealF MxBase LqtModel LqtCore ClqtFwd2 ClqtModel ClqtSpec Rk4Model Rk4Spec ClqrModel ClqrSpec ClqrExact RealExpSpec RealExp RealAssm ClqrOptSpec ClqrOpt RkConvA RkConvSpec RkQuadAlg RkConvB RkConvC.
Import Order.TTheory GRing.Theory Num.Theory.
Set Implicit Arguments. Unset Strict Implicit. Unset Printing Implicit Defensive.
Local Open Scope ring_scope.
Delimit Scope R_scope with Re.
Local Arguments rk4_x : simpl never.

Theorem rk4_order4 k l (f : 'M[Rf]_(k, l) -> 'M[Rf]_(k, l)) (z : R -> 'M[Rf]_(k, l)) (T : Rf) : quadratic f -> 0 <= T -> solves f z 0 T ->
  exists (D : Rf) N0, forall N, (N0 <= N)%N -> (0 < N)%N -> forall xs : nat -> 'M[Rf]_(k, l), xs 0%N = z 0 ->
  (forall i, (i < N)%N -> rk4_x (V := matrix_lmodType Rf k l) (fun x => Some (f x)) (T / N%:R) (xs i) = Some (xs i.+1)) ->
  forall i, (i <= N)%N -> within (D / N%:R ^+ 4) (xs i) (z (i%:R * (T / N%:R))%R).
Proof.
move=> [c [B [b [HB Hb Ef]]]] T0 [zc zd].
have sol : solves (RkQuadAlg.f c B b) z 0 T by split=> // t ht; rewrite /RkQuadAlg.f -Ef; exact: zd.
have [|N i iN|D [N0 [D0 H]]] := @rk_order4 k l c B b HB Hb z T T0 sol (fun N i => iter i (stp c B b (T / N%:R)) (z 0)); first by [].
  by rewrite iterS.
exists D, N0 => N N0N Np xs x0 step i iN p r.
have -> : xs i = iter i (stp c B b (T / N%:R)) (z 0).
  elim: i iN => [//|i IH] iN; have := step i iN; rewrite (IH (ltnW iN)) iterS => E.
  have : rk4_x (V := matrix_lmodType Rf k l) (fun x => Some (RkQuadAlg.f c B b x)) (T / N%:R) (iter i (stp c B b (T / N%:R)) (z 0)) = Some (xs i.+1).
    by rewrite -E /rk4_x /= /RkQuadAlg.f -!Ef.
  by rewrite rk4_stp => -[<-].
by apply: le_trans (H N N0N Np i iN); have := nrm_entry (iter i (stp c B b (T / N%:R)) (z 0) - z (i%:R * (T / N%:R))%R) p r; rewrite !mxE.
Qed.

Lemma rk4_neg (V : lmodType Rf) (f g : V -> V) h x : (forall x, f x = - g x) ->
  rk4_x (fun x => Some (f x)) (- h) x = rk4_x (fun x => Some (g x)) h x.
Proof. by move=> E; rewrite /rk4_x !obindS !E !scaleNr !scalerN !opprK. Qed.
Section Reg.
Lemma derivative_mderiv k l (V : Rf -> 'M[Rf]_(k, l)) (s : Rf) D : derivative V s D -> mderiv V s D.
Proof.
move=> [d [C [d0 H]]] i j eps he; pose e : Rf := eps; have e0 : 0 < e by apply/RltP.
have C1 : 0 < `|C| + 1 by rewrite ltr_paddl ?ltr01.
have m0 : 0 < Num.min d (e / (`|C| + 1)) by rewrite lt_minr d0 divr_gt0.
exists (mkposreal _ (elimT (RltP _ _) m0)) => g /eqP g0 /= /RltP; rewrite RabsE lt_minr => /andP [gd ge].
apply/RltP; rewrite /Rdiv RinvE // !RplusE !RmultE !RminusE RabsE.
have -> : (V (s + g)%R i j - V s i j) / g - D i j = (V (s + g)%R i j - (V s + g *: D) i j) / g :> Rf.
  by rewrite !mxE opprD addrA [in RHS]mulrBl [g * _]mulrC mulfK.
rewrite normrM normfV ltr_pdivr_mulr ?normr_gt0 //; apply: le_lt_trans (H g (ltW gd) i j) _.
have gp : 0 < `|g : Rf| by rewrite normr_gt0.
rewrite -[g ^+ 2]ger0_norm ?sqr_ge0 // normrX expr2 mulrA ltr_pmul2r //.
apply: le_lt_trans (_ : _ <= (`|C| + 1) * `|g : Rf|) _; first by rewrite ler_wpmul2r // ler_paddr ?ler01 // ler_norm.
by rewrite mulrC -ltr_pdivl_mulr.
Qed.
Lemma nrm_symz n (A : 'M[Rf]_n) : nrm (symz A) <= nrm A.
Proof.
rewrite /symz nrmZ ger0_norm ?invr_ge0 ?ler0n // mulrC ler_pdivr_mulr ?ltr0n // mulr_natr mulr2n.
by apply: le_trans (nrmD _ _) _; rewrite nrm_tr.
Qed.
Lemma symz_sub n (A V : 'M[Rf]_n) : symm V -> symz A - V = symz (A - V).
Proof.
move=> sV; rewrite /symz linearB /= addrACA -opprD scalerBr sV; congr (_ - _).
by rewrite -mulr2n -scaler_nat scalerA mulVf ?scale1r // pnatr_eq0.
Qed.
Variables n m : nat.
Variable q : clqr Rf n m.
Hypotheses (sU : symm (qU q)) (pU : pd (qU q)) (sX : symm (qX q)) (pX : psd (qX q)) (sT : symm (qXT q)) (pT : psd (qXT q)).
Local Notation ulT := (ulT q).
Local Notation N := (qL q *m ulT).
Local Notation T := (qT q).
Local Notation W := (val expmR q ulT (qXT q)).
Let B (Q : 'M[Rf]_n) : 'M[Rf]_n := (qF q)^T *m Q + Q *m qF q.
Let b (P Q : 'M[Rf]_n) : 'M[Rf]_n := - (P *m N *m Q).
Let step h := @stp Rf n n (qX q) B b h.
Lemma B_lin : linear_map (B : matrix_lmodType Rf n n -> matrix_lmodType Rf n n).
Proof. by move=> a x y; rewrite /B mulmxDr mulmxDl -scalemxAr -scalemxAl addrACA scalerDr. Qed.
Lemma b_bil : bilinear_map (b : matrix_lmodType Rf n n -> _ -> _).
Proof.
split=> z a x y; first by rewrite /b mulmxDr -scalemxAr opprD scalerN.
by rewrite /b !mulmxDl -!scalemxAl opprD scalerN.
Qed.
Lemma fE Q : RkQuadAlg.f (qX q) B b Q = - qriccati q N Q.
Proof. by rewrite /RkQuadAlg.f /B /b /qriccati !opprD !opprK mulNmx opprK [RHS]addrC !addrA. Qed.
Lemma step_rk4 h Q : rk4_x (V := matrix_lmodType Rf n n) (fun Q => Some (qriccati q N Q)) (- h) Q = Some (step h Q).
Proof. by rewrite /step -rk4_stp; apply: rk4_neg => x; rewrite fE opprK. Qed.
Lemma W_solves : solves (RkQuadAlg.f (qX q) B b) W 0 T.
Proof.
have d (t : Rf) : 0 <= t -> mderiv W t (RkQuadAlg.f (qX q) B b (W t)).
  move=> t0; rewrite fE; apply: derivative_mderiv; exact: (@val_derivative Rf expmR n m q ulT (expmR_group _) (qXT q) t (unit_C sU pU pX pT t0)).
by split=> t /andP [h1 h2]; [exact: mderiv_cont (d t h1) | exact: d (ltW h1)].
Qed.
Lemma W_symm (t : Rf) : 0 <= t -> symm (W t).
Proof. by move=> t0; exact: (@val_symm Rf expmR n m q ulT (ultS sU pU) (expmR_group _) (qXT q) expmR_natural sU sX sT pU t (unit_C sU pU pX pT t0)). Qed.
Lemma rk4_loop h k Q acc : qbwd_rk4 q ulT h k Q acc =
  Some ([seq ulT *m iter j (fun Q => symz (step h Q)) Q | j <- rev (iota 1 k)] ++ acc.1, [seq iter j (fun Q => symz (step h Q)) Q | j <- rev (iota 1 k)] ++ acc.2).
Proof.
elim: k Q acc => [|k IH] Q [a1 a2]; first by [].
rewrite -[LHS]/(let? Q' := rk4_x (V := matrix_lmodType Rf n n) (fun Q => Some (qriccati q N Q)) (- h) Q in
  qbwd_rk4 q ulT h k (symz Q') (ulT *m symz Q' :: a1, symz Q' :: a2)).
rewrite step_rk4 obindS IH [iota 1 k.+1]/= !(iotaDl 1 1 k) !rev_cons !map_rcons !cat_rcons -!map_rev -!map_comp.
by congr (Some (_ ++ _, _ ++ _)); apply: eq_map => j /=; rewrite -iterSr.
Qed.
Theorem reg_rk4_order4 : 0 <= T -> exists (D : Rf) N0, forall steps, (N0 <= steps)%N -> (0 < steps)%N ->
  exists Ks Ss Ks' Ss', [/\ clqr_seqBackwardPass expmR q steps None None Rk4 = Some (Ks, Ss) /\ size Ks = steps /\ size Ss = steps.+1,
    clqr_seqBackwardPass expmR q steps None None Exact = Some (Ks', Ss'),
    forall i, (i <= steps)%N -> within (D / steps%:R ^+ 4) (nth 0 Ss i) (nth 0 Ss' i) &
    forall i, (i < steps)%N -> within (D / steps%:R ^+ 4) (nth 0 Ks i) (nth 0 Ks' i)].
Proof.
move=> T0; pose xs (M i : nat) := iter i (fun Q => symz (step (T / M%:R) Q)) (qXT q).
have [|M i iM|D [N0 [D0 H]]] := @rk_order4 n n (qX q) B b B_lin b_bil W T T0 W_solves xs; first by move=> M; rewrite /xs /= val0 //; exact: expmR_group.
  have M0 : 0 < M%:R :> Rf by rewrite ltr0n (leq_trans _ iM).
  by rewrite /xs iterS symz_sub; [exact: nrm_symz | apply: W_symm; rewrite mulr_ge0 ?ler0n // divr_ge0 // ltW].
exists (D + nrm ulT * D), N0 => steps N0N s0.
have [Ks' [Ss' [E' _ _ HS HK]]] := pass_val sU pU sX pX sT pT s0 T0.
have sp : 0 < steps%:R :> Rf by rewrite ltr0n.
have dist i : (i <= steps)%N -> nrm (xs steps (steps - i)%N - nth 0 Ss' i) <= D / steps%:R ^+ 4.
  move=> le; rewrite HS // /val_at (_ : T - _ = (steps - i)%:R * (T / steps%:R)); first by apply: H => //; lia.
  by rewrite natrB // mulrBl; congr (_ - _); rewrite mulrC divfK // lt0r_neq0.
have D0' : 0 <= D / steps%:R ^+ 4 by rewrite divr_ge0 // exprn_ge0 // ltW.
exists [seq ulT *m xs steps j | j <- rev (iota 1 steps)], ([seq xs steps j | j <- rev (iota 1 steps)] ++ [:: qXT q]), Ks', Ss'; split=> //.
- rewrite /clqr_seqBackwardPass /qdt_or /=; case: eqP => [/eqP|_]; first by rewrite ?pnatr_eq0; lia.
  rewrite !obindS ultS // obindS rk4_loop cats0 size_cat !size_map !size_rev !size_iota addn1.
  by [].
- move=> i le p r; have := nrm_entry (xs steps (steps - i)%N - nth 0 Ss' i) p r.
  have -> : nth 0 ([seq xs steps j | j <- rev (iota 1 steps)] ++ [:: qXT q]) i = xs steps (steps - i)%N.
    rewrite nth_cat size_map size_rev size_iota; case: (ltngtP i steps) le => // [lt _|-> _]; first by rewrite (nth_rev_map 0 (xs steps)).
    by rewrite subnn.
  rewrite !mxE => h; apply: le_trans h _; apply: le_trans (dist i le) _.
  by rewrite ler_wpmul2r ?invr_ge0 ?exprn_ge0 ?ler0n // ler_addl mulr_ge0 ?nrm_ge0.
move=> i lt p r; rewrite (nth_rev_map 0 (fun j => ulT *m xs steps j)) // HK // -HS ?(ltnW lt) //.
have := nrm_entry (ulT *m (xs steps (steps - i)%N - nth 0 Ss' i)) p r; rewrite mulmxBr [X in `|X|]mxE [X in _ + X]mxE => h; apply: le_trans h _.
rewrite -mulmxBr; apply: le_trans (nrm_mul _ _) _; rewrite mulrDl -mulrA; apply: (@le_trans _ _ (nrm ulT * (D / steps%:R ^+ 4))).
  by rewrite ler_wpmul2l ?nrm_ge0 // dist // ltnW.
by rewrite ler_addr.
Qed.
End Reg.
