(** lqt_tf.py computes the same values as lqt_np.py. *)
From Coq Require Import Ring Field.
From mathcomp Require Import all_ssreflect all_algebra.
From Verif Require Import ScanModel ScanSpec ScanProofs ScanUse TfScan MxBase LqtModel LqtSpec LqtCore LqtElem LqtProofs LqtPar LqtMore LqtTfModel LqtTfSpec.
Import Order.TTheory GRing.Theory Num.Theory.
Set Implicit Arguments. Unset Strict Implicit. Unset Printing Implicit Defensive.
Local Open Scope ring_scope.

Section Tf.
Variable R : realFieldType.
Variables n m p : nat.
Add Ring Rr : (mc_ring R).
Add Field Rf : (mc_field R).
Ltac sfield := rsn R; field; exact: two_neq0.
Implicit Types (s : cstage R n m p) (sts : seq (cstage R n m p)) (f : cfinal R n p).

Lemma obindS A B (g : A -> option B) x : obind g (Some x) = g x. Proof. by []. Qed.
Lemma ST_E (sts : seq (cstage R n m p)) f : tf_ST f = Sterm (np_lqt sts f). Proof. by rewrite /tf_ST /Sterm mulmxA. Qed.
Lemma vT_E (sts : seq (cstage R n m p)) f : tf_vT f = vterm (np_lqt sts f). Proof. by rewrite /tf_vT /vterm mulmxA. Qed.

Lemma W_E s Sv : W (np_stage s) Sv = cU s + (cL s)^T *m Sv *m cL s.
Proof. by rewrite /W /= trmx1 mul1mx mulmx1. Qed.
Lemma G_E s Sv : G (np_stage s) Sv = (cL s)^T *m Sv *m cF s.
Proof. by rewrite /G /= trmx0 trmx1 mulmx0 mul0mx add0r. Qed.
Lemma e0_E s Sv v : e0 (np_stage s) Sv v = (cL s)^T *m (v - Sv *m cc s).
Proof. by rewrite /e0 /= trmx1 trmx0 !mulmx0 !mul0mx !add0r mulmxBr mulmxA addrC. Qed.
Lemma S'_E s Sv K : S' (np_stage s) Sv K = (cF s)^T *m (Sv *m (cF s - cL s *m K)) + (cH s)^T *m (cX s *m cH s).
Proof. by rewrite /S' /= mulmx0 !mul0mx subr0 addrC !mulmxA. Qed.
Lemma v'_E s Sv v K : v' (np_stage s) Sv v K = (cH s)^T *m (cX s *m cr s) + (cF s - cL s *m K)^T *m (v - Sv *m cc s).
Proof. by rewrite /v' /= trmx1 trmx0 !mulmx0 !mul0mx subr0 addr0 subr0 !mulmxA. Qed.

Lemma tf_gainE s Sv v K d : stage_ok (np_stage s) -> symm Sv -> psd Sv ->
  W (np_stage s) Sv *m K = G (np_stage s) Sv -> W (np_stage s) Sv *m d = e0 (np_stage s) Sv v -> tf_gain s Sv v = Some (K, d).
Proof.
move=> ok sS pS WK Wd.
have sW := W_symm ok sS; have pW := W_pd ok pS; have uW := W_unit ok pS.
rewrite /tf_gain /chol_solve -W_E -G_E -e0_E sW !solve_posE //= -WK -Wd !mulKmx //.
Qed.

Lemma tf_bwd sts f Ks ds Ss vs sts0 : bwd (np_lqt sts0 f) [seq VStage (np_stage s) | s <- sts] Ks ds Ss vs ->
  exists Ss0 vs0, [/\ foldr (@tf_bwd_body R n m p) (Some (tf_ST f, tf_vT f, ([::], [::], [::], [::]))) sts
      = Some (head 0 Ss, head 0 vs, (Ss0, vs0, Ks, ds)), Ss = Ss0 ++ [:: tf_ST f] & vs = vs0 ++ [:: tf_vT f]].
Proof.
elim: sts Ks ds Ss vs => [|s sts IH] Ks ds Ss vs B.
  by inversion B; exists [::], [::]; rewrite (ST_E sts0) (vT_E sts0).
have [K [d [Ks1 [ds1 [S1 [v1 [Ss1 [vs1 [[-> -> -> ->] [[ok1 sS1 pS1 WK Wd] B1]]]]]]]]]] := bwd_cons B.
have [Ss0 [vs0 [E e1 e2]]] := IH _ _ _ _ B1.
exists (S' (np_stage s) S1 K :: Ss0), (v' (np_stage s) S1 v1 K :: vs0); split; last by rewrite /= -e2.
  by rewrite /= E /= (tf_gainE ok1 sS1 pS1 WK Wd) /= S'_E v'_E.
by rewrite /= -e1.
Qed.

(** order of the results: S, v, K, d in TensorFlow; K, d, S, v in NumPy *)
Theorem tf_seq_backward_eq sts f : problem_ok (np_lqt sts f) ->
  exists Ks ds Ss vs, seqBackwardPass (np_lqt sts f) = Some (Ks, ds, Ss, vs) /\
    lqt_seq_backwardpass sts f = Some (Ss, vs, Ks, ds).
Proof.
case=> sX pX oks; have [Sv [v [Ks [ds [Ss [vs [E B sS pS]]]]]]] := bwd_ex (conj sX pX) oks.
exists Ks, ds, (Sv :: Ss), (v :: vs); split.
  by rewrite /seqBackwardPass -/(Sterm _) -/(vterm _) E.
by have [Ss0 [vs0 [E2 e1 e2]]] := tf_bwd B; rewrite /lqt_seq_backwardpass E2 /= -e1 -e2.
Qed.

Lemma tf_fwdE sts Ks ds x : size Ks = size sts -> size ds = size sts ->
  exists xs us, tf_fwd sts Ks ds x = Some (xs, us) /\ seq_fwd [seq VStage (np_stage s) | s <- sts] Ks ds x = Some (us, xs).
Proof.
elim: sts Ks ds x => [|s sts IH] [|K Ks] [|d ds] x //=; first by exists [::], [::].
case=> e1 [e2]; have [xs [us [E1 E2]]] := IH Ks ds (cF s *m x + cc s + cL s *m (- (K *m x) + d)) e1 e2.
by eexists; eexists; rewrite mulNmx E1 E2 /=.
Qed.

Theorem tf_seq_forward_eq sts f x0 Ks ds : sts <> [::] -> size Ks = size sts -> size ds = size sts ->
  exists xs us, seqForwardPass (np_lqt sts f) x0 Ks ds = Some (us, xs) /\ lqt_seq_forwardpass x0 sts Ks ds = Some (xs, us).
Proof.
move=> ne e1 e2; have [xs [us [E1 E2]]] := tf_fwdE x0 e1 e2.
exists (x0 :: xs), us; rewrite /seqForwardPass /lqt_seq_forwardpass E1 E2 /=.
by split => //; case: (sts) ne.
Qed.

(** ** parallel passes *)
Lemma comb_V_eq (e e' : elem R n) : lqt_par_comb_V e e' = combine_abcej e e'. Proof. by []. Qed.

Lemma tf_elemE s : stage_ok (np_stage s) -> tf_elem s = stage_elem (np_stage s).
Proof.
move=> ok; have pU := U_pd ok; have sU' : symm (cU s) by case: ok.
have uU := pd_unit pU; rewrite /= in pU uU.
rewrite /tf_elem /stage_elem /= !trmx1 !(mul1mx, mulmx1) !trmx0 !mul0mx.
rewrite !solve_unit ?unitmx1 //= solve_posE //= !mulmx0 !subr0 !addr0.
by rewrite !mulmxA.
Qed.
Lemma tf_elemsE sts : all_stages (fun t => stage_ok t) [seq VStage (np_stage s) | s <- sts] ->
  omap_seq (@tf_elem R n m p) sts = omap_seq (fun t : vstage R n m => stage_elem t) [seq VStage (np_stage s) | s <- sts].
Proof. by elim: sts => [//|s sts IH] [o1 o2] /=; rewrite tf_elemE // IH. Qed.

Lemma map_eta Ss vs : size Ss = size vs -> [seq eeta e | e <- zipv Ss vs] = vs /\ [seq eJ e | e <- (zipv Ss vs : seq (elem R n))] = Ss.
Proof. by elim: Ss vs => [|Sv Ss IH] [|v vs] //= [e]; have [-> ->] := IH vs e. Qed.

Lemma tf_gains_bwd sts f sts0 Ks ds Ss vs : bwd (np_lqt sts0 f) [seq VStage (np_stage s) | s <- sts] Ks ds Ss vs ->
  tf_gains sts (behead Ss) (behead vs) = Some (Ks, ds).
Proof.
elim: sts Ks ds Ss vs => [|s sts IH] Ks ds Ss vs B; first by inversion B.
have [K [d [Ks1 [ds1 [S1 [v1 [Ss1 [vs1 [[-> -> -> ->] [[ok1 sS1 pS1 WK Wd] B1]]]]]]]]]] := bwd_cons B.
by rewrite /= (tf_gainE ok1 sS1 pS1 WK Wd) /= (IH _ _ _ _ B1).
Qed.

Lemma lenE T (l : seq T) : length l = size l. Proof. by []. Qed.

Theorem tf_par_backward_eq sts f mp : problem_ok (np_lqt sts f) -> (size sts < (2 * mp).-1)%N ->
  exists Ks ds Ss vs, seqBackwardPass (np_lqt sts f) = Some (Ks, ds, Ss, vs) /\
    lqt_par_backwardpass sts f mp = Some (Ss, vs, Ks, ds).
Proof.
case=> sX pX oks lt; have [Sv [v [Ks [ds [Ss [vs [E B sS pS]]]]]]] := bwd_ex (conj sX pX) oks.
exists Ks, ds, (Sv :: Ss), (v :: vs); split.
  by rewrite /seqBackwardPass -/(Sterm _) -/(vterm _) E.
have [es [Ees [Fes sz]]] := elems_ok oks.
rewrite /lqt_par_backwardpass tf_elemsE // Ees /=.
have eT : tf_elem_last f = vel (Sterm (np_lqt sts f)) (vterm (np_lqt sts f)) by rewrite /tf_elem_last (ST_E sts) (vT_E sts).
rewrite cats1 eT (tfp_scan_rev_mp (@elem_ok R n)).
- rewrite (bwd_scanr B Ees) /=.
  have [_ _ s1 s2] := bwd_sizes B; move: s1 s2 => /= [s1] [s2].
  have [-> ->] := map_eta (etrans s1 (esym s2)).
  by have := tf_gains_bwd B => /= ->.
- exact: combine_closed.
- exact: combine_assoc.
- by apply/ssrnat.leP; case: (mp) lt => //; rewrite muln0.
- by case: (es).
- apply: forall_rcons => //; apply: vel_ok; first by apply: symm_cong.
  exact: psd_cong.
- apply/ssrnat.ltP; rewrite lenE size_rcons sz size_map multE; by move: lt; case: (2 * mp)%N.
Qed.

Lemma tf_mostE sts Ks ds : size Ks = size sts -> size ds = size sts ->
  exists es, [/\ tf_fwd_most sts Ks ds = Some es, par_fwd_elems [seq VStage (np_stage s) | s <- sts] Ks ds = Some es & size es = size sts].
Proof.
elim: sts Ks ds => [|s sts IH] [|K Ks] [|d ds] //=; first by exists [::].
by case=> e1 [e2]; have [es [-> -> sz]] := IH Ks ds e1 e2; eexists; split; [by []|by []|rewrite /= sz].
Qed.
Lemma tf_controlsE sts Ks ds x us xs : size Ks = size sts -> size ds = size sts ->
  seq_fwd [seq VStage (np_stage s) | s <- sts] Ks ds x = Some (us, xs) -> tf_controls Ks (x :: xs) ds = Some us.
Proof.
elim: sts Ks ds x us xs => [|s sts IH] [|K Ks] [|d ds] x us xs //=; first by move=> _ _ [<- <-].
case=> e1 [e2]; case E: (seq_fwd _ _ _ _) => [[us' xs']|//] [<- <-].
by rewrite (IH _ _ _ _ _ e1 e2 E) /= mulNmx.
Qed.

Theorem tf_par_forward_eq sts f x0 Ks ds mp : sts <> [::] -> size Ks = size sts -> size ds = size sts -> (size sts < 2 * mp)%N ->
  exists xs us, seqForwardPass (np_lqt sts f) x0 Ks ds = Some (us, xs) /\ lqt_par_forwardpass x0 sts Ks ds mp = Some (xs, us).
Proof.
move=> ne e1 e2 lt; have [xs [us [E1 E2]]] := tf_fwdE x0 e1 e2.
exists (x0 :: xs), us; split; first by rewrite /seqForwardPass /= E2.
have U := tf_controlsE e1 e2 E2.
case: sts Ks ds ne e1 e2 lt E1 E2 U => [//|s sts] [//|K Ks] [//|d ds] _ [e1] [e2] lt E1 E2 U.
have [es [M1 M2 sz]] := tf_mostE e1 e2.
rewrite /lqt_par_forwardpass M1 [obind _ (Some es)]/=.
have := fc_scanl [seq VStage (np_stage s) | s <- sts] Ks ds (cF s *m x0 + cc s + cL s *m (- K *m x0 + d)).
rewrite M2; case=> us' [xs' [F1 F2 F3]].
move: E2 => /=; rewrite F1 /= => -[eu ex].
have -> : (cF s - cL s *m K) *m x0 + cc s + cL s *m d = cF s *m x0 + cc s + cL s *m (- K *m x0 + d) by mxabel.
rewrite (tfp_scan_mp (fun _ => True)).
- rewrite F2 [obind _ (Some _)]/=.
  have -> : [seq e.2 | e <- [seq (0 : 'M[R]_n, y) | y <- xs']] = xs' by rewrite -map_comp; exact: map_id.
  by move: U; rewrite ex /= => ->.
- exact: fc_closed.
- exact: fc_assoc.
- by apply/ssrnat.leP; case: (mp) lt => //; rewrite muln0.
- by [].
- exact: forall_T.
- by apply/ssrnat.ltP; rewrite lenE sz multE.
Qed.

(** the loop of parFwdBwdPass_extract computes states and controls separately *)
Lemma fb_split (es : seq (elem R n)) (Ks : seq 'M[R]_(m, n)) ds Ss vs us xs : size Ss = size es -> size vs = size es -> size es = (size Ks).+1 -> size ds = size Ks ->
  fb_extract Ks ds Ss vs es = Some (us, xs) ->
  tf_fb_states es Ss vs = Some xs /\ tf_controls Ks xs ds = Some us.
Proof.
elim: es Ks ds Ss vs us xs => [|e es IH] Ks ds [|Sv Ss] [|v vs] us xs // [e1] [e2] [e3] e4.
case: es IH e1 e2 e3 => [|e' es] IH e1 e2 e3; case: Ks e3 e4 => [|K Ks] //.
  move=> _; case: ds => // _ /=; case: (solve _ _) => [x|] //= -[<- <-].
  by case: Ss e1 => // _; case: vs e2.
move=> [e3]; case: ds => // d ds [e4].
rewrite [fb_extract _ _ _ _ _]/=.
have T1 : tf_fb_states [:: e, e' & es] (Sv :: Ss) (v :: vs) =
  let? x := solve (1%:M + eC e *m Sv) (eb e + eC e *m v) in let? xs := tf_fb_states (e' :: es) Ss vs in Some (x :: xs) by [].
rewrite T1; case: (solve _ _) => [x|] //.
case E: (fb_extract Ks _ _ _ _) => [[us' xs']|] // -[<- <-].
by have [E1 U] := IH Ks ds Ss vs us' xs' e1 e2 (congr1 S e3) e4 E; rewrite /= in E1 *; rewrite E1 /= U /= mulNmx.
Qed.

Theorem tf_fwdbwd_eq sts f x0 Ks ds Ss vs mp : problem_ok (np_lqt sts f) -> sts <> [::] -> (size sts < (2 * mp).-1)%N ->
  seqBackwardPass (np_lqt sts f) = Some (Ks, ds, Ss, vs) ->
  exists xs us, seqForwardPass (np_lqt sts f) x0 Ks ds = Some (us, xs) /\
    lqt_par_fwdbwdpass x0 sts Ss vs Ks ds mp = Some (xs, us).
Proof.
case=> sX pX oks ne lt; have okT := conj sX pX.
have [Sv [v [Ks' [ds' [Ss' [vs' [E B sS pS]]]]]]] := bwd_ex okT oks.
rewrite /seqBackwardPass -/(Sterm _) -/(vterm _) E => -[<- <- <- <-] {Ks ds Ss vs}.
have [es [Ees [Fes sz]]] := elems_ok oks.
have [c H] := bwd_opt okT B.
have [us [xs [E2 _ _ _ _]]] := H x0.
exists (x0 :: xs), us; split; first by rewrite /seqForwardPass E2.
have o0 : elem_ok (Elem 0 x0 0 0 0 : elem R n) by split; try exact: symm0; exact: psd0.
have r0 : rel (Elem 0 x0 0 0 0 : elem R n) 0 0 x0 (Sv *m x0 - v).
  by rewrite /rel /= !mulmx0 trmx0 !mul0mx add0r !subr0 addr0.
have [rs [Er1 Er2]] := fb_loop okT B Ees o0 r0 E2.
rewrite /lqt_par_fwdbwdpass tf_elemsE // Ees [obind _ (Some es)]/=.
rewrite (tfp_scan_mp (@elem_ok R n)) //.
- rewrite Er1 obindS.
  have [L _] := scanl_o_spec (@combine_abcej R n) es _ _ Er1; rewrite !lenE /= in L; case: L => L.
  have [s1 s2 [s3] [s4]] := bwd_sizes B; rewrite /= in s1 s2 s3 s4.
  have [-> U] := fb_split (es := Elem 0 x0 0 0 0 :: rs) (Ss := Sv :: Ss') (vs := v :: vs')
    (etrans (congr1 S s3) (congr1 S (esym (etrans L sz)))) (etrans (congr1 S s4) (congr1 S (esym (etrans L sz))))
    (congr1 S (etrans L (etrans sz (esym s1)))) (etrans s2 (esym s1)) Er2.
  by rewrite obindS U.
- exact: combine_closed.
- exact: combine_assoc.
- by apply/ssrnat.leP; case: (mp) lt => //; rewrite muln0.
- apply/ssrnat.ltP; rewrite lenE sz size_map multE; by move: lt; case: (2 * mp)%N.
Qed.

(** ** cost *)
Lemma sum_qf k (A : 'M[R]_k) (x : 'cV[R]_k) : \sum_i (A *m x) i 0 * x i 0 = qf A x.
Proof. by rewrite qf_dot /dot /sc mxE; apply: eq_bigr => i _; rewrite !mxE mulrC. Qed.
Lemma tf_runE sts f us x : size us = size sts -> exists a b,
  tf_run sts (traj [seq VStage (np_stage s) | s <- sts] x us) us = Some (a, b) /\
  cost_to_go (np_lqt sts f) [seq VStage (np_stage s) | s <- sts] x us =
    final_cost (np_lqt sts f) (last x (traj [seq VStage (np_stage s) | s <- sts] x us)) + a / 2%:R + b / 2%:R.
Proof.
have FE (l l' : seq (cstage R n m p)) y : final_cost (np_lqt l f) y = final_cost (np_lqt l' f) y by [].
have CE l l' : forall (r : seq (vstage R n m)) y u, cost_to_go (np_lqt l f) r y u = cost_to_go (np_lqt l' f) r y u.
  by elim=> [//|r0 r IH] y [|u0 u] //=; rewrite IH.
elim: sts us x => [|s sts IH] [|u us] x //=.
  by move=> _; exists 0, 0; split => //; rewrite mul0r !addr0.
case=> sz; have [a [b [E1 E2]]] := IH us (next (np_stage s) x u) sz.
have [y [t Ey]] : exists y t, traj [seq VStage (np_stage s) | s <- sts] (next (np_stage s) x u) us = y :: t.
  by case: (sts) (us) => [|? ?] [|? ?] /=; eexists; eexists.
exists (qf (cX s) (cH s *m x - cr s) + a), (qf (cU s) u + b).
rewrite E1 /= !sum_qf; split=> //.
rewrite (CE (s :: sts) sts) E2 (FE (s :: sts) sts) Ey /= /stage_cost /= mul1mx subr0 mul0mx dot0r.
by sfield.
Qed.
Theorem tf_cost_eq sts f us x : size us = size sts ->
  tf_lqt_cost (traj [seq VStage (np_stage s) | s <- sts] x us) us sts f = Some (total_cost (np_lqt sts f) x us).
Proof.
move=> sz; have [a [b [E1 E2]]] := tf_runE f x sz.
have [t Ey] : exists t, traj [seq VStage (np_stage s) | s <- sts] x us = x :: t.
  by case: (sts) (us) => [|? ?] [|? ?] /=; eexists.
rewrite /total_cost E2 /tf_lqt_cost E1 Ey /= sum_qf /final_cost /=; congr Some.
by sfield.
Qed.

(** ** general cost *)
Lemma gen_canonE (s : stage R n m p) : stage_ok s -> sZ s = 1%:M ->
  exists c, lqt_gen_to_canon1 s = Some c /\ np_stage c = tst s.
Proof.
move=> ok Z1; have pU := U_pd ok; have sU' : symm (sU s) by case: ok.
rewrite /lqt_gen_to_canon1 /chol_solve sU' !solve_posE //=; eexists; split; first by [].
by rewrite /np_stage /tst /= !mulmxA mulmxDr addrA !mulmxA.
Qed.
Theorem tf_gen_canon (sts : seq (stage R n m p)) f : problem_ok (gen_lqt sts f) ->
  all_stages (fun t => sZ t = 1%:M) (stages (gen_lqt sts f)) ->
  exists cs Ks ds Ss vs Ks' ds',
  [/\ lqt_gen_to_canon sts = Some cs, lqt_seq_backwardpass cs f = Some (Ss, vs, Ks, ds),
      lqt_canon_to_gen Ks ds sts = Some (Ks', ds') & seqBackwardPass (gen_lqt sts f) = Some (Ks', ds', Ss, vs)] /\
  problem_ok (np_lqt cs f).
Proof.
case=> sX pX oks Z1.
have [cs [Ec Em]] : exists cs, lqt_gen_to_canon sts = Some cs /\ [seq VStage (np_stage c) | c <- cs] = [seq tstv t | t <- stages (gen_lqt sts f)].
  elim: (sts) oks Z1 => [|s l IH] /=; first by exists [::].
  case=> o1 o2 [z1 z2]; have [c [E1 E2]] := gen_canonE o1 z1; have [cs [E3 E4]] := IH o2 z2.
  exists (c :: cs); rewrite /lqt_gen_to_canon /= in E3 *; rewrite E1 /= E3; split=> //=.
  by rewrite E4 E2.
have oks' : all_stages (fun t => stage_ok t) [seq VStage (np_stage c) | c <- cs].
  by rewrite Em; elim: (stages _) oks => [//|s l IH] [o1 o2] /=; split; [exact: tst_ok | exact: IH].
have okc : problem_ok (np_lqt cs f) by split.
have [Sv' [v' [Ks' [ds' [Ss' [vs' [E' B' _ _]]]]]]] := @bwd_ex R n m (np_lqt cs f) (conj sX pX) _ oks'.
have B2 := B'; rewrite /= Em in B2.
have [K1s [d1s [Eb B3]]] := @trans_list R n m (gen_lqt sts f) (np_lqt cs f) _ erefl erefl oks Z1 _ _ _ _ B2.
have [Ss0 [vs0 [E2 e1 e2]]] := tf_bwd B'.
exists cs, Ks', ds', (Sv' :: Ss'), (v' :: vs'), K1s, d1s; split => //; split => //.
- by rewrite /lqt_seq_backwardpass E2 /= -e1 -e2.
- have [s1 s2 _ _] := bwd_sizes B2; rewrite size_map in s1 s2.
  rewrite -Eb {Eb B3 B2 B' E' E2 e1 e2 Em Ec okc}.
  elim: (sts) Ks' ds' oks Z1 s1 s2 => [|s l IH] [|K Ks] [|d ds] //= [o1 o2] [z1 z2] [s1] [s2].
  have pU := U_pd o1; have sU' : symm (sU s) by case: o1.
  rewrite /chol_solve sU' !solve_posE //= IH // /trans_back solve_unit ?(pd_unit pU) //=.
  by case: (trans_back_list _ _ _) => [[a b]|] //=; rewrite mulmx1 !mulmxA.
- by rewrite /seqBackwardPass -/(Sterm _) -/(vterm _) (bwd_fold B3).
Qed.
End Tf.
