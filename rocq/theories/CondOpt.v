(** Condensing: the condensed problem is admissible, its solution solves the original problem, and when condense returns. *)
From Coq Require Import Ring Field.
From mathcomp Require Import all_ssreflect all_algebra.
From Verif Require Import MxBase LqtModel LqtSpec LqtCore LqtProofs CondModel CondSpec CondProofs CondMain.
Import Order.TTheory GRing.Theory Num.Theory.
Set Implicit Arguments. Unset Strict Implicit. Unset Printing Implicit Defensive.
Local Open Scope ring_scope.

Section Opt.
Variable R : realFieldType.
Add Ring Rr : (mc_ring R).
Variables n m p q N : nat.
Notation ostage := (stage R n m p).
Notation cblock := (cblock R n m N).
Implicit Types (sts b : seq ostage) (bs : seq cblock).
Variables (XT : 'M[R]_q) (HT : 'M[R]_(q, n)) (rT : 'cV[R]_q).

(** weights *)
Definition weights (s : ostage) := psd (sX s) /\ pd (sU s).
Lemma ok_weights (s : ostage) : default_ZsM s -> stage_ok s -> symmetric_weights s /\ weights s.
Proof.
case=> Z s0 M [sx su ps pu]; split=> //; split=> [e|w nz]; last by have := pu _ nz; rewrite Z mul1mx.
by have := ps e 0; rewrite qf0 M mul0mx dot0r mul0rn !addr0.
Qed.
Lemma ok_sts sts : every (default_ZsM (p:=p)) sts -> all_stages (fun s => stage_ok s) [seq VStage s | s <- sts] ->
  every (@symmetric_weights R n m p) sts /\ every weights sts.
Proof. by elim: sts => //= s sts IH [d ds] [o os]; have [? ?] := ok_weights d o; have [? ?] := IH ds os. Qed.

Lemma vblk0 d i : vblk N i (0 : 'cV[R]_(N * d)) = 0.
Proof.
elim: N i => [|k IH] [|i] //=; first by apply/colP => j; rewrite !mxE.
rewrite (_ : dsubmx _ = 0) ?IH //; by apply/colP => j; rewrite !mxE.
Qed.
Lemma visible_ex (b : seq ostage) (A : 'M[R]_n) x : visible b (A *m x) ->
  exists2 i, (i < size b)%N & 0 < qf (sX (st b i)) (sH (st b i) *m (foldl (fun A s => sF s *m A) A (take i b) *m x)).
Proof.
elim: b A => [|s b IH] A //= [H|H]; first by exists 0%N.
by rewrite mulmxA in H; have [i lt Hi] := IH _ H; exists i.+1.
Qed.
Lemma stack_neq0 d (u : 'cV[R]_(N * d)) : u != 0 -> exists2 i, (i < N)%N & vblk N i u != 0.
Proof.
move=> nz; case: (boolP [exists i : 'I_N, vblk N i u != 0]) => [/existsP [i]|]; first by exists i.
rewrite negb_exists => /forallP H; case/negP: nz; rewrite -(vstack_blk u).
rewrite (@vstack_ext _ _ _ _ _ (fun _ => 0)); last by move=> i lt; have /negPn /eqP := H (Ordinal lt).
rewrite -(vstack_blk (0 : 'cV[R]_(N * d))); apply/eqP; apply: vstack_ext => i lt; by rewrite vblk0.
Qed.

Section Block.
Variable b : seq ostage.
Hypothesis g : good N b.
Hypothesis W : every weights b.
Definition hom x (u : 'cV[R]_(N * m)) i : 'cV[R]_n := Ftmp b i *m x + \sum_(0 <= j < N) Lrow b i j *m vblk N j u.
Lemma qf_XUM x u : qf (XUM N b) (col_mx x u) =
  \sum_(0 <= i < N) qf (sX (st b i)) (sH (st b i) *m hom x u i) + \sum_(0 <= i < N) qf (sU (st b i)) (vblk N i u).
Proof.
rewrite /XUM qfM /transm mul_block_col mul0mx mul1mx add0r.
have -> : Hbar N b *m Lambda N b *m x + Hbar N b *m Lbar N b *m u = vstack N (fun i => sH (st b i) *m hom x u i).
  rewrite /Hbar -bdiagM -!mulmxA -mulmxDr -{1}(vstack_blk u) /Lambda /Lbar !vstackM vstackD; congr (_ *m _).
  by apply: vstack_ext => i lt; rewrite hstackM.
by rewrite /XUbar qf_block -{2}(vstack_blk u) !qf_bdiag.
Qed.
Lemma st_weights i : (i < N)%N -> weights (st b i).
Proof. by case: g => sz _ _ lt; apply: every_st => //; rewrite sz. Qed.
Lemma sumX_ge0 x u : 0 <= \sum_(0 <= i < N) qf (sX (st b i)) (sH (st b i) *m hom x u i).
Proof. rewrite big_nat; apply: sumr_ge0 => i lt; by have [ps _] := st_weights lt; apply: ps. Qed.
Lemma sumU_ge0 (u : 'cV[R]_(N * m)) : 0 <= \sum_(0 <= i < N) qf (sU (st b i)) (vblk N i u).
Proof. rewrite big_nat; apply: sumr_ge0 => i lt; have [_ ps] := st_weights lt; exact: pd_psd. Qed.
Lemma sumU_gt0 (u : 'cV[R]_(N * m)) : u != 0 -> 0 < \sum_(0 <= i < N) qf (sU (st b i)) (vblk N i u).
Proof.
move=> nz; have [i lt ni] := stack_neq0 nz.
rewrite (bigD1_seq i) ?mem_index_iota ?iota_uniq //=; apply: ltr_paddr.
  rewrite big_seq_cond; apply: sumr_ge0 => j; rewrite mem_index_iota => /andP[/andP[_ lj] _].
  by have [_ ps] := st_weights lj; exact: pd_psd.
by have [_ pu] := st_weights lt; exact: pu.
Qed.
Lemma cstg_ok (c : cblock) : fin_np (N:=N) b (fun A B => solve A B) = Some c -> stage_ok (cstg c).
Proof.
rewrite /fin_np /finish -/(transm _ _ _) -/(XUM N b); case: (solve _ _) => [rs|] //= [<-].
have [sz Hd Hs] := g; have S := XUM_symm sz Hs; split=> /=.
- by rewrite /symm trmx_ulsub S.
- by rewrite /symm trmx_drsub S.
- by move=> e w; rewrite -(qf_sub _ _ S) qf_XUM addr_ge0 ?sumX_ge0 ?sumU_ge0.
- move=> u nz; rewrite mul1mx.
  have := qf_sub 0 u S; rewrite qf0 dot0l mul0rn addr0 add0r => <-.
  by rewrite qf_XUM; apply: ltr_paddl; [exact: sumX_ge0 | exact: sumU_gt0].
Qed.
Lemma XUM_pd : (forall x, x != 0 -> visible b x) -> pd (XUM N b).
Proof.
move=> V z; rewrite -(vsubmxK z); set x := usubmx z; set u := dsubmx z => nz.
rewrite qf_XUM; case: (eqVneq u 0) => [u0|un]; last by apply: ltr_paddl; [exact: sumX_ge0 | exact: sumU_gt0].
have xn : x != 0 by apply: contra nz => /eqP ->; rewrite u0 col_mx0.
apply: ltr_paddr; first exact: sumU_ge0.
have [i lt pos] : exists2 i, (i < N)%N & 0 < qf (sX (st b i)) (sH (st b i) *m (Ftmp b i *m x)).
  by have [sz _ _] := g; rewrite -sz; apply: visible_ex; rewrite mul1mx; apply: V.
rewrite (bigD1_seq i) ?mem_index_iota ?iota_uniq //=; apply: ltr_paddr.
  rewrite big_seq_cond; apply: sumr_ge0 => j; rewrite mem_index_iota => /andP[/andP[_ lj] _].
  by have [ps _] := st_weights lj; exact: ps.
rewrite /hom u0 big1 ?addr0 // => j _; by rewrite vblk0 mulmx0.
Qed.
End Block.

Lemma weights_padded sts : every weights sts -> every weights (padded N sts).
Proof.
move=> W; rewrite paddedE every_cat; split=> //; apply: every_nseq; split; [exact: psd0 | exact: pd1].
Qed.
Lemma weights_blocks sts : (0 < N)%N -> every weights sts -> every (every weights) (blocks N (padded N sts)).
Proof.
move=> N0 W; have [F _ _] := blocks_flat N0 (dvd_padded N0 sts).
by rewrite -every_flatten F; apply: weights_padded.
Qed.
Lemma stages_ok_blocks bl bs : every (fun b => good N b /\ every weights b) bl ->
  omap_list (fun b => fin_np (N:=N) b (fun A B => solve A B)) bl = Some bs -> all_stages (fun s => stage_ok s) (cstages bs).
Proof.
elim: bl bs => [|b bl IH] bs /=; first by move=> _ [<-].
case=> -[g W] r; case F: (fin_np b _) => [c|] //=; case O: (omap_list _ _) => [cs|] //= [<-].
split; [exact: (cstg_ok g W F) | exact: IH r O].
Qed.
Lemma cond_ok sts bs : every (default_ZsM (p:=p)) sts -> problem_ok (problem sts XT HT rT) ->
  condense_tf N sts = Some bs -> problem_ok (condensed bs XT HT rT).
Proof.
move=> Hd [sT pT ok] E; have [Hs W] := ok_sts Hd ok; have [N0 ne E'] := condense_tfE Hd Hs E.
by split=> //; apply: stages_ok_blocks E'; apply: every_and; [apply: good_blocks | apply: weights_blocks].
Qed.
Lemma half_squares_ge0 d (us : seq 'cV[R]_d) : 0 <= half_squares us.
Proof. by apply: divr_ge0; [apply: sumr_ge0 => u _; exact: dot_ge0 | exact: ler0n]. Qed.
Lemma half_squares0 d k : half_squares (nseq k (0 : 'cV[R]_d)) = 0.
Proof. by rewrite /half_squares; elim: k => [|k IH]; rewrite ?big_nil ?big_cons ?dot0l ?add0r // mul0r. Qed.
Lemma transfer sts bs conv x0 cus : exact_condensing sts bs XT HT rT conv ->
  unique_minimiser (condensed bs XT HT rT) x0 cus ->
  let us := take (size sts) (unroll cus) in
  [/\ unique_minimiser (problem sts XT HT rT) x0 us,
      unroll cus = us ++ nseq (size (unroll cus) - size sts) 0 &
      conv cus (traj (stages (condensed bs XT HT rT)) x0 cus) = Some (us, traj (stages (problem sts XT HT rT)) x0 us)].
Proof.
case=> _ onto [k ex] [szc opt] us; have [sus cv _ cost] := ex x0 cus szc; split=> //.
  split; first by rewrite /problem /= size_map.
  rewrite /= size_map => us' su' ne.
  have [cus' sc' uc'] := onto us' su'; have [_ _ _] := ex x0 cus' sc'.
  rewrite uc' take_size_cat // drop_size_cat // half_squares0 addr0 => cost'.
  have ne' : cus' <> cus by move=> e; apply: ne; rewrite /us -e uc' take_size_cat.
  have := opt _ sc' ne'; rewrite cost cost' ltr_add2r; apply: le_lt_trans.
  by rewrite ler_addl half_squares_ge0.
have [cus' sc' uc'] := onto us sus; have [_ _ _] := ex x0 cus' sc'.
rewrite uc' take_size_cat // drop_size_cat // half_squares0 addr0 => cost'.
have := congr1 size uc'; rewrite (size_unroll cus') sc' -szc -(size_unroll cus) => s2.
case: (cus' =P cus) => [e|ne]; first by rewrite -{1}e uc' size_unroll szc.
have := opt _ sc' ne; rewrite cost cost' ltr_add2r => /lt_geF; by rewrite ler_addl half_squares_ge0.
Qed.
(** solving through the condensed problem *)
Lemma solve_condensed sts bs conv x0 : every (default_ZsM (p:=p)) sts -> problem_ok (problem sts XT HT rT) ->
  condense_tf N sts = Some bs -> exact_condensing sts bs XT HT rT conv ->
  let C := condensed bs XT HT rT in
  exists Ks ds Ss vs cus cxs us xs,
  [/\ seqBackwardPass C = Some (Ks, ds, Ss, vs), seqForwardPass C x0 Ks ds = Some (cus, cxs), conv cus cxs = Some (us, xs),
      unique_minimiser (problem sts XT HT rT) x0 us & xs = traj (stages (problem sts XT HT rT)) x0 us].
Proof.
move=> Hd ok E ex C; have okC := cond_ok Hd ok E.
have [Ks [ds [Ss [vs [cus [cxs [B F U X _]]]]]]] := seq_optimal x0 okC.
have [U' _ cv] := transfer ex U; rewrite -X in cv.
by exists Ks, ds, Ss, vs, cus, cxs; eexists; eexists; split; [exact: B | exact: F | exact: cv | exact: U' |].
Qed.

Lemma every_map_iota A (Q : A -> Prop) (f : nat -> A) a k : (forall i, (a <= i < a + k)%N -> Q (f i)) -> every Q [seq f i | i <- iota a k].
Proof.
elim: k a => //= k IH a H; split; first by apply: H; rewrite leqnn -addSnnS leq_addr.
by apply: IH => i /andP[l1 l2]; apply: H; rewrite (ltnW l1) -addSnnS.
Qed.
Lemma visible_cat (b1 b2 : seq ostage) x : visible b1 x -> visible (b1 ++ b2) x.
Proof. by elim: b1 x => [|s b1 IH] x //= [H|H]; [left | right; apply: IH]. Qed.
Lemma omap_some A B (f : A -> option B) l : every (fun a => f a <> None) l -> omap_list f l <> None.
Proof.
elim: l => //= a l IH [fa fl]; case E: (f a) fa => [c|] //= _.
by case O: (omap_list f l) (IH fl).
Qed.
Lemma visible_blocks sts : (0 < N)%N ->
  (forall i, (i * N < size sts)%N -> forall x, x != 0 -> visible (take N (drop (i * N) sts)) x) ->
  every (fun b => forall x, x != 0 -> visible b x) (blocks N (padded N sts)).
Proof.
move=> N0 H; apply: every_map_iota => i; rewrite add0n => /andP[_ lt] x nz.
have lt' : (i * N < size sts)%N.
  have : (i.+1 * N <= size (padded N sts))%N by rewrite -(divnK (dvd_padded N0 sts)) leq_mul2r lt orbT.
  rewrite paddedE size_cat size_nseq mulSn => le.
  have := npad_lt N0 sts; rewrite -(ltn_add2l (size sts)) => /(leq_ltn_trans le); by rewrite addnC ltn_add2r.
rewrite mulnC paddedE drop_cat lt' take_cat; case: ltnP => le; first exact: H.
apply: visible_cat; rewrite -(take_oversize le); exact: H.
Qed.
Lemma condense_defined sts : (0 < N)%N -> sts <> [::] -> every (default_ZsM (p:=p)) sts ->
  all_stages (fun s => stage_ok s) [seq VStage s | s <- sts] ->
  (forall i, (i * N < size sts)%N -> forall x, x != 0 -> visible (take N (drop (i * N) sts)) x) ->
  condense N sts <> None.
Proof.
move=> N0 ne Hd ok V; have [Hs W] := ok_sts Hd ok.
rewrite /condense gtn_eqF //= (_ : size sts == 0%N = false); last by case: (sts) ne.
apply: omap_some.
apply: every_imp (every_and (good_blocks N0 Hd Hs) (every_and (weights_blocks N0 W) (visible_blocks N0 V))).
move=> b [g [Wb Vb]]; have [sz _ Sb] := g.
rewrite /condense_block /finish -/(transm _ _ _) -/(XUM N b).
by rewrite solve_posE //; [exact: XUM_symm | exact: XUM_pd].
Qed.

(** the converse: an invisible start state makes the weight singular *)
Lemma visible_pads k x : ~ visible (nseq k (pad_stage R n m p)) x.
Proof. by elim: k x => [|k IH] x //= [|/IH //]; rewrite mul0mx qf0 ltxx. Qed.
Lemma visible_cat_pads b k x : visible (b ++ nseq k (pad_stage R n m p)) x -> visible b x.
Proof. by elim: b x => [|s b IH] x /=; [move/visible_pads | case=> [H|/IH H]; [left|right]]. Qed.
Lemma visible_of_ex b (A : 'M[R]_n) x i : (i < size b)%N ->
  0 < qf (sX (st b i)) (sH (st b i) *m (foldl (fun A s => sF s *m A) A (take i b) *m x)) -> visible b (A *m x).
Proof.
elim: b A i => [|s b IH] A [|i] //= lt H; first by left.
by right; rewrite mulmxA; apply: IH H.
Qed.
Lemma XUM_not_pd b x : good N b -> every weights b -> x != 0 -> ~ visible b x -> ~ pd (XUM N b).
Proof.
move=> g W nz V P; have nz' : col_mx x (0 : 'cV[R]_(N * m)) != 0.
  by apply: contra nz => /eqP e; rewrite -(col_mxKu x (0 : 'cV[R]_(N * m))) e linear0.
have := P _ nz'; rewrite qf_XUM // [X in _ + X]big1 ?addr0 => [|i _]; last by rewrite vblk0 qf0.
rewrite big_nat big1 ?ltxx // => i lt; have [sz _ _] := g.
have [ps _] := st_weights g W lt.
have -> : hom b x 0 i = Ftmp b i *m x by rewrite /hom big1 ?addr0 // => j _; rewrite vblk0 mulmx0.
apply/eqP; rewrite eq_le ps andbT leNgt; apply/negP => H; apply: V.
rewrite -(mul1mx x); apply: (visible_of_ex (i := i)); [by rewrite sz | exact: H].
Qed.
Lemma take_nseq_ex A k j (a : A) : exists j', take k (nseq j a) = nseq j' a.
Proof.
elim: j k => [|j IH] [|k] /=; try by exists 0%N.
by have [j' ->] := IH k; exists j'.+1.
Qed.
Lemma omap_every A B (f : A -> option B) l : omap_list f l <> None -> every (fun a => f a <> None) l.
Proof.
elim: l => //= a l IH; case E: (f a) => [c|] //=; case O: (omap_list f l) => [cs|] //= _.
by split=> //; apply: IH; rewrite O.
Qed.
Lemma every_iota A (Q : A -> Prop) (f : nat -> A) a k i : every Q [seq f i | i <- iota a k] -> (a <= i < a + k)%N -> Q (f i).
Proof.
elim: k a => [|k IH] a /=; first by rewrite addn0 => _ /andP[l1 l2]; move: (leq_trans l2 l1); rewrite ltnn.
case=> qa r; case/andP; rewrite leq_eqVlt => /orP[/eqP <- //|l1] l2; apply: IH r _.
by rewrite l1 addSnnS.
Qed.
Lemma condense_needs sts : (0 < N)%N -> every (default_ZsM (p:=p)) sts ->
  all_stages (fun s => stage_ok s) [seq VStage s | s <- sts] -> condense N sts <> None ->
  forall i, (i * N < size sts)%N -> forall x, x != 0 -> ~ ~ visible (take N (drop (i * N) sts)) x.
Proof.
move=> N0 Hd ok def i lt x nz V; have [Hs W] := ok_sts Hd ok.
move: def; rewrite /condense; case: ifP => // _ /omap_every H.
have lti : (i < size (padded N sts) %/ N)%N.
  rewrite -(ltn_pmul2r N0) (divnK (dvd_padded N0 sts)) paddedE size_cat ltn_addr //.
have [] := every_iota (every_and H (every_and (good_blocks N0 Hd Hs) (weights_blocks N0 W))) (i := i); first by rewrite add0n.
set b := take _ _ => Hb [g Wb]; have [sz _ Sb] := g.
apply: (XUM_not_pd g Wb nz).
  rewrite /b mulnC paddedE drop_cat lt take_cat; case: ltnP => le // H'; apply: V.
  rewrite take_oversize //; move: H'; have [j ->] := take_nseq_ex (N - size (drop (i * N) sts)) (npad N sts) (pad_stage R n m p).
  exact: visible_cat_pads.
move: Hb; rewrite /condense_block /finish -/(transm _ _ _) -/(XUM N b).
case E: (solve_pos _ _) => [rs|] //= _; by have [] := solve_pos_eq (XUM_symm sz Sb) E.
Qed.
Lemma visible_nn b x : ~ ~ visible b x -> visible b x.
Proof.
have [V|V nn] : visible b x \/ ~ visible b x; [|by []|by case: nn].
elim: b x => [|s b IH] x /=; first by right.
case: (boolP (0 < qf (sX s) (sH s *m x))) => [H|/negP H]; first by left; left.
by case: (IH (sF s *m x)) => [V|V]; [left; right | right => -[]].
Qed.
Lemma condense_iff sts : (0 < N)%N -> sts <> [::] -> every (default_ZsM (p:=p)) sts ->
  all_stages (fun s => stage_ok s) [seq VStage s | s <- sts] ->
  condense N sts <> None <->
  forall i, (i * N < size sts)%N -> forall x, x != 0 -> visible (take N (drop (i * N) sts)) x.
Proof.
move=> N0 ne Hd ok; split; last exact: condense_defined.
by move=> H i lt x nz; apply: visible_nn; apply: condense_needs lt x nz.
Qed.
(** end to end, with the definitions of the code *)
Lemma np_end_to_end sts bs x0 : every (default_ZsM (p:=p)) sts -> problem_ok (problem sts XT HT rT) ->
  condense N sts = Some bs -> let C := condensed bs XT HT rT in
  problem_ok C /\
  exists Ks ds Ss vs cus cxs us xs,
  [/\ seqBackwardPass C = Some (Ks, ds, Ss, vs), seqForwardPass C x0 Ks ds = Some (cus, cxs),
      convertUX N (size sts) bs cus cxs = Some (us, xs),
      unique_minimiser (problem sts XT HT rT) x0 us & xs = traj (stages (problem sts XT HT rT)) x0 us].
Proof.
move=> Hd ok E C; have [sT pT os] := ok; have [Hs W] := ok_sts Hd os.
have [N0 ne E1] := condenseE Hd Hs E; split; first exact: cond_ok E1.
exact: (solve_condensed x0 Hd ok E1 (exact_np XT HT rT Hd Hs E)).
Qed.
Lemma tf_end_to_end sts bs x0 : every (default_ZsM (p:=p)) sts -> problem_ok (problem sts XT HT rT) ->
  condense_tf N sts = Some bs -> let C := condensed bs XT HT rT in
  problem_ok C /\
  exists Ks ds Ss vs cus cxs us xs,
  [/\ seqBackwardPass C = Some (Ks, ds, Ss, vs), seqForwardPass C x0 Ks ds = Some (cus, cxs),
      convertUX_tf N (size sts) bs cus cxs = Some (us, xs),
      unique_minimiser (problem sts XT HT rT) x0 us & xs = traj (stages (problem sts XT HT rT)) x0 us].
Proof.
move=> Hd ok E C; have [sT pT os] := ok; have [Hs W] := ok_sts Hd os.
split; first exact: cond_ok E.
exact: (solve_condensed x0 Hd ok E (exact_tf XT HT rT Hd Hs E)).
Qed.
Lemma tf_agrees sts bs : every (default_ZsM (p:=p)) sts -> every (@symmetric_weights R n m p) sts ->
  condense N sts = Some bs -> condense_tf N sts = Some bs.
Proof. by move=> Hd Hs E; have [] := condenseE Hd Hs E. Qed.
End Opt.
