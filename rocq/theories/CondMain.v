(** Condensing: main lemmas. *)
From Coq Require Import Ring Field.
From mathcomp Require Import all_ssreflect all_algebra.
From Verif Require Import MxBase LqtModel LqtSpec LqtCore CondModel CondSpec CondProofs.
Import Order.TTheory GRing.Theory Num.Theory.
Set Implicit Arguments. Unset Strict Implicit. Unset Printing Implicit Defensive.
Local Open Scope ring_scope.

Lemma take_cat_take A T (l c : seq A) : take T (take T l ++ c) = take T (l ++ c).
Proof.
case: (leqP (size l) T) => le; first by rewrite (take_oversize le).
by rewrite take_cat size_takel ?(ltnW le) // ltnn subnn take0 cats0 take_cat le.
Qed.

Section Convert.
Variable R : realFieldType.
Variables n m N : nat.
Notation cblock := (cblock R n m N).
Lemma conv_inner T (u : 'cV[R]_(N * m)) (y : 'cV[R]_(N * n)) js acc : size acc.1 = size acc.2 -> (size acc.1 <= T)%N ->
  foldl (fun a j => if (size a.1 < T)%N then (rcons a.1 (vblk N j u), rcons a.2 (vblk N j y)) else a) acc js =
  (take T (acc.1 ++ [seq vblk N j u | j <- js]), take T (acc.2 ++ [seq vblk N j y | j <- js])).
Proof.
elim: js acc => [|j js IH] [ul xl] /= E le; first by rewrite !cats0 !take_oversize // -E.
case: ltnP => lt.
  by rewrite IH /= ?size_rcons ?E // ?cat_rcons // -E.
have sT : size ul = T by apply/eqP; rewrite eqn_leq le lt.
by rewrite IH //= !take_size_cat // -E.
Qed.
Lemma conv_loopE T (bs : seq cblock) us xs acc : (size us <= size bs)%N -> (size us <= size xs)%N ->
  size acc.1 = size acc.2 -> (size acc.1 <= T)%N ->
  conv_loop T bs us xs acc = Some (take T (acc.1 ++ unroll us), take T (acc.2 ++ unroll (ystates bs xs us))).
Proof.
elim: us bs xs acc => [|u us IH] bs xs [ul xl].
  move=> _ _ E le; have -> : ystates bs xs [::] = [::] by rewrite /ystates; case: xs => [|x xs]; case: bs.
  rewrite /unroll /= !cats0 !take_oversize //; [by case: (bs) | by move: E le => /= ->].
case: bs xs => [|b bs] [|x xs] //.
move=> l1 l2 E le; rewrite [LHS]/= conv_inner //= IH //=; first last.
- by rewrite size_take; case: ltnP.
- by rewrite !size_take !size_cat !size_map E.
by rewrite !unroll_cons !take_cat_take -!catA.
Qed.
End Convert.

Section Exact.
Variable R : realFieldType.
Add Ring Rr : (mc_ring R).
Variables n m p q N : nat.
Notation ostage := (stage R n m p).
Notation cblock := (cblock R n m N).
Variables (sts : seq ostage) (bs : seq cblock).
Hypothesis Hd : every (default_ZsM (p:=p)) sts.
Hypothesis Hs : every (@symmetric_weights R n m p) sts.
Hypothesis N0 : (0 < N)%N.
Variables (XT : 'M[R]_q) (HT : 'M[R]_(q, n)) (rT : 'cV[R]_q).
Notation P := (problem sts XT HT rT).
Notation C := (condensed bs XT HT rT).
Notation T := (size sts).

Lemma unroll_onto d k (us : seq 'cV[R]_d) : size us = (k * N)%N -> exists2 cus : seq 'cV[R]_(N * d), size cus = k & unroll cus = us.
Proof.
elim: k us => [|k IH] us sz; first by exists [::] => //; rewrite (size0nil sz).
have [|cus sc uc] := IH (drop N us); first by rewrite size_drop sz mulSn addKn.
exists (vstack N (nth 0 us) :: cus); first by rewrite /= sc.
rewrite unroll_cons uc -[RHS](cat_take_drop N); congr (_ ++ _).
have le : (N <= size us)%N by rewrite sz mulSn leq_addr.
apply: (@eq_from_nth _ 0); first by rewrite size_map size_iota size_takel.
move=> i; rewrite size_map size_iota => lt.
by rewrite (nth_map 0%N) ?size_iota // nth_iota // vblk_stack // nth_take.
Qed.

Variable fin : seq ostage -> option cblock.
Hypothesis finP : forall b c, @good R n m p N b -> fin b = Some c -> exists k, forall x u, let U := fun i => vblk N i u in
    [/\ next (cstg c) x u = bst N b x U N,
        stage_cost (cstg c) x u = \sum_(0 <= i < N) stage_cost (st b i) (bst N b x U i) (U i) + k &
        cLam c *m x + ccb c + cLb c *m u = vstack N (bst N b x U)].
Hypothesis E : omap_list fin (blocks N (padded N sts)) = Some bs.

Lemma size_bs : (size bs * N = T + npad N sts)%N.
Proof.
have [E1 E2 _] := blocks_flat N0 (dvd_padded N0 sts).
have [S _] := blocks_spec finP (good_blocks N0 Hd Hs) E.
by rewrite S E2 divnK ?dvd_padded // paddedE size_cat size_nseq.
Qed.
Lemma size_C : size (stages C) = size bs. Proof. by rewrite size_map. Qed.

(** the converter is right whenever it cuts the unrolled lists after T entries *)
Lemma exact_gen conv :
  (forall x0 cus, size cus = size bs -> let xs := traj (stages C) x0 cus in
     conv cus xs = Some (take T (unroll cus), rcons (take T (unroll (ystates bs xs cus))) (last x0 xs))) ->
  exact_condensing sts bs XT HT rT conv.
Proof.
move=> convE; have [F _ _] := blocks_flat N0 (dvd_padded N0 sts).
have [_ [k H]] := blocks_spec finP (good_blocks N0 Hd Hs) E.
have SB := size_bs.
split; rewrite ?size_C.
- by rewrite SB leq_addr ltn_add2l npad_lt.
- move=> us sz; apply: unroll_onto; rewrite size_cat size_nseq sz SB; by rewrite addKn.
exists k => x0 cus szc.
set us := take T _; have {H} [cost tr ix] := H x0 cus szc; rewrite F in cost tr ix.
have szu : size (unroll cus) = (T + npad N sts)%N by rewrite size_unroll szc SB.
have sus : size us = T by rewrite size_takel // szu leq_addr.
have sex : size (drop T (unroll cus)) = npad N sts by rewrite size_drop szu addKn.
have PT := pad_traj x0 sus sex; rewrite cat_take_drop in PT.
have st1 : size (traj [seq VStage s | s <- sts] x0 us) = T.+1 by rewrite size_traj size_map.
have lastE : last x0 (traj (stages C) x0 cus) = last x0 (traj (stages P) x0 us).
  have := congr1 (last x0) tr; rewrite PT last_rcons last_cat => <-.
  by elim: (npad N sts) => //= j; rewrite /= => <-; case: j.
split=> //.
- rewrite convE //; congr (Some (_, _)).
  have szy : size (unroll (ystates bs (traj (cstages bs) x0 cus) cus)) = (T + npad N sts)%N.
    by have /eqP := congr1 size tr; rewrite PT size_cat size_nseq st1 size_rcons addSn eqSS => /eqP.
  have := congr1 (take T) tr; rewrite PT -cats1 !takel_cat ?szy ?st1 ?leq_addr // => <-.
  rewrite lastE -[RHS]take_size st1 (take_nth x0) ?st1 //; congr rcons.
  by rewrite -nth_last st1.
- rewrite [LHS]ix szc PT; apply/eq_in_map => i; rewrite mem_iota add0n ltnS => /andP[_ le].
  rewrite nth_cat st1 ltnS; case: leqP => [//|lt].
  rewrite nth_nseq.
  have -> : (N * i - T.+1 < npad N sts)%N.
    rewrite ltn_subLR // addSn ltnS -SB mulnC leq_mul2r; by apply/orP; right.
  by rewrite -(nth_last x0) st1 /=; apply: set_nth_default; rewrite st1.
- rewrite /total_cost (cost P C) // -[in RHS]/(stages P) -{1}(cat_take_drop T (unroll cus)) -/us.
  by rewrite (pad_cost P x0 sus sex).
Qed.
End Exact.

Section TfBlock.
Variable R : realFieldType.
Variables n m p N : nat.
Notation ostage := (stage R n m p).
Variable b : seq ostage.
Hypothesis sz : size b = N.
Hypothesis N0 : (0 < N)%N.

Lemma lam_nth (A : 'M[R]_n) (l : seq ostage) i : (i < size l)%N -> nth 0 (lam_tf A l).1 i = foldl (fun A s => sF s *m A) A (take i l).
Proof. by elim: l A i => [|s l IH] A [|i] //= lt; rewrite IH. Qed.
Lemma lam_last (A : 'M[R]_n) (l : seq ostage) : (lam_tf A l).2 = foldl (fun A s => sF s *m A) A l.
Proof. by elim: l A => [|s l IH] A //=; rewrite IH. Qed.
Lemma Lambda_tfE : Lambda_tf N b = Lambda N b.
Proof.
apply: vstack_ext => -[|i] lt; first by rewrite /Ftmp take0.
case: b sz lt => [|s b'] //= sz' lt; first by rewrite -sz' in lt.
by rewrite lam_nth ?/Ftmp /= ?mulmx1 // -ltnS sz'.
Qed.
Lemma Fstar_tfE : Fstar_tf b = Fstar N b.
Proof.
rewrite /Fstar_tf lam_last /Fstar /Ftmp -sz take_size; case: b sz N0 => [|s b'] /= sz' N0'; first by rewrite -sz' in N0'.
by rewrite mulmx1.
Qed.
Lemma rowsS Lr cr (l : seq ostage) i : (i < size l)%N ->
  nth ([::], 0) (rows_tf Lr cr l) i.+1 =
  (rcons [seq sF (st l i) *m A | A <- (nth ([::], 0) (rows_tf Lr cr l) i).1] (sL (st l i)),
   sF (st l i) *m (nth ([::], 0) (rows_tf Lr cr l) i).2 + scc (st l i)).
Proof.
elim: l Lr cr i => [|s l IH] Lr cr [|i] // lt; first by case: l {IH lt}.
by rewrite [rows_tf _ _ _]/= -[nth _ (_ :: _) _]/(nth ([::], 0) (rows_tf _ _ l) i.+1) IH.
Qed.
Lemma row_tfE i : (i <= N)%N -> row_tf b i = ([seq Lrow b i j | j <- iota 0 i], crow b i).
Proof.
elim: i => [|i IH] lt; first by rewrite /row_tf /crow /= big_geq.
have -> : row_tf b i.+1 = (rcons [seq sF (st b i) *m A | A <- (row_tf b i).1] (sL (st b i)),
   sF (st b i) *m (row_tf b i).2 + scc (st b i)).
  rewrite /row_tf /all_rows; case: i {IH} lt => [|i] lt.
    by rewrite /= mulmx0 add0r; case: (behead b).
  case: b sz lt => [|s b'] sz' lt; first by rewrite -sz' in lt.
  by rewrite -[nth _ (_ :: _) i.+2]/(nth ([::], 0) (rows_tf _ _ _) i.+1) rowsS // -ltnS -[(size _).+1]/(size (s :: b')) sz'.
rewrite IH ?(ltnW lt) // [fst _]/= [snd _]/=.
have -> : iota 0 i.+1 = rcons (iota 0 i) i by rewrite -addn1 iotaD cats1.
rewrite (crowS sz) //; congr (_, _).
rewrite map_rcons (LrowS sz) // eqxx; congr rcons.
rewrite -map_comp; apply/eq_in_map => j; rewrite mem_iota add0n => /andP[_ lj] /=.
by rewrite (LrowS sz) // ltn_eqF.
Qed.
Lemma row_hstack i : (i <= N)%N -> hstack N (nth 0 (row_tf b i).1) = hstack N (Lrow b i).
Proof.
move=> le; rewrite row_tfE //; apply: hstack_ext => j lt /=.
case: (ltnP j i) => lj; first by rewrite (nth_map 0%N) ?size_iota // nth_iota.
by rewrite nth_default ?size_map ?size_iota // /Lrow ltnNge lj.
Qed.
Lemma Lbar_tfE : Lbar_tf N b = Lbar N b.
Proof. by apply: vstack_ext => i lt; rewrite row_hstack // ltnW. Qed.
Lemma cbar_tfE : cbar_tf N b = cbar N b.
Proof. by apply: vstack_ext => i lt; rewrite row_tfE // ltnW. Qed.
Lemma Lstar_tfE : Lstar_tf N b = Lstar N b. Proof. exact: row_hstack. Qed.
Lemma cstar_tfE : cstar_tf N b = cstar N b. Proof. by rewrite /cstar_tf row_tfE. Qed.
Lemma condense_block_tfE : condense_block_tf N b = fin_np (N:=N) b (fun A B => solve A B).
Proof. by rewrite /condense_block_tf Lambda_tfE Fstar_tfE Lbar_tfE cbar_tfE Lstar_tfE cstar_tfE. Qed.
End TfBlock.

Section Instances.
Variable R : realFieldType.
Variables n m p q N : nat.
Notation ostage := (stage R n m p).
Notation cblock := (cblock R n m N).
Implicit Types (sts b : seq ostage) (bs : seq cblock).
Variables (XT : 'M[R]_q) (HT : 'M[R]_(q, n)) (rT : 'cV[R]_q).

Lemma solve_eq k (A : 'M[R]_k) (B X : 'cV[R]_k) : solve A B = Some X -> A *m X = B.
Proof. by rewrite /solve; case: ifP => // u [<-]; rewrite mulKVmx. Qed.
Lemma solve_pos_eq k (A : 'M[R]_k) (B X : 'cV[R]_k) : symm A -> solve_pos A B = Some X -> A *m X = B /\ pd A.
Proof.
move=> S E; have P : pd A by rewrite -(usym_id S); apply/(solve_pos_iff A B); rewrite E.
by move: E; rewrite solve_posE // => -[<-]; rewrite mulKVmx // pd_unit.
Qed.
Lemma np_block b c : good N b -> condense_block N b = Some c -> fin_np (N:=N) b (fun A B => solve A B) = Some c.
Proof.
case=> sz Hd Hs; rewrite /condense_block /fin_np /finish -/(transm _ _ _) -/(XUM N b).
case E: (solve_pos _ _) => [rs|] //= [<-].
have [E' P] := solve_pos_eq (XUM_symm sz Hs) E.
rewrite solve_unit ?pd_unit //=; congr (Some _).
by rewrite -E' mulKmx ?pd_unit.
Qed.
Lemma fin_solveP b c : good N b -> fin_np (N:=N) b (fun A B => solve A B) = Some c -> exists k, forall x u, let U := fun i => vblk N i u in
    [/\ next (cstg c) x u = bst N b x U N,
        stage_cost (cstg c) x u = \sum_(0 <= i < N) stage_cost (st b i) (bst N b x U i) (U i) + k &
        cLam c *m x + ccb c + cLb c *m u = vstack N (bst N b x U)].
Proof. case=> sz Hd Hs; apply: block_spec => // A B X; exact: solve_eq. Qed.

Lemma omap_imp A B (f g : A -> option B) (Q : A -> Prop) l l' :
  every Q l -> (forall a c, Q a -> f a = Some c -> g a = Some c) -> omap_list f l = Some l' -> omap_list g l = Some l'.
Proof.
move=> ql H; elim: l ql l' => [|a l IH] //= [qa ql] l'.
case F: (f a) => [c|] //=; case O: (omap_list f l) => [cs|] //= <-.
by rewrite (H _ _ qa F) /= (IH ql _ O).
Qed.
Lemma condenseE sts bs : every (default_ZsM (p:=p)) sts -> every (@symmetric_weights R n m p) sts ->
  condense N sts = Some bs -> [/\ (0 < N)%N, sts <> [::] & condense_tf N sts = Some bs].
Proof.
rewrite /condense /condense_tf; case: eqP => // /eqP; rewrite -lt0n => N0; case: (size sts =P 0%N) => [_|ne] //= Hd Hs E; split=> //; first by move=> z; rewrite z in ne.
have gd := good_blocks N0 Hd Hs.
apply: omap_imp gd _ E => b c g H; have [sz _ _] := g.
rewrite condense_block_tfE //; exact: np_block.
Qed.
Lemma condense_tfE sts bs : every (default_ZsM (p:=p)) sts -> every (@symmetric_weights R n m p) sts ->
  condense_tf N sts = Some bs ->
  [/\ (0 < N)%N, sts <> [::] & omap_list (fun b => fin_np (N:=N) b (fun A B => solve A B)) (blocks N (padded N sts)) = Some bs].
Proof.
rewrite /condense_tf; case: eqP => // /eqP; rewrite -lt0n => N0; case: (size sts =P 0%N) => [_|ne] //= Hd Hs E; split=> //; first by move=> z; rewrite z in ne.
have gd := good_blocks N0 Hd Hs.
by apply: omap_imp gd _ E => b c [sz _ _]; rewrite condense_block_tfE.
Qed.
Lemma size_traj' k (l : seq (vstage R n k)) x us : size us = size l -> size (traj l x us) = (size l).+1.
Proof. by elim: l x us => [|s l IH] x [|u us] //= [sz]; rewrite IH. Qed.

Lemma exact_tf sts bs : every (default_ZsM (p:=p)) sts -> every (@symmetric_weights R n m p) sts ->
  condense_tf N sts = Some bs -> exact_condensing sts bs XT HT rT (convertUX_tf N (size sts) bs).
Proof.
move=> Hd Hs E; have [N0 ne E'] := condense_tfE Hd Hs E.
apply: (exact_gen Hd Hs N0 (@fin_solveP) E') => x0 cus szc /=.
have := @size_traj' _ (cstages bs) x0 cus; rewrite size_map => /(_ szc).
rewrite /convertUX_tf; have [t tE] := traj_head (cstages bs) x0 cus; rewrite -/(cstages bs) tE /= => -[st].
rewrite szc st !eqxx /= /ystates /unroll; congr (Some (take _ (flatten _), rcons (take _ (flatten _)) _));
  by apply: eq_map => u; rewrite unpackE.
Qed.
Lemma exact_np sts bs : every (default_ZsM (p:=p)) sts -> every (@symmetric_weights R n m p) sts ->
  condense N sts = Some bs -> exact_condensing sts bs XT HT rT (convertUX N (size sts) bs).
Proof.
move=> Hd Hs E; have [N0 ne E1] := condenseE Hd Hs E; have [_ _ E'] := condense_tfE Hd Hs E1.
apply: (exact_gen Hd Hs N0 (@fin_solveP) E') => x0 cus szc /=.
have := @size_traj' _ (cstages bs) x0 cus; rewrite size_map => /(_ szc).
rewrite /convertUX; have [t tE] := traj_head (cstages bs) x0 cus; rewrite -/(cstages bs) tE /= => -[st].
by rewrite conv_loopE //= ?szc // st.
Qed.
End Instances.
