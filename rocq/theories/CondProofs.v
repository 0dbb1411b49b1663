(** Proofs about condensing. *)
From Coq Require Import Ring Field.
From mathcomp Require Import all_ssreflect all_algebra.
From Verif Require Import MxBase LqtModel LqtSpec LqtCore CondModel CondSpec.
Import Order.TTheory GRing.Theory Num.Theory.
Set Implicit Arguments. Unset Strict Implicit. Unset Printing Implicit Defensive.
Local Open Scope ring_scope.

Section Stack.
Variable R : realFieldType.
Add Ring Rr : (mc_ring R).
Lemma vblk_stack d e N (f : nat -> 'M[R]_(d, e)) i : (i < N)%N -> vblk N i (vstack N f) = f i.
Proof.
elim: N f i => [|N IH] f [|i] //= lt; first exact: col_mxKu.
rewrite (_ : dsubmx _ = vstack N (fun i => f i.+1)); last exact: col_mxKd.
exact: IH.
Qed.
Lemma vstack_ext d e N (f g : nat -> 'M[R]_(d, e)) : (forall i, (i < N)%N -> f i = g i) -> vstack N f = vstack N g.
Proof.
elim: N f g => [|N IH] f g E //=; rewrite E //; congr col_mx; apply: IH => i lt; exact: E.
Qed.
Lemma hstack_ext d e N (f g : nat -> 'M[R]_(d, e)) : (forall i, (i < N)%N -> f i = g i) -> hstack N f = hstack N g.
Proof.
elim: N f g => [|N IH] f g E //=; rewrite E //; congr row_mx; apply: IH => i lt; exact: E.
Qed.
Lemma vstack_blk d e N (M : 'M[R]_(N * d, e)) : vstack N (fun i => vblk N i M) = M.
Proof.
elim: N M => [|N IH] M /=; first by apply/matrixP => -[].
rewrite IH; exact: (@vsubmxK _ d (N * d) e M).
Qed.
Lemma vstackD d e N (f g : nat -> 'M[R]_(d, e)) : vstack N f + vstack N g = vstack N (fun i => f i + g i).
Proof.
elim: N f g => [|N IH] f g /=; first by rewrite addr0.
rewrite -IH; exact: (@add_col_mx _ d (N * d) e).
Qed.
Lemma vstackN d e N (f : nat -> 'M[R]_(d, e)) : - vstack N f = vstack N (fun i => - f i).
Proof.
elim: N f => [|N IH] f /=; first by rewrite oppr0.
rewrite -IH; exact: (@opp_col_mx _ d (N * d) e).
Qed.
Lemma vstackM d e g N (f : nat -> 'M[R]_(d, e)) (B : 'M[R]_(e, g)) : vstack N f *m B = vstack N (fun i => f i *m B).
Proof.
elim: N f => [|N IH] f /=; first by rewrite mul0mx.
rewrite -IH; exact: (@mul_col_mx _ d (N * d) e g).
Qed.
Lemma bdiagM d e g N (f : nat -> 'M[R]_(d, e)) (h : nat -> 'M[R]_(e, g)) :
  bdiag N f *m vstack N h = vstack N (fun i => f i *m h i).
Proof.
elim: N f h => [|N IH] f h /=; first by apply/matrixP => -[].
rewrite -IH; etransitivity; first exact: (@mul_block_col _ d (N * d) e (N * e) g).
by rewrite !mul0mx addr0 add0r.
Qed.
Lemma hstackM d e g N (f : nat -> 'M[R]_(d, e)) (h : nat -> 'M[R]_(e, g)) :
  hstack N f *m vstack N h = \sum_(0 <= i < N) f i *m h i.
Proof.
elim: N f h => [|N IH] f h /=; first by rewrite big_geq // mul0mx.
rewrite big_nat_recl // -(IH (fun i => f i.+1)); exact: (@mul_row_col _ d e (N * e) g).
Qed.
Lemma dot_col d e (a a' : 'cV[R]_d) (b b' : 'cV[R]_e) : dot (col_mx a b) (col_mx a' b') = dot a a' + dot b b'.
Proof. by rewrite /dot tr_col_mx mul_row_col scD. Qed.
Lemma dot_stack d N (f g : nat -> 'cV[R]_d) : dot (vstack N f) (vstack N g) = \sum_(0 <= i < N) dot (f i) (g i).
Proof.
elim: N f g => [|N IH] f g /=; first by rewrite big_geq // dot0l.
rewrite big_nat_recl // -(IH (fun i => f i.+1)); exact: (@dot_col d (N * d)).
Qed.
Lemma qf_bdiag d N (f : nat -> 'M[R]_d) (g : nat -> 'cV[R]_d) : qf (bdiag N f) (vstack N g) = \sum_(0 <= i < N) qf (f i) (g i).
Proof. by rewrite qf_dot bdiagM dot_stack; apply: eq_bigr => i _; rewrite qf_dot. Qed.
Lemma symm_bdiag d N (f : nat -> 'M[R]_d) : (forall i, (i < N)%N -> symm (f i)) -> symm (bdiag N f).
Proof.
elim: N f => [|N IH] f S /=; first exact: symm0.
rewrite /symm; etransitivity; first exact: (@tr_block_mx _ d (N * d) d (N * d)).
by rewrite !trmx0 S // IH // => i lt; apply: S.
Qed.
Lemma qf_block d e (A : 'M[R]_d) (B : 'M[R]_e) (a : 'cV_d) (b : 'cV_e) : qf (block_mx A 0 0 B) (col_mx a b) = qf A a + qf B b.
Proof. by rewrite qf_dot mul_block_col !mul0mx addr0 add0r dot_col -!qf_dot. Qed.
Lemma symm_block d e (A : 'M[R]_d) (B : 'M[R]_e) : symm A -> symm B -> symm (block_mx A 0 0 B).
Proof. by move=> a b; rewrite /symm tr_block_mx !trmx0 a b. Qed.
(** a symmetric form by its blocks *)
Lemma qf_sub d e (A : 'M[R]_(d + e)) (a : 'cV_d) (b : 'cV_e) : symm A ->
  qf A (col_mx a b) = qf (ulsubmx A) a + qf (drsubmx A) b + dot a (ursubmx A *m b) *+ 2.
Proof.
move=> S; have D : dlsubmx A = (ursubmx A)^T by rewrite trmx_ursub S.
rewrite -{1}(submxK A) qf_dot mul_block_col dot_col !dotDr D -!qf_dot.
rewrite -(dotMl (ursubmx A)) (dotC (_ *m b)) mulr2n; rsn R; ring.
Qed.

(** slices by entries *)
Lemma entryE d (u : 'cV[R]_d) (i : 'I_d) : entry u i = u i ord0.
Proof. by rewrite /entry valK. Qed.
Lemma vblk_entry d N (u : 'cV[R]_(N * d)) j : (j < N)%N -> vblk N j u = \col_(i < d) entry u (j * d + i).
Proof.
elim: N u j => [|N IH] u j //= lt.
case: j lt => [|j] lt.
  apply/colP => i; rewrite !mxE mul0n add0n.
  have lt' : (i < N.+1 * d)%N by rewrite mulSn ltn_addr.
  rewrite /entry insubT; congr (u _ _); exact: val_inj.
rewrite IH //; apply/colP => i; rewrite !mxE.
have lt0 : (j * d + i < N * d)%N.
  apply: (@leq_trans (j.+1 * d)); first by rewrite mulSn addnC ltn_add2r.
  by rewrite leq_mul2r; apply/orP; right.
have lt' : (j.+1 * d + i < N.+1 * d)%N by rewrite !mulSn -addnA ltn_add2l.
rewrite /entry !insubT mxE; congr (u _ _); apply: val_inj => /=.
by rewrite mulSn addnA.
Qed.
Lemma unpackE d N (u : 'cV[R]_(N * d)) : unpack u = [seq vblk N j u | j <- iota 0 N].
Proof. by apply/eq_in_map => j; rewrite mem_iota add0n => /andP[_ lt]; rewrite vblk_entry. Qed.
End Stack.

Section Block.
Variable R : realFieldType.
Add Ring Rr : (mc_ring R).
Add Field Rf : (mc_field R).
Ltac sfield := rsn R; field; exact: two_neq0.
Variables n m p N : nat.
Variable b : seq (stage R n m p).
Hypothesis sz : size b = N.
Implicit Types x : 'cV[R]_n.

Lemma take_st i : (i < N)%N -> take i.+1 b = rcons (take i b) (st b i).
Proof. by move=> lt; rewrite (take_nth (pad_stage R n m p)) ?sz. Qed.
Lemma FtmpS i : (i < N)%N -> Ftmp b i.+1 = sF (st b i) *m Ftmp b i.
Proof. by move=> lt; rewrite /Ftmp take_st // foldl_rcons. Qed.
Lemma FpowsS i : (i < N)%N -> Fpows b i.+1 = rcons [seq sF (st b i) *m A | A <- Fpows b i] 1%:M.
Proof. by move=> lt; rewrite /Fpows take_st // foldl_rcons. Qed.
Lemma size_Fpows i : (i <= N)%N -> size (Fpows b i) = i.
Proof.
elim: i => [|i IH] lt; first by rewrite /Fpows take0.
by rewrite FpowsS // size_rcons size_map IH // ltnW.
Qed.
Lemma nth_Fpows i j : (i < N)%N -> (j < i)%N -> nth 0 (Fpows b i.+1) j = sF (st b i) *m nth 0 (Fpows b i) j.
Proof. by move=> li lj; rewrite FpowsS // nth_rcons size_map size_Fpows ?(ltnW li) // lj (nth_map 0) ?size_Fpows // ltnW. Qed.
Lemma nth_Fpows_last i : (i < N)%N -> nth 0 (Fpows b i.+1) i = 1%:M.
Proof. by move=> li; rewrite FpowsS // nth_rcons size_map size_Fpows ?(ltnW li) // ltnn eqxx. Qed.
Lemma LrowS i j : (i < N)%N -> Lrow b i.+1 j = if (j == i)%N then sL (st b i) else sF (st b i) *m Lrow b i j.
Proof.
move=> li; rewrite /Lrow ltnS leq_eqVlt; case: eqP => [->|ne] /=; first by rewrite nth_Fpows_last // mul1mx.
by case: ltnP => lj; rewrite ?mulmx0 // nth_Fpows // mulmxA.
Qed.
Lemma crowS i : (i < N)%N -> crow b i.+1 = sF (st b i) *m crow b i + scc (st b i).
Proof.
move=> li; rewrite /crow big_nat_recr //= nth_Fpows_last // mul1mx; congr (_ + _).
rewrite mulmx_sumr; apply: eq_big_nat => j /andP[_ lj]; by rewrite nth_Fpows // mulmxA.
Qed.

(** the state before step i of the block, from x with controls U *)
Definition bst x (U : nat -> 'cV[R]_m) i : 'cV[R]_n := Ftmp b i *m x + crow b i + \sum_(0 <= j < N) Lrow b i j *m U j.
Lemma bst0 x U : bst x U 0 = x.
Proof.
rewrite /bst /Ftmp /crow take0 /= mul1mx big_geq // addr0 big1 ?addr0 // => j _; by rewrite /Lrow ltn0 mul0mx.
Qed.
Lemma bstS x U i : (i < N)%N -> bst x U i.+1 = next (st b i) (bst x U i) (U i).
Proof.
move=> li; rewrite /bst /next FtmpS // crowS //.
have -> : \sum_(0 <= j < N) Lrow b i.+1 j *m U j = sL (st b i) *m U i + sF (st b i) *m \sum_(0 <= j < N) Lrow b i j *m U j.
  rewrite mulmx_sumr (bigD1_seq i) ?mem_index_iota ?iota_uniq //=.
  rewrite [in RHS](bigD1_seq i) ?mem_index_iota ?iota_uniq //= LrowS // eqxx.
  rewrite (_ : Lrow b i i = 0); last by rewrite /Lrow ltnn.
  rewrite mul0mx mulmx0 add0r; congr (_ + _); apply: eq_bigr => j /negbTE ne; by rewrite LrowS // ne mulmxA.
by mxabel.
Qed.
Lemma bst_stack x U : Lambda N b *m x + cbar N b + Lbar N b *m vstack N U = vstack N (bst x U).
Proof.
rewrite /Lambda /cbar /Lbar !vstackM !vstackD; apply: vstack_ext => i lt.
by rewrite hstackM.
Qed.
Lemma bst_star x U : Fstar N b *m x + cstar N b + Lstar N b *m vstack N U = bst x U N.
Proof. by rewrite /Lstar hstackM. Qed.

(** the cost of the block *)
Hypothesis Hd : every (default_ZsM (p:=p)) b.
Hypothesis Hs : every (@symmetric_weights R n m p) b.
Lemma every_st (Q : stage R n m p -> Prop) l i : every Q l -> (i < size l)%N -> Q (st l i).
Proof. by elim: l i => [|s l IH] [|i] //= [q ql] lt; last exact: IH. Qed.
Lemma stage_cost_plain (s : stage R n m p) x u : default_ZsM s ->
  stage_cost s x u = (qf (sX s) (sH s *m x - sr s) + qf (sU s) u) / 2%:R.
Proof. by case=> z e z'; rewrite /stage_cost z e z' mul1mx subr0 mul0mx dot0r addr0; sfield. Qed.

Definition transm (Lam : 'M[R]_(N * n, n)) (Lb : 'M[R]_(N * n, N * m)) : 'M[R]_(N * p + N * m, n + N * m) :=
  block_mx (Hbar N b *m Lam) (Hbar N b *m Lb) 0 1%:M.
Lemma XUbar_symm : symm (XUbar N b).
Proof.
apply: symm_block; apply: symm_bdiag => i lt; have := every_st Hs; rewrite sz => /(_ _ lt) [] //.
Qed.
Lemma block_cost x U : \sum_(0 <= i < N) stage_cost (st b i) (bst x U i) (U i) =
  qf (XUbar N b) (transm (Lambda N b) (Lbar N b) *m col_mx x (vstack N U) + col_mx (Hbar N b *m cbar N b) 0 - rsbar N b) / 2%:R.
Proof.
rewrite /transm mul_block_col mul0mx mul1mx add0r /rsbar add_col_mx opp_col_mx add_col_mx oppr0 !addr0.
have -> : Hbar N b *m Lambda N b *m x + Hbar N b *m Lbar N b *m vstack N U + Hbar N b *m cbar N b
  = vstack N (fun i => sH (st b i) *m bst x U i).
  by rewrite /Hbar -bdiagM -bst_stack; mxabel.
rewrite vstackN vstackD /XUbar qf_block !qf_bdiag mulrDl !mulr_suml -big_split /=.
apply: eq_big_nat => i /andP[_ lt]; rewrite stage_cost_plain; last by apply: every_st => //; rewrite sz.
sfield.
Qed.

(** completing the square *)
Lemma complete_square d e (A : 'M[R]_d) (B : 'M[R]_(d, e)) (w : 'cV_d) (z rs : 'cV_e) : symm A ->
  (B^T *m A *m B) *m rs = B^T *m A *m w ->
  qf A (B *m z - w) = qf (B^T *m A *m B) (z - rs) + (qf A w - qf (B^T *m A *m B) rs).
Proof.
move=> S E; have S' : symm (B^T *m A *m B) by exact: symm_cong.
rewrite (qfD _ _ S) (qfD _ _ S') !qfN qfM.
rewrite !dotNr -[dot (_ *m z) rs]dotC (symm_dot _ _ S') E -mulmxA -dotMl.
rewrite [dot (A *m _) w]dotC (symm_dot _ _ S); rsn R; ring.
Qed.

Definition fin_np (slv : 'M[R]_(n + N * m) -> 'cV[R]_(n + N * m) -> option 'cV[R]_(n + N * m)) :=
  finish slv (Lambda N b) (Lbar N b) (cbar N b) (Fstar N b) (Lstar N b) (cstar N b) b.
Definition XUM : 'M[R]_(n + N * m) :=
  (transm (Lambda N b) (Lbar N b))^T *m XUbar N b *m transm (Lambda N b) (Lbar N b).
Lemma XUM_symm : symm XUM. Proof. exact: symm_cong XUbar_symm. Qed.
Definition rhs : 'cV[R]_(n + N * m) :=
  (transm (Lambda N b) (Lbar N b))^T *m XUbar N b *m (rsbar N b - col_mx (Hbar N b *m cbar N b) 0).
Lemma block_spec slv c : (forall A B X, slv A B = Some X -> A *m X = B) -> fin_np slv = Some c ->
  exists k, forall x u, let U := fun i => vblk N i u in
    [/\ next (cstg c) x u = bst x U N,
        stage_cost (cstg c) x u = \sum_(0 <= i < N) stage_cost (st b i) (bst x U i) (U i) + k &
        cLam c *m x + ccb c + cLb c *m u = vstack N (bst x U)].
Proof.
move=> slvP; rewrite /fin_np /finish -/(transm _ _) -/XUM -/rhs.
case E: (slv _ _) => [rs|] //= [<-] {c}; move/slvP: E => E.
pose w := rsbar N b - col_mx (Hbar N b *m cbar N b) 0.
exists (- ((qf (XUbar N b) w - qf XUM rs) / 2%:R)) => x u; pose U := fun i => vblk N i u; rewrite -/U.
have uE : u = vstack N U by rewrite vstack_blk.
split; rewrite /=.
- by rewrite uE -bst_star.
- rewrite block_cost -uE.
  have -> (a : 'cV[R]_(N * p + N * m)) : a + col_mx (Hbar N b *m cbar N b) 0 - rsbar N b = a - w by rewrite /w opprB addrA.
  rewrite (@complete_square _ _ _ _ w _ rs XUbar_symm); last exact: E.
  rewrite -/XUM -[rs in qf XUM (_ - rs)]vsubmxK opp_col_mx add_col_mx (qf_sub _ _ XUM_symm).
  rewrite /stage_cost /= !mul1mx; sfield.
- by rewrite uE bst_stack.
Qed.
End Block.

Section Lists.
Variable R : realFieldType.
Add Ring Rr : (mc_ring R).
Variables n m p N : nat.
Notation ostage := (stage R n m p).
Implicit Types (x : 'cV[R]_n) (b : seq ostage).

(** running through a list of stages whose states are known *)
Lemma run_cost P b rest x (X : nat -> 'cV[R]_n) (U : nat -> 'cV[R]_m) us :
  X 0%N = x -> (forall i, (i < size b)%N -> X i.+1 = next (st b i) (X i) (U i)) ->
  cost_to_go P ([seq VStage s | s <- b] ++ rest) x ([seq U i | i <- iota 0 (size b)] ++ us) =
  \sum_(0 <= i < size b) stage_cost (st b i) (X i) (U i) + cost_to_go P rest (X (size b)) us.
Proof.
elim: b x X U => [|s b IH] x X U X0 XS; first by rewrite /= big_geq // add0r X0.
rewrite big_nat_recl //= -addrA -X0; congr (_ + _).
rewrite -(XS 0%N) // -[1%N]/(0.+1)%N (iotaDl 1 0) -map_comp.
rewrite (IH (X 1%N) (fun i => X i.+1) (fun i => U i.+1)) // => i lt; exact: (XS i.+1).
Qed.
Lemma run_traj b rest x (X : nat -> 'cV[R]_n) (U : nat -> 'cV[R]_m) us :
  X 0%N = x -> (forall i, (i < size b)%N -> X i.+1 = next (st b i) (X i) (U i)) ->
  traj ([seq VStage s | s <- b] ++ rest) x ([seq U i | i <- iota 0 (size b)] ++ us) =
  [seq X i | i <- iota 0 (size b)] ++ traj rest (X (size b)) us.
Proof.
elim: b x X U => [|s b IH] x X U X0 XS; first by rewrite /= X0.
rewrite /= X0; congr (_ :: _); rewrite -X0.
rewrite -(XS 0%N) // -[1%N]/(0.+1)%N !(iotaDl 1 0) -!map_comp.
rewrite (IH (X 1%N) (fun i => X i.+1) (fun i => U i.+1)) // => i lt; exact: (XS i.+1).
Qed.

Variable fin : seq ostage -> option (cblock R n m N).
Definition good b := [/\ size b = N, every (default_ZsM (p:=p)) b & every (@symmetric_weights R n m p) b].
Hypothesis finP : forall b c, good b -> fin b = Some c -> exists k, forall x u, let U := fun i => vblk N i u in
    [/\ next (cstg c) x u = bst N b x U N,
        stage_cost (cstg c) x u = \sum_(0 <= i < N) stage_cost (st b i) (bst N b x U i) (U i) + k &
        cLam c *m x + ccb c + cLb c *m u = vstack N (bst N b x U)].

Definition cstages (bs : seq (cblock R n m N)) : seq (vstage R n (N * m)) := [seq VStage (cstg c) | c <- bs].
Definition ystates (bs : seq (cblock R n m N)) (xs : seq 'cV[R]_n) (us : seq 'cV[R]_(N * m)) :=
  [seq cLam z.1 *m z.2.1 + ccb z.1 + cLb z.1 *m z.2.2 | z <- zip bs (zip xs us)].

Lemma unroll_cons d (u : 'cV[R]_(N * d)) us : unroll (u :: us) = [seq vblk N j u | j <- iota 0 N] ++ unroll us.
Proof. by rewrite /unroll /= unpackE. Qed.
Lemma size_unroll d (us : seq 'cV[R]_(N * d)) : size (unroll us) = (size us * N)%N.
Proof. by elim: us => [|u us IH] //; rewrite unroll_cons size_cat size_map size_iota IH mulSn. Qed.
Lemma traj_cons (c : vstage R n m) sts x us : exists t, traj (c :: sts) x us = x :: t.
Proof. by case: us => [|u us]; eexists. Qed.
Lemma traj_head k (sts : seq (vstage R n k)) x us : exists t, traj sts x us = x :: t.
Proof. by case: sts us => [|c sts] [|u us]; eexists. Qed.

Lemma blocks_spec bl bs : every good bl -> omap_list fin bl = Some bs ->
  size bs = size bl /\
  exists k, forall x (cus : seq 'cV[R]_(N * m)), size cus = size bs ->
    let us := unroll cus in let xs := traj (cstages bs) x cus in
    let flat := [seq VStage s | s <- flatten bl] in
    [/\ forall P P' : lqt R _ _, (forall y, final_cost P' y = final_cost P y) ->
          cost_to_go P' (cstages bs) x cus = cost_to_go P flat x us + k,
        traj flat x us = rcons (unroll (ystates bs xs cus)) (last x xs) &
        xs = [seq nth 0 (traj flat x us) (N * i) | i <- iota 0 (size bs).+1]].
Proof.
elim: bl bs => [|b bl IH] bs; first by move=> _ [<-]; split=> //; exists 0 => x [] // _; split=> //= [P P' E|]; [by rewrite E addr0 | by rewrite muln0].
move=> [gb gbl] /=; case F: (fin b) => [c|] //=; case O: (omap_list _ _) => [bs'|] //= [<-].
have {IH} [sz [k IH]] := IH _ gbl O; have [k' H] := finP gb F; have [szb _ _] := gb.
split; first by rewrite /= sz.
exists (k' + k) => x [|u cus] //= [szc].
have {H} [] := H x u; set U := fun i => _ => nx co ys.
have {IH} [cost tr ix] := IH (next (cstg c) x u) cus szc.
have st0 := bst0 N b x U; have stS i := @bstS R n m p N b szb x U i.
rewrite unroll_cons map_cat -[in iota 0 N]szb; split=> [P P' E||].
- rewrite (run_cost _ _ _ st0) ?szb // -nx (cost _ _ E) co; rsn R; ring.
- rewrite (run_traj _ _ st0) ?szb // -nx tr /ystates /=.
  have [t tE] := traj_head (cstages bs') (next (cstg c) x u) cus.
  rewrite unroll_cons ys [RHS]rcons_cat; congr (_ ++ rcons _ _).
    apply/eq_in_map => i; rewrite mem_iota add0n => /andP[_ lt]; by rewrite vblk_stack.
  by rewrite tE.
- rewrite (run_traj _ _ st0) ?szb // -nx.
  have szX : size [seq bst N b x U i | i <- iota 0 N] = N by rewrite size_map size_iota.
  set TR := traj _ _ (unroll cus); rewrite muln0; congr (_ :: _).
    rewrite nth_cat szX; case: ltnP => lt; first by rewrite (nth_map 0%N) ?size_iota // nth_iota.
    have [t tE] := traj_head [seq VStage s | s <- flatten bl] (next (cstg c) x u) (unroll cus).
    by rewrite /TR tE sub0n /= nx; move: lt; rewrite leqn0 => /eqP lt; rewrite (_ : bst N b x U N = bst N b x U 0) //; congr (bst N b x U).
  transitivity [seq nth 0 ([seq bst N b x U i0 | i0 <- iota 0 N] ++ TR) (N * i) | i <- iota (1 + 0) (size bs').+1]; last by [].
  rewrite [LHS]ix iotaDl -map_comp; apply: eq_map => i /=.
  by rewrite nth_cat szX mulnDr muln1 ltnNge leq_addr /= addKn.
Qed.
End Lists.

Section Pad.
Variable R : realFieldType.
Add Ring Rr : (mc_ring R).
Add Field Rf : (mc_field R).
Ltac sfield := rsn R; field; exact: two_neq0.
Variables n m p N : nat.
Notation ostage := (stage R n m p).
Notation pad := (pad_stage R n m p).
Implicit Types (x : 'cV[R]_n) (sts : seq ostage).
Hypothesis N0 : (0 < N)%N.

Definition npad sts := if (size sts %% N == 0)%N then 0%N else (N - size sts %% N)%N.
Lemma paddedE sts : padded N sts = sts ++ nseq (npad sts) pad.
Proof. by rewrite /padded /npad; case: ifP => // _; rewrite cats0. Qed.
Lemma dvd_padded sts : (N %| size (padded N sts))%N.
Proof.
rewrite paddedE size_cat size_nseq /npad; case: ifP => [|ne]; first by rewrite addn0.
rewrite {1}(divn_eq (size sts) N) -addnA subnKC ?dvdn_addl ?dvdn_mull //; exact/ltnW/ltn_pmod.
Qed.
Lemma npad_lt sts : (npad sts < N)%N.
Proof. by rewrite /npad; case: ifP => // ne; rewrite ltn_subrL lt0n ne. Qed.

Lemma blocks_cons (l : seq ostage) k : size l = (N * k.+1)%N -> blocks N l = take N l :: blocks N (drop N l).
Proof.
move=> sz; rewrite /blocks size_drop sz mulnS addKn (divnDl _ (dvdnn N)) divnn N0 mulKn // add1n.
rewrite -[iota 0 k.+1]/(0%N :: iota (1 + 0) k) map_cons muln0 drop0 iotaDl -map_comp; congr (_ :: _).
by apply: eq_map => i /=; rewrite drop_drop mulnDr muln1 addnC.
Qed.
Lemma blocks_flat (l : seq ostage) : (N %| size l)%N ->
  [/\ flatten (blocks N l) = l, size (blocks N l) = (size l %/ N)%N & every (fun b => size b = N) (blocks N l)].
Proof.
case/dvdnP => k; rewrite mulnC; elim: k l => [|k IH] l sz.
  by move: sz; rewrite muln0 => /size0nil ->; rewrite /blocks /= div0n.
have szd : size (drop N l) = (N * k)%N by rewrite size_drop sz mulnS addKn.
have [IH1 IH2 IH3] := IH _ szd; rewrite (blocks_cons sz); split=> /=.
- by rewrite IH1 cat_take_drop.
- by rewrite IH2 szd sz !mulKn.
- by split=> //; rewrite size_takel // sz leq_pmulr.
Qed.
Lemma every_cat A (Q : A -> Prop) l1 l2 : every Q (l1 ++ l2) <-> every Q l1 /\ every Q l2.
Proof. by elim: l1 => [|a l1 IH] /=; [split=> [|[]] | rewrite IH; split=> [[? []]|[[]]]]. Qed.
Lemma every_flatten A (Q : A -> Prop) bl : every Q (flatten bl) <-> every (every Q) bl.
Proof. by elim: bl => [|b bl IH] //=; rewrite every_cat IH. Qed.
Lemma every_nseq A (Q : A -> Prop) k a : Q a -> every Q (nseq k a).
Proof. by elim: k => //= k IH q; split=> //; apply: IH. Qed.
Lemma every_and A (Q1 Q2 : A -> Prop) l : every Q1 l -> every Q2 l -> every (fun a => Q1 a /\ Q2 a) l.
Proof. by elim: l => //= a l IH [? ?] [? ?]; split=> //; apply: IH. Qed.
Lemma every_imp A (Q1 Q2 : A -> Prop) l : (forall a, Q1 a -> Q2 a) -> every Q1 l -> every Q2 l.
Proof. by move=> H; elim: l => //= a l IH [? ?]; split; [exact: H | exact: IH]. Qed.
Lemma good_blocks sts : every (default_ZsM (p:=p)) sts -> every (@symmetric_weights R n m p) sts ->
  every (@good R n m p N) (blocks N (padded N sts)).
Proof.
move=> Hd Hs; have [E _ S] := blocks_flat (dvd_padded sts).
have D : every (default_ZsM (p:=p)) (padded N sts).
  by rewrite paddedE every_cat; split=> //; apply: every_nseq.
have W : every (@symmetric_weights R n m p) (padded N sts).
  rewrite paddedE every_cat; split=> //; apply: every_nseq; split; [exact: symm0 | exact: symm1].
move: D W; rewrite -{1 2}E !every_flatten => D W.
by apply: every_imp (every_and S (every_and D W)) => b [? []].
Qed.

(** the appended stages keep the state and cost half the squared control *)
Lemma next_pad x u : next pad x u = x.
Proof. by rewrite /next /= mul1mx mul0mx !addr0. Qed.
Lemma pad_cost P sts x us ex : size us = size sts -> size ex = npad sts ->
  cost_to_go P [seq VStage s | s <- padded N sts] x (us ++ ex) = cost_to_go P [seq VStage s | s <- sts] x us + half_squares ex.
Proof.
rewrite paddedE; move: (npad sts) => k; elim: sts us x => [|s sts IH] [|u us] x //=.
  move=> _; elim: k ex => [|k IH] [|u ex] //= sz.
    by rewrite /half_squares big_nil mul0r addr0.
  case: sz => sz; rewrite next_pad IH // /half_squares big_cons /stage_cost /=.
  by rewrite !mul0mx subr0 mul1mx subr0 qf0 dot0l !qf_dot !mul1mx; sfield.
case=> sz szx; rewrite IH //; rsn R; ring.
Qed.
Lemma pad_traj sts x us ex : size us = size sts -> size ex = npad sts ->
  traj [seq VStage s | s <- padded N sts] x (us ++ ex) =
  traj [seq VStage s | s <- sts] x us ++ nseq (npad sts) (last x (traj [seq VStage s | s <- sts] x us)).
Proof.
rewrite paddedE; move: (npad sts) => k; elim: sts us x => [|s sts IH] [|u us] x //=.
  move=> _; elim: k ex => [|k IH] [|u ex] //= sz.
  by case: sz => sz; rewrite next_pad IH.
case=> sz szx; rewrite IH //; congr (_ :: _ ++ nseq _ _).
by have [t ->] := traj_head [seq VStage s0 | s0 <- sts] (next s x u) us.
Qed.
Lemma size_traj (l : seq (vstage R n m)) x us : size us = size l -> size (traj l x us) = (size l).+1.
Proof. by elim: l x us => [|s l IH] x [|u us] //= [sz]; rewrite IH. Qed.
End Pad.
