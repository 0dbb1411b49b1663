(** Parts of the parallel forward-backward pass: the pass inside a block, the elements of runs of blocks and the combination. *)
From Coq Require Import Reals.
From mathcomp Require Import all_ssreflect all_algebra zify.
From Verif Require Import RealF MxBase LqtModel LqtSpec LqtCore LqtElem LinComb ScanModel Rk4Model ClqtModel ClqtSpec ClqtPack ClqtFwd2 RealExpSpec RealExp ClqrOpt RealDisc RkConvA RkConvC RkConv RkConvP
  FbConvB FbConvC TrackOptSpec TvarSpec TvarInv TvarLip TvarPack TvarRk Tvar TvarBwd TvarFwd TvarFb OdeLin TvarExistSpec TvarExist TvarCost ClqrPar ParConvB TvarParA TvarParB TvarParC TvarParFw TvarParG TvarParD.
Import Order.TTheory GRing.Theory Num.Theory.
Set Implicit Arguments. Unset Strict Implicit. Unset Printing Implicit Defensive.
Local Open Scope ring_scope.
Delimit Scope R_scope with Re.

Section From.
Variables n m p pT : nat.
Variable P : clqt Rf n m p pT.
Local Notation T := (kT P).
Hypothesis T0 : 0 <= T.
Hypothesis pw : forall t : Rf, 0 <= t <= T -> [/\ symm (kX P t), psd (kX P t), symm (kU P t) & pd (kU P t)].
Hypothesis lP : lipschitz_data P.
Variables (b : R -> 'cV[Rf]_n) (C : R -> 'M[Rf]_n).
Hypothesis gbC : goes P b C.
Local Notation V := 'M[Rf]_(n, 2 * n + 1).
Fixpoint xs_ (x : V) (M i : nat) : V := if i is i'.+1 then sya (tstp (ra P) (T / M%:R) (xs_ x M i') (i'%:R * (T / M%:R))) else x.
Lemma astep_ x M i : (i < M)%N -> abc_step P (T / M%:R) (0 + i%:R * (T / M%:R)) (unpack_abc (xs_ x M i)) = Some (unpack_abc (xs_ x M i.+1)).
Proof.
move=> iM; have Mp : (0 < M)%N by lia.
rewrite /abc_step abc_pack add0r (@tstp_rk4 _ _ _ (ra P)) ?divr_ge0 ?ler0n //; last first.
  move=> y s /andP [s1 s2]; have /andP [ti _] := grid_ok T0 Mp (ltnW iM).
  have ts : 0 <= s <= T.
    rewrite (le_trans ti s1) /=; apply: le_trans s2 _.
    have := grid_ok T0 Mp iM => /andP [_]; by rewrite -[i.+1]addn1 natrD mulrDl mul1r.
  by rewrite /fwdbwdpass_ode_f (ULTs pw ts) obindS.
rewrite obindS [xs_ x M i.+1]/= /sya; case: (unpack_abc (tstp _ _ _ _)) => [[A a] Q]; by rewrite abc_unpack.
Qed.
Lemma aloop_ x M k i : (i + k <= M)%N -> abc_loop P (T / M%:R) 0 k i (unpack_abc (xs_ x M i)) = Some [seq unpack_abc (xs_ x M j) | j <- iota i k.+1].
Proof.
elim: k i => [//|k IH] i ik.
rewrite -[abc_loop _ _ _ _.+1 _ _]/(let? e' := abc_step P (T / M%:R) (0 + i%:R * (T / M%:R)) (unpack_abc (xs_ x M i)) in let? l := abc_loop P (T / M%:R) 0 k i.+1 e' in Some (unpack_abc (xs_ x M i) :: l)).
by rewrite astep_ ?obindS ?IH ?obindS //; lia.
Qed.
Lemma abc_from (E0 : Rf) : 0 <= E0 -> exists2 D, 0 <= D & forall M, (0 < M)%N -> D <= M%:R -> forall A' b' C',
  nrm A' + nrm (C' - C 0) + nrm (b' - b 0) <= E0 / M%:R ->
  let t i := i%:R * (T / M%:R) in exists2 l, abc_loop P (T / M%:R) 0 M 0 (A', b', C') = Some l & size l = M.+1 /\
  forall i, (i <= M)%N -> nrm ((nth (0, 0, 0) l i).1.2 - b (t i)) <= D / M%:R /\ nrm ((nth (0, 0, 0) l i).2 - C (t i)) <= D / M%:R.
Proof.
move=> E00; have [D D0 H] := @rk_order1_from _ _ (ra P) (za b C) T T0 (bl_nrm (ra_bl T0 pw lP)) (goes_cont gbC) (goes_deriv gbC) E0 E00.
exists D => // M Mp DM A' b' C' h t; pose x := pack_abc (A', b', C').
exists [seq unpack_abc (xs_ x M j) | j <- iota 0 M.+1].
  by have := @aloop_ x M M 0 (leqnn _); rewrite -[xs_ x M 0]/x abc_unpack.
split=> [|i iM]; first by rewrite size_map size_iota.
rewrite (nth_map 0%N) ?size_iota ?ltnS // nth_iota ?ltnS // add0n.
have : nrm (xs_ x M i - za b C (t i)) <= D / M%:R.
  apply: H => //; first by rewrite /= /x /za abc_sub nrm_abc subr0.
  move=> j jM /=; apply: sya_dist.
  by case: gbC => c _; have [] := c _ (grid_ok (M := M) T0 Mp jM).
rewrite /za -[xs_ x M _]abc_pack [unpack_abc _]surjective_pairing [(unpack_abc _).1]surjective_pairing abc_sub nrm_abc => h'.
split; apply: le_trans h'; rewrite abc_unpack [X in nrm (X - _) <= _]/=; first by rewrite ler_addr addr_ge0 ?nrm_ge0.
by rewrite -addrA addrCA ler_addl addr_ge0 ?nrm_ge0.
Qed.
End From.

Section Sub.
Variables n m p pT : nat.
Variable P : clqt Rf n m p pT.
Local Notation T := (kT P).
Hypothesis wP : tracking_weights P 0.
Variables (a L : Rf).
Hypotheses (a0 : 0 <= a) (L0 : 0 <= L) (aL : a + L <= T).
Lemma sub_goes b C x0 : forward_solution P b C x0 [::] 0 -> goes (sub P a L) (fun t : Rf => b (a + t)%R) (fun t : Rf => C (a + t)%R).
Proof.
move=> [_ _ c d]; split=> t ht.
  by have [h1 h2 h3] := c _ (sub_in a0 aL ht); split=> //; exact: mcont_shift.
have ht' := sub_in' a0 aL ht; have i : 0 <= a + t <= T by case/andP: ht' => h1 h2; rewrite !ltW.
have [A [dA [db [dC [e h1 h2]]]]] := d _ ht' isT; have [_ eb eC] := abc_E wP i e.
split; first by move: (mderiv_shift h1); congr (mderiv _ _ _); rewrite eb /qq /= !mulmxA.
by move: (mderiv_shift h2); congr (mderiv _ _ _); rewrite eC /qq /= !mulmxA.
Qed.
Lemma sub_abc dt k i e : abc_loop P dt a k i e = abc_loop (sub P a L) dt 0 k i e.
Proof.
elim: k i e => [//|k IH] i e /=.
have -> : abc_step P dt (a + i%:R * dt) e = abc_step (sub P a L) dt (0 + i%:R * dt) e by rewrite /abc_step add0r shift_rk.
case: (abc_step (sub P a L) _ _ _) => [e'|]; last reflexivity.
rewrite !obindS IH; reflexivity.
Qed.
End Sub.

Section Fam.
Variables n m p pT : nat.
Variable P : clqt Rf n m p pT.
Local Notation T := (kT P).
Hypothesis T0 : 0 <= T.
Hypothesis cw : convex_weights P.
Hypothesis lP : lipschitz_data P.
Variables (b : R -> 'cV[Rf]_n) (C : R -> 'M[Rf]_n) (x0 : 'cV[Rf]_n).
Hypothesis fsol : forward_solution P b C x0 [::] 0.
Hypothesis pC : forall t : Rf, 0 <= t <= T -> psd (C t).
Variable fw : bool.
Variable B : nat.
Hypothesis B0 : (0 < B)%N.
Local Notation tau := (T / B%:R).
Local Notation at_ k := (k%:R * tau).
Let wP : tracking_weights P 0. Proof. by case: cw. Qed.
Let t0 := tau0 T0 B.
Lemma abc_unif (E0 : Rf) : 0 <= E0 -> exists2 D, 0 <= D & forall k, (k < B)%N -> forall M, (0 < M)%N -> D <= M%:R -> forall A' b' C',
  nrm A' + nrm (C' - C (at_ k)%R) + nrm (b' - b (at_ k)%R) <= E0 / M%:R ->
  let t i := at_ k + i%:R * (tau / M%:R) in exists2 l, abc_loop P (tau / M%:R) (at_ k) M 0 (A', b', C') = Some l & size l = M.+1 /\
  forall i, (i <= M)%N -> nrm ((nth (0, 0, 0) l i).1.2 - b (t i)) <= D / M%:R /\ nrm ((nth (0, 0, 0) l i).2 - C (t i)) <= D / M%:R.
Proof.
move=> E00; apply: fin_unif => [k L L' le H M M0 LM A' b' C' h|k kB].
  have [l E [sl Hl]] := H M M0 (le_trans le LM) A' b' C' h; exists l => //; split=> // i iM; have [h1 h2] := Hl i iM.
  have l' : L / M%:R <= L' / M%:R by rewrite ler_wpmul2r // invr_ge0 ler0n.
  by split; apply: le_trans l'.
have [a0 aL] := at_sub T0 B0 kB.
have [D D0 H] := abc_from (P := sub P (at_ k) tau) t0 (@sub_w _ _ _ _ P (pwP cw) (at_ k) tau a0 aL) (sub_data lP a0 aL) (sub_goes wP a0 aL fsol) E00.
exists D => M M0 DM A' b' C' h t; rewrite (sub_abc P (at_ k) tau); apply: H => //=; by rewrite addr0.
Qed.
Definition fblock_ok (k : nat) (g : elem Rf n) : Prop :=
  [/\ elem_ok g, forall f, eC f = C (at_ k)%R -> eb f = b (at_ k)%R -> cC f g = C (at_ k.+1)%R /\ cb f g = b (at_ k.+1)%R &
      exists D, forall M, (0 < M)%N -> D <= M%:R -> exists2 g', block_elem P (tau / M%:R) 0 M fw k = Some g' & ed5 g' g <= D / M%:R].
Lemma fblock_ex k : (k < B)%N -> exists g, fblock_ok k g.
Proof.
move=> kB; have [a0 aL] := at_sub T0 B0 kB; pose Q := sub P (at_ k) tau.
have pwQ := @sub_w _ _ _ _ P (pwP cw) (at_ k) tau a0 aL; have lQ := sub_data lP a0 aL; have gQ : goes Q _ _ := sub_goes wP a0 aL fsol.
have tk M : (0 < M)%N -> (k * M)%:R * (tau / M%:R) = at_ k by move=> M0; rewrite natrM -mulrA [M%:R * _]mulrC divfK // pnatr_eq0 -lt0n.
have pQ (t : Rf) : 0 <= t <= kT Q -> psd (C (at_ k + t)%R) by move=> ht; apply: pC; exact: (sub_in a0 aL ht).
have i0 : 0 <= (0 : Rf) <= kT Q by rewrite lexx t0.
have i1 : 0 <= kT Q <= kT Q by rewrite lexx t0.
rewrite /fblock_ok; case: fw.
  have [A [be [Ce [eta [J [e0 ec edr]]]]]] := elem_ex_fw (P := Q) t0 pwQ lQ.
  exists (emap A be Ce eta J tau); split.
  - by have [] := ec _ i1.
  - move=> f h1 h2; have := elem_goes_fw (P := Q) t0 pwQ lQ ec e0 edr gQ (pQ 0 i0) (f := f).
    by rewrite addr0 [kT Q]/= (atS P B k); apply.
  have [D D0 H] := block_conv_fw (P := Q) t0 pwQ lQ e0 ec edr.
  by exists D => M M0 DM; have [g E h] := H M M0 DM; exists g; [rewrite -E; exact: sub_block (tk M M0) | exact: h].
have [A [be [Ce [eta [J [eT ec edr]]]]]] := elem_ex (P := Q) t0 pwQ lQ.
exists (emap A be Ce eta J 0); split.
- by have [] := ec 0 i0.
- move=> f h1 h2; have := elem_goes_bw (P := Q) t0 pwQ ec eT edr gQ pQ (f := f).
  by rewrite addr0 [kT Q]/= (atS P B k); apply.
have [D D0 H] := block_conv1 (P := Q) t0 pwQ lQ eT ec edr.
by exists D => M M0 DM; have [g E h] := H M M0 DM; exists g; [rewrite -E; exact: sub_block (tk M M0) | exact: h].
Qed.
Section Exact.
Variable g : nat -> elem Rf n.
Hypothesis gok : forall k, (k < B)%N -> fblock_ok k (g k).
Local Notation e1 := (Elem 1%:M 0 0 0 0 : elem Rf n).
Definition yk k : elem Rf n := if k is k'.+1 then (if (k' < B)%N then g k' else e1) else Elem 0 x0 0 0 0.
Lemma yk_ok k : elem_ok (yk k).
Proof.
case: k => [|k] /=; first by split; [exact: s0 | exact: p0 | exact: s0 | exact: p0].
by case: ifP => h; [have [] := gok h | exact: e1_ok].
Qed.
Definition yrun (l : seq nat) : elem Rf n := foldr (fun k e => comb2 (yk k) e) e1 l.
Lemma yrun_ok l : elem_ok (yrun l).
Proof. by elim: l => [|k l IH] /=; [exact: e1_ok | apply: comb_ok => //; exact: yk_ok]. Qed.
Lemma yrun_cat l l' : comb2 (yrun l) (yrun l') = yrun (l ++ l').
Proof.
elim: l => [|k l IH] /=; first exact: comb1l.
by rewrite comb2A ?IH //; [exact: yk_ok | exact: yrun_ok | exact: yrun_ok].
Qed.
Definition eyr (i j : nat) := yrun (iota i (j - i)).
Lemma eyr_comb i j k : (i < j)%N -> (j < k)%N -> (k <= B.+1)%N -> combine_abcej (eyr i j) (eyr j k) = Some (eyr i k).
Proof.
move=> ij jk _; rewrite combineE ?yrun_cat; try exact: yrun_ok.
congr Some; congr yrun; rewrite {2}(_ : j = i + (j - i))%N; last by lia.
by rewrite -iotaD; congr iota; lia.
Qed.
Lemma eyr1 i : eyr i i.+1 = yk i. Proof. by rewrite /eyr subSnn /= comb1r. Qed.
Lemma eyr_value k : (k <= B)%N -> [/\ eA (eyr 0 k.+1) = 0, eC (eyr 0 k.+1) = C (at_ k)%R & eb (eyr 0 k.+1) = b (at_ k)%R].
Proof.
elim: k => [|k IH] kB; first by rewrite eyr1 /= mul0r; case: fsol => -> -> _ _.
have [hA hC hb] := IH (ltnW kB).
have E := @eyr_comb 0 k.+1 k.+2 isT (ltnSn _) ltac:(lia); rewrite eyr1 /= kB in E.
have [_ _ [-> -> _]] := combine_inv E; have [-> _] := combine_inv5 E.
have [_ H _] := gok kB; have [-> ->] := H _ hC hb; split=> //.
by rewrite /cA hA !mulmx0.
Qed.
End Exact.
End Fam.
