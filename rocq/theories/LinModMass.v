(** The chain of masses. *)
From Coq Require Import Ring Field.
From mathcomp Require Import all_ssreflect all_algebra zify.
From Verif Require Import MxBase LinComb Rk4Proofs LqtModel LqtSpec FscModel FscCore FscProofs HjbProofs.
From Verif Require Import LinModModel LinModSpec LinModProofs LinModTrack LinModMain.
Import Order.TTheory GRing.Theory Num.Theory.
Set Implicit Arguments. Unset Strict Implicit. Unset Printing Implicit Defensive.
Local Open Scope ring_scope.

Section Mass.
Variable R : realFieldType.
Add Ring Rr : (mc_ring R).
Add Field Rf : (mc_field R).
Ltac sfield := rsn R; field; repeat split; num_neq0 R.
Ltac sring := rsn R; ring.
Lemma foldo_cat {A B} (f : A -> B -> option B) l1 l2 b : foldo f (l1 ++ l2) b = obind (foldo f l2) (foldo f l1 b).
Proof. by elim: l1 b => //= a l1 IH b; case: (f a b) => //= b'; rewrite IH. Qed.
Lemma zeros2E r c : zeros2 R r c = tab r c (fun _ _ => 0).
Proof.
have nE a (X : Type) (x : X) : nseq a x = vec a (fun _ => x).
  by rewrite vec_mkseq; apply: (@eq_from_nth _ x); rewrite size_nseq ?size_mkseq // => i h; rewrite nth_nseq nth_mkseq ?h.
by rewrite /zeros2 /tab !nE.
Qed.
Lemma mx_of_tab r c (g : nat -> nat -> R) : mx_of r c (tab r c g) = \matrix_(i, j) g i j.
Proof. by apply/matrixP => i j; rewrite !mxE /tab !vec_mkseq nth_mkseq // vec_mkseq nth_mkseq. Qed.

Variables (N : nat) (m c d : R).
(** the entries of the chain matrix *)
Definition fcE (i j : nat) : R :=
  let a := i./2 in
  if odd i then
    if j == (2 * a)%N then - 2%:R * c / m else if j == (2 * a).+1 then - 2%:R * d / m
    else if (0 < a)%N && (j == 2 * (a - 1))%N then c / m else if (0 < a)%N && (j == (2 * (a - 1)).+1) then d / m
    else if (a < N - 1)%N && (j == 2 * (a + 1))%N then c / m else if (a < N - 1)%N && (j == (2 * (a + 1)).+1) then d / m
    else 0
  else if j == i.+1 then 1 / m else 0.
Lemma upd2t n q (g : nat -> nat -> R) i j v : (i < n)%N -> (j < q)%N ->
  upd2 (tab n q g) i j v = Some (tab n q (fun i' j' => if (i' == i) && (j' == j) then v else g i' j')).
Proof.
by move=> /ssrnat.ltP h1 /ssrnat.ltP h2; rewrite upd2_tab.
Qed.
Lemma mass_rowE k : (k < N)%N ->
  mass_row N m c d k (tab (2 * N) (2 * N) (fun i j => if (i < 2 * k)%N then fcE i j else 0)) =
  Some (tab (2 * N) (2 * N) (fun i j => if (i < 2 * k.+1)%N then fcE i j else 0)).
Proof.
move=> kN; rewrite /mass_row.
rewrite upd2t; [|lia|lia]; rewrite obindS'.
rewrite upd2t; [|lia|lia]; rewrite obindS'.
rewrite upd2t; [|lia|lia]; rewrite obindS'.
have E (g : nat -> nat -> R) : (forall i j, (i < 2 * N)%N -> (j < 2 * N)%N -> g i j = if (i < 2 * k.+1)%N then fcE i j else 0) ->
  Some (tab (2 * N) (2 * N) g) = Some (tab (2 * N) (2 * N) (fun i j => if (i < 2 * k.+1)%N then fcE i j else 0)).
  by move=> h; congr Some; apply: tab_ext => i j /ssrnat.ltP h1 /ssrnat.ltP h2; apply: h.
have C i : (i < 2 * k)%N /\ (i < 2 * k.+1)%N /\ (i == 2 * k)%N = false /\ (i == 2 * k + 1)%N = false \/
   i = (2 * k)%N \/ i = (2 * k + 1)%N \/ (i < 2 * k)%N = false /\ (i < 2 * k.+1)%N = false /\ (i == 2 * k)%N = false /\ (i == 2 * k + 1)%N = false by lia.
have h1 : (2 * k < 2 * k.+1)%N by lia.
have h2 : (2 * k + 1 < 2 * k.+1)%N by lia.
have h3 : (2 * k + 1 == 2 * k)%N = false by lia.
have h4 : (2 * k == 2 * k + 1)%N = false by lia.
have h5 : (2 * k < 2 * k)%N = false by lia.
have h6 : (2 * k + 1 < 2 * k)%N = false by lia.
have h7 : odd (2 * k) = false by rewrite oddM.
have h8 : odd (2 * k + 1) by rewrite addn1 /= oddM.
have h9 : ((2 * k + 1)./2 = k)%N by rewrite addn1 mul2n /= uphalf_double.
case: ifP => k0.
  rewrite upd2t; [|lia|lia]; rewrite obindS' upd2t; [|lia|lia]; rewrite obindS'.
  case: ifP => kl.
    rewrite upd2t; [|lia|lia]; rewrite obindS' upd2t; [|lia|lia].
    apply: E => i j iN jN; case: (C i) => [[-> [-> [-> ->]]] //|[->|[->|[-> [-> [-> ->]]]]] //].
      by rewrite h4 h1 h5 eqxx /fcE h7 !addn1.
    rewrite h3 h2 h6 eqxx /fcE h8 h9 k0 kl /= !addn1.
    do ! case: eqP => ? /=; by [] || (exfalso; lia).
  apply: E => i j iN jN; case: (C i) => [[-> [-> [-> ->]]] //|[->|[->|[-> [-> [-> ->]]]]] //].
    by rewrite h4 h1 h5 eqxx /fcE h7 !addn1.
  rewrite h3 h2 h6 eqxx /fcE h8 h9 k0 kl /= !addn1.
  do ! case: eqP => ? /=; by [] || (exfalso; lia).
rewrite obindS'; case: ifP => kl.
  rewrite upd2t; [|lia|lia]; rewrite obindS' upd2t; [|lia|lia].
  apply: E => i j iN jN; case: (C i) => [[-> [-> [-> ->]]] //|[->|[->|[-> [-> [-> ->]]]]] //].
    by rewrite h4 h1 h5 eqxx /fcE h7 !addn1.
  rewrite h3 h2 h6 eqxx /fcE h8 h9 k0 kl /= !addn1.
  do ! case: eqP => ? /=; by [] || (exfalso; lia).
apply: E => i j iN jN; case: (C i) => [[-> [-> [-> ->]]] //|[->|[->|[-> [-> [-> ->]]]]] //].
  by rewrite h4 h1 h5 eqxx /fcE h7 !addn1.
rewrite h3 h2 h6 eqxx /fcE h8 h9 k0 kl /= !addn1.
do ! case: eqP => ? /=; by [] || (exfalso; lia).
Qed.
Lemma mass_FcE : mass_Fc N m c d = Some (tab (2 * N) (2 * N) fcE).
Proof.
rewrite /mass_Fc zeros2E.
have h k : (k <= N)%N -> foldo (mass_row N m c d) (iota 0 k) (tab (2 * N) (2 * N) (fun _ _ => 0)) =
    Some (tab (2 * N) (2 * N) (fun i j => if (i < 2 * k)%N then fcE i j else 0)).
  by elim: k => [|k IH] kN //; rewrite -addn1 iotaD foldo_cat IH ?(ltnW kN) // obindS' add0n /= mass_rowE // addn1 /=.
rewrite h //; congr Some; apply: tab_ext => i j /ssrnat.ltP iN _; by rewrite iN.
Qed.
Definition lcE (i j : nat) : R := if (i == 2 * N - 1)%N && (j == 1%N) then - 1 / m else if (i == 1%N) && (j == 0%N) then 1 / m else 0.
Lemma mass_LcE : (0 < N)%N -> mass_Lc N m = Some (tab (2 * N) 2 lcE).
Proof. by move=> N0; rewrite /mass_Lc zeros2E upd2t ?obindS' ?upd2t //; lia. Qed.
Definition x0E' (i : nat) : R := if (i == 0%N) || (i == 2 * N./2)%N then 1 else 0.
Lemma mass_x0E : (0 < N)%N -> mass_x0 R N = Some (mkseq x0E' (2 * N)).
Proof.
move=> N0; rewrite /mass_x0 /set1 size_nseq; have -> /= : (0 < 2 * N)%N by lia.
have E j : (j < 2 * N)%N -> j = (2 * N./2)%N -> set_nth 0 (set_nth 0 (nseq (2 * N) 0) 0 1) j 1 = mkseq x0E' (2 * N).
  move=> jN jE; have sz : size (set_nth 0 (set_nth 0 (nseq (2 * N) 0) 0 1) j 1 : seq R) = (2 * N)%N.
    by rewrite !size_set_nth size_nseq; lia.
  apply: (@eq_from_nth _ 0); rewrite sz ?size_mkseq // => i iN.
  rewrite !nth_set_nth /= nth_mkseq // /x0E' -jE; case: eqP => [->|_]; rewrite ?orbT ?orbF //.
  by rewrite nth_set_nth /= nth_nseq iN.
have sz1 : size (set_nth 0 (nseq (2 * N) 0) 0 1 : seq R) = (2 * N)%N by rewrite size_set_nth size_nseq; lia.
have o := odd_double_half N; rewrite -mul2n in o.
rewrite modn2 sz1; case: (odd N) o => /= o.
  by have -> : (N - 1 < 2 * N)%N by [lia]; rewrite E //; lia.
by have -> : (N < 2 * N)%N by [lia]; rewrite E //; lia.
Qed.
Lemma coordE n (v : 'cV[R]_n) (i : 'I_n) : coord v i = v i 0.
Proof. by rewrite /coord insubT //= => h; congr (v _ _); apply: val_inj. Qed.
Lemma sum_pick n (x : 'cV[R]_n) a : \sum_(j < n) (nat_of_ord j == a)%:R * x j 0 = coord x a.
Proof.
rewrite /coord; case: insubP => [j _ ja|h].
  rewrite (bigD1 j) //= ja eqxx mul1r big1 ?addr0 // => i ij; case: eqP => [ia|_]; last by rewrite mul0r.
  by case/eqP: ij; apply: val_inj; rewrite /= ia ja.
by rewrite big1 // => j _; case: eqP => [ja|_]; rewrite ?mul0r //; rewrite -ja ltn_ord in h.
Qed.
Lemma coord_mx r q (g : nat -> nat -> R) (x : 'cV[R]_q) i : (i < r)%N ->
  coord (mx_of r q (tab r q g) *m x) i = \sum_(j < q) g i j * x j 0.
Proof.
move=> ir; rewrite -[i]/(nat_of_ord (Ordinal ir)) coordE mx_of_tab mxE.
by apply: eq_bigr => j _; rewrite !mxE.
Qed.
Lemma coordD n (v w : 'cV[R]_n) i : coord (v + w) i = coord v i + coord w i.
Proof. by rewrite /coord; case: insubP => [j _ _|_]; rewrite ?mxE ?addr0. Qed.
Lemma chain_disp x i : (i < N)%N -> disp (mx_of (2 * N) (2 * N) (tab (2 * N) (2 * N) fcE) *m x) i = velo x i / m.
Proof.
move=> iN; rewrite /disp coord_mx; last by lia.
rewrite /velo -sum_pick mulr_suml; apply: eq_bigr => j _; rewrite /fcE oddM /= addn1.
by case: eqP => _; rewrite ?mul0r // !mul1r mulrC.
Qed.
Lemma chain_velo x i : (i < N)%N -> velo (mx_of (2 * N) (2 * N) (tab (2 * N) (2 * N) fcE) *m x) i =
  pull (c / m) (disp x) i + pull (d / m) (velo x) i.
Proof.
move=> iN; rewrite /velo coord_mx; last by lia.
rewrite /pull /disp.
have -> : \sum_(j < 2 * N) fcE (2 * i + 1) j * x j 0 =
   \sum_(j < 2 * N) ((- 2%:R * c / m) * ((nat_of_ord j == 2 * i)%N%:R * x j 0) + (- 2%:R * d / m) * ((nat_of_ord j == 2 * i + 1)%N%:R * x j 0)
    + (c / m) * ((nat_of_ord j == 2 * i.+1)%N%:R * x j 0) + (d / m) * ((nat_of_ord j == 2 * i.+1 + 1)%N%:R * x j 0)
    + (if i is i'.+1 then (c / m) * ((nat_of_ord j == 2 * i')%N%:R * x j 0) + (d / m) * ((nat_of_ord j == 2 * i' + 1)%N%:R * x j 0) else 0)).
  apply: eq_bigr => -[j jN] _ /=; rewrite /fcE.
  have -> : odd (2 * i + 1) by rewrite addn1 /= oddM.
  have -> : ((2 * i + 1)./2 = i)%N by rewrite addn1 mul2n /= uphalf_double.
  set X := x _ 0; rewrite -[- 2%:R * c / m]mulrA -[- 2%:R * d / m]mulrA; set a := c / m; set b := d / m.
  case: i iN => [|i] iN; rewrite ?ltnn ?andbF ?andFb ?ltn0Sn ?andTb ?subn1 ?addn1 ?PeanoNat.Nat.pred_succ.
    rewrite !muln0 !muln1.
    case: eqP => h1; case: eqP => h2; case: eqP => h3; case: eqP => h4; case: (ltnP 0 N.-1) => h5; rewrite ?andTb ?andFb /= ?mulr1n ?mulr0n; first [by exfalso; lia | by sring].
  case: eqP => h1; case: eqP => h2; case: eqP => h3; case: eqP => h4; case: eqP => h6; case: eqP => h7; case: (ltnP i.+1 N.-1) => h5; rewrite ?andTb ?andFb /= ?mulr1n ?mulr0n; first [by exfalso; lia | by sring].
rewrite !big_split /= -!mulr_sumr !sum_pick.
rewrite -[- 2%:R * c / m]mulrA -[- 2%:R * d / m]mulrA; move: (c / m) (d / m) => a b.
case: i iN => [|i] iN; [rewrite big1 //|rewrite big_split /= -!mulr_sumr !sum_pick]; rewrite /=; sring.
Qed.
End Mass.

Section Chain.
Variable R : realFieldType.
Lemma dispD N (v w : 'cV[R]_(2 * N)) i : disp (v + w) i = disp v i + disp w i. Proof. exact: coordD. Qed.
Lemma veloD N (v w : 'cV[R]_(2 * N)) i : velo (v + w) i = velo v i + velo w i. Proof. exact: coordD. Qed.
Lemma disp_mx N q (g : nat -> nat -> R) (x : 'cV[R]_q) i : (i < N)%N ->
  disp (mx_of (2 * N) q (tab (2 * N) q g) *m x) i = \sum_(j < q) g (2 * i)%N j * x j 0.
Proof. by move=> iN; rewrite /disp coord_mx //; lia. Qed.
Lemma velo_mx N q (g : nat -> nat -> R) (x : 'cV[R]_q) i : (i < N)%N ->
  velo (mx_of (2 * N) q (tab (2 * N) q g) *m x) i = \sum_(j < q) g (2 * i + 1)%N j * x j 0.
Proof. by move=> iN; rewrite /velo coord_mx //; lia. Qed.
Lemma mass_None N : mass_init R N = None <-> N = 0%N.
Proof.
split; last by move=> ->.
case: N => // N; rewrite /mass_init mass_FcE obindS' mass_LcE // obindS' mass_x0E //.
Qed.
Lemma mass_chain N : (0 < N)%N -> exists M, mass_init R N = Some M /\
  (forall x u i, (i < N)%N -> let f := mmF M *m x + mmL M *m u in
     disp f i = velo x i /\
     velo f i = pull 1 (disp x) i + pull (2%:R / 10%:R) (velo x) i
                + (if i == 0%N then coord u 0 else 0) - (if i == N.-1 then coord u 1 else 0)) /\
  forall i, (i < N)%N -> disp (mmx0 M) i = (if (i == 0%N) || (i == N./2) then 1 else 0) /\ velo (mmx0 M) i = 0.
Proof.
move=> N0; rewrite /mass_init mass_FcE obindS' mass_LcE // obindS' mass_x0E // obindS'.
eexists; split; first by []; split=> /=.
  move=> x u i iN; rewrite dispD veloD chain_disp // chain_velo // disp_mx // velo_mx //.
  rewrite !big_ord_recl !big_ord0 /lcE !divr1 !addr0 /=.
  have -> : ((2 * i + 1 == 2 * N - 1) = (i == N.-1))%N by lia.
  have -> : ((2 * i + 1 == 1) = (i == 0))%N by lia.
  have -> : (2 * i == 2 * N - 1)%N = false by lia.
  have -> : (2 * i == 1)%N = false by lia.
  have u0 : u ord0 0 = coord u 0 by rewrite -(coordE u ord0).
  have u1 : u (lift ord0 ord0) 0 = coord u 1 by rewrite -(coordE u (lift ord0 ord0)).
  rewrite !andbF ?andbT /= !mul0r !addr0; split=> //; rewrite -!addrA; congr (_ + (_ + _)).
  by rewrite u0 u1; case: (i == 0)%N; case: (i == N.-1); rewrite ?mul1r ?mul0r ?mulN1r ?addr0 ?subr0.
move=> i iN; have c0 j : (j < 2 * N)%N -> coord (cv_of (2 * N) (mkseq (x0E' R N) (2 * N))) j = x0E' R N j.
  by move=> jN; rewrite -[j]/(nat_of_ord (Ordinal jN)) coordE mxE nth_mkseq.
rewrite /disp /velo !c0; [|lia|lia]; rewrite /x0E'; split.
  by congr (if _ then _ else _); lia.
by case: ifP => // h; exfalso; lia.
Qed.
End Chain.

Section Mint.
Variable R : archiFieldType.
Lemma int_ofP (a : R) : 0 <= a -> (int_of a)%:R <= a < (int_of a).+1%:R.
Proof.
move=> a0; rewrite /int_of; case: ex_minnP => n h1 h2; rewrite h1 andbT.
by case: n h1 h2 => [|n] h1 h2 //; rewrite leNgt; apply/negP => h; have := h2 n h; rewrite ltnn.
Qed.
Lemma mass_lqt (expm : forall n, 'M[R]_n -> 'M[R]_n) N dt Tf : (0 < N)%N -> 0 < dt -> 0 <= Tf ->
  exists M P T, mass_init R N = Some M /\ mass_getLQT expm N dt Tf = Some (P, mmx0 M) /\
  T%:R * dt <= Tf < T.+1%:R * dt /\ size (stages P) = T /\ problem_ok P /\
  (let AB := (lti_disc_u expm (mmF M) (mmL M) (mmL M) (Some 1%:M) dt).1 in
   all_stages (fun s => forall x u, next s x u = AB.1 *m x + AB.2 *m u) (stages P)) /\
  forall x us, size us = T -> let xs := traj (stages P) x us in
  total_cost P x us = \sum_(k < T) (norm2 (nth 0 xs k) / 2%:R + norm2 (nth 0 us k) / 20%:R) + norm2 (nth 0 xs T) / 2%:R.
Proof.
move=> N0 dt0 Tf0; have [M [EM _]] := mass_chain R N0; rewrite /mass_getLQT EM obindS' gt_eqF //.
exists M; rewrite /mass_problem; case E : lti_disc_u => [[A B] Q]; set T := int_of _; rewrite [(A, B, Q).1]/=.
have := int_ofP (divr_ge0 Tf0 (ltW dt0)); rewrite -/T => /andP[h1 h2].
eexists; exists T; split=> //; split; first by []; split.
  by rewrite -ler_pdivl_mulr // h1 -ltr_pdivr_mulr.
split; first by rewrite size_map size_nseq.
split.
  apply: track_ok; [exact/symmZ/symm1|exact/pdZ1/tenth_gt0|exact: symm1|exact/pd_psd/pd1|].
  by move=> z /nseqP[-> _] /=; split; [exact: symm1|exact/pd_psd/pd1].
split; first by apply: track_next => z x u; rewrite /next /= addr0.
move=> x us su; set xs := traj _ x us.
rewrite /total_cost track_ctg ?size_nseq // -/xs /final_cost /= qf1 mul1mx subr0; congr (_ + _).
apply: eq_bigr => k _; rewrite nth_nseq ltn_ord /= mul1mx subr0 qf1 qfZ1; congr (_ + _).
by rewrite /tenth [_^-1 * _]mulrC -mulrA -invfM -natrM.
Qed.
End Mint.
