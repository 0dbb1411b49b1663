(** The interpolated combination (C51). *)
From Coq Require Import Ring Field.
From mathcomp Require Import all_ssreflect all_algebra.
From Verif Require Import ScanModel Ord FscModel FscCore FscProofs FscProofs2 MxBase LinComb LqtModel Rk4Proofs HjbModel HjbSpec HjbProofs.
Import Order.TTheory GRing.Theory Num.Theory.
Set Implicit Arguments. Unset Strict Implicit. Unset Printing Implicit Defensive.
Local Open Scope ring_scope.

Lemma for_inv {S} (I : nat -> S) m (body : nat -> S -> option S) :
  (forall k, (k < m)%N -> body k (I k) = Some (I k.+1)) -> for_ (iota 0 m) body (I 0%N) = Some (I m).
Proof.
suff G a q : (forall k, (a <= k < a + q)%N -> body k (I k) = Some (I k.+1)) -> for_ (iota a q) body (I a) = Some (I (a + q)%N).
  by move=> H; rewrite (G 0%N m) // => k /andP[_ kq]; apply: H.
elim: q a => [|q IH] a H /=; first by rewrite addn0.
rewrite H; last by rewrite leqnn addnS ltnS leq_addr.
rewrite -addSnnS.
by rewrite IH // => k /andP[k1 k2]; rewrite H // (ltnW k1) addnS -addSn.
Qed.
Lemma for_none {S} l (body : nat -> S -> option S) k s : List.In k l -> (forall s, body k s = None) -> for_ l body s = None.
Proof. by elim: l s => //= a l IH s [->|h] H; [rewrite H | case: (body a s) => // s'; exact: IH]. Qed.
Lemma in_iota k m : (k < m)%N -> List.In k (iota 0 m).
Proof. by move=> h; have := in_mkseq id h; rewrite /mkseq map_id. Qed.

Section Interp.
Variable R : realFieldType.
Local Notation K := (Fcost R).
Add Ring Rr : (mc_ring R).
Add Field Rf : (mc_field R).
Ltac sfield := rsn R; field; repeat split; num_neq0 R.
Local Notation eight := (2%:R * 4%:R : R).
Lemma eightE : 8%:R = eight :> R. Proof. by rewrite -natrM. Qed.
Lemma num_neq : (2%:R != 0 :> R) && (4%:R != 0 :> R). Proof. by rewrite !pnatr_eq0. Qed.

Definition vertex (fm f0 fp : R) : R := f0 - (fp - fm) ^+ 2 / (fm + fp - f0 - f0) / 8%:R.
Section Par.
Variables fm f0 fp : R.
Hypotheses (hm : f0 <= fm) (hp : f0 <= fp) (hd : fm + fp - f0 - f0 != 0).
Let d := fm + fp - f0 - f0.
Lemma d_sum : d = (fm - f0) + (fp - f0). Proof. by rewrite /d; rsn R; ring. Qed.
Lemma d_gt0 : 0 < d. Proof. by rewrite lt_neqAle eq_sym hd /= d_sum addr_ge0 // subr_ge0. Qed.
Lemma vertex_parabola : parabola_min fm f0 fp (vertex fm f0 fp).
Proof.
have [/negbTE n2 /negbTE n4] := andP num_neq.
move=> a b c; rewrite /quad => E1 E2 E3.
have Ec : c = f0 by rewrite -E2; rsn R; ring.
have Ed : d = 2%:R * a by rewrite /d -E1 -E3 -Ec; rsn R; ring.
have a0 : 0 < a by move: d_gt0; rewrite Ed pmulr_rgt0 // ltr0n.
have an : a != 0 by rewrite gt_eqF.
have Ev : vertex fm f0 fp = a * (- b / (2%:R * a)) * (- b / (2%:R * a)) + b * (- b / (2%:R * a)) + c.
  rewrite /vertex -/d Ed -E1 -E3 -Ec eightE; sfield; exact: a0.
split; first by exists (- b / (2%:R * a)).
move=> t; rewrite Ev -subr_ge0.
have -> : a * t * t + b * t + c - (a * (- b / (2%:R * a)) * (- b / (2%:R * a)) + b * (- b / (2%:R * a)) + c) = a * (t + b / (2%:R * a)) ^+ 2.
  by sfield; exact: a0.
by rewrite mulr_ge0 ?sqr_ge0 // ltW.
Qed.
Lemma vertex_le : vertex fm f0 fp <= f0.
Proof. by rewrite /vertex -/d ler_subl_addr ler_addl; apply: divr_ge0; [apply: divr_ge0; [exact: sqr_ge0 | exact: ltW d_gt0] | exact: ler0n]. Qed.
Lemma vertex_ge : f0 - d / 8%:R <= vertex fm f0 fp.
Proof.
rewrite /vertex -/d ler_add2l ler_opp2 ler_pmul2r ?invr_gt0 ?ltr0n // ler_pdivr_mulr ?d_gt0 //.
rewrite -subr_ge0 d_sum.
have -> : ((fm - f0) + (fp - f0)) * ((fm - f0) + (fp - f0)) - (fp - fm) ^+ 2 = 4%:R * (fm - f0) * (fp - f0) by rsn R; ring.
by rewrite !mulr_ge0 ?ler0n ?subr_ge0.
Qed.
Lemma vertex_edge : fm = fp -> vertex fm f0 fp = f0.
Proof. by move=> ->; rewrite /vertex subrr expr0n /= !mul0r subr0. Qed.
End Par.
Lemma vertex_exact (a b e h : R) : 0 < a -> 0 < h ->
  vertex (a * (e - h) ^+ 2 + b) (a * e ^+ 2 + b) (a * (e + h) ^+ 2 + b) = b.
Proof.
move=> a0 h0; rewrite /vertex eightE.
have -> : a * (e - h) ^+ 2 + b + (a * (e + h) ^+ 2 + b) - (a * e ^+ 2 + b) - (a * e ^+ 2 + b) = 2%:R * a * h * h by rsn R; ring.
have -> : a * (e + h) ^+ 2 + b - (a * (e - h) ^+ 2 + b) = 4%:R * a * e * h by rsn R; ring.
by sfield; first [exact: h0 | exact: a0].
Qed.

Section Opt.
Variable n : nat.
Hypothesis n0 : (0 < n)%N.
Implicit Types A B : seq (seq (option R)).
Lemma nvadd_vec k (g h : nat -> option R) : nvadd (mkseq g k) (mkseq h k) = Some (mkseq (fun i => nadd (g i) (h i)) k).
Proof.
rewrite -!vec_mkseq; elim: k g h => [|k IH] g h //.
by rewrite !vec_S [nvadd _ _]/= IH.
Qed.
Definition nvia A B i k j := nadd (nat2 A i j) (nat2 B j k).
Definition nent A B i k := ninterp n.-1 (mkseq (nvia A B i k) n).
Lemma nvsumE A B i k : square n A -> square n B -> (i < n)%N -> (k < n)%N ->
  nvsum B (mkseq (nat2 A i) n) k = Some (mkseq (nvia A B i k) n).
Proof. by move=> sA sB iN kN; rewrite /nvsum (column_square None sB kN) obindS' nvadd_vec. Qed.
Lemma interp_mx A B (h : nat -> nat -> option R) : square n A -> square n B ->
  (forall i k, (i < n)%N -> (k < n)%N -> nent A B i k = Some (h i k)) -> combine_V_interp A B = Some (mx n h).
Proof.
move=> sA sB H; rewrite /combine_V_interp (ncols_square None n0 sB) (_ : size A = n); last by case: sA.
rewrite [X in mapM _ X](square_mx None sA) mx_tab.
apply: mapM_vec => i /ssrnat.ltP iN; apply: (mapM_seq _ (h i) n) => k /ssrnat.ltP kN.
by rewrite -[vec _ _]/(mkseq (nat2 A i) n) nvsumE // obindS' -H.
Qed.
End Opt.

Section Two.
Variable n : nat.
Hypothesis n1 : (1 < n)%N.
Let n0 : (0 < n)%N := ltnW n1.
Lemma interpV (g : nat -> R) j : first_min n g j -> interp n.-1 (mkseq g n) =
  Some (if second_difference n g j == 0 then None else Some (vertex (g (left_of j)) (g j) (g (right_of n j)))).
Proof. by move=> h; rewrite (interpE n0 n1 h). Qed.
Lemma left_lt j : (j < n)%N -> (left_of j < n)%N. Proof. by case: j => //= i; exact: ltnW. Qed.
Lemma right_lt j : (right_of n j < n)%N.
Proof. by rewrite /right_of; case: ifP => // _; case: (n) n1 => [|[|q]] //= _; rewrite subSS ltnS leq_subr. Qed.
Lemma edge_eq j : (j < n)%N -> (j == 0%N) || (j == n.-1) -> left_of j = right_of n j.
Proof.
move=> jN /orP[] /eqP ->; first by rewrite /right_of n1.
by rewrite /right_of prednK // ltnn subn2; case: (n) n1 => [|[|q]].
Qed.
Lemma amin_first_min (g : nat -> R) : first_min n g (amin (K:=K) n g).
Proof.
have [j E H] := first_min_argmin n0 g; suff -> : amin (K:=K) n g = j by [].
by apply: Some_inj; rewrite -E -vec_mkseq (@argmin_vec K) //; apply/ssrnat.ltP.
Qed.
(** the entry as a total function *)
Definition ivalue (g : nat -> R) : option R :=
  let j := amin (K:=K) n g in
  if second_difference n g j == 0 then None else Some (vertex (g (left_of j)) (g j) (g (right_of n j))).
Definition nvalue (g : nat -> option R) : option R :=
  if all (fun j => isSome (g j)) (iota 0 n) then ivalue (fun j => odflt 0 (g j)) else None.
Lemma pmap_mkseq (g : nat -> option R) : all (fun j => isSome (g j)) (iota 0 n) -> pmap id (mkseq g n) = mkseq (fun j => odflt 0 (g j)) n.
Proof. by rewrite /mkseq; elim: (iota 0 n) => //= j l IH /andP[]; case: (g j) => //= x _ /IH ->. Qed.
Lemma ninterpE (g : nat -> option R) : ninterp n.-1 (mkseq g n) = Some (nvalue g).
Proof.
rewrite /ninterp /nvalue all_map (@eq_all _ _ (fun j => isSome (g j))) //.
by case: ifP => // H; rewrite pmap_mkseq // (interpV (amin_first_min _)).
Qed.
Lemma combine_interpE (A B : seq (seq (option R))) : square n A -> square n B -> combine_V_interp A B = Some (mx n (fun i k => nvalue (nvia A B i k))).
Proof. by move=> sA sB; apply: interp_mx => // i k _ _; rewrite /nent ninterpE. Qed.
Lemma combine_interp_closed (A B : seq (seq (option R))) : square n A -> square n B -> exists2 C, combine_V_interp A B = Some C & square n C.
Proof. by move=> sA sB; rewrite combine_interpE //; eexists; [reflexivity | exact: mx_square]. Qed.

Section Num.
Variables A B : seq (seq R).
Hypotheses (sA : square n A) (sB : square n B).
Lemma nums_square (C : seq (seq R)) : square n C -> square n (nums C).
Proof. by case=> s1 s2; split; [rewrite size_map | rewrite all_map (@eq_all _ _ (fun r : seq R => size r == n)) // => r /=; rewrite size_map]. Qed.
Lemma nat2_nums (C : seq (seq R)) i j : square n C -> (i < n)%N -> (j < n)%N -> nat2 (nums C) i j = Some (at2 C i j).
Proof.
move=> [s1 /(all_nthP [::]) s2] iN jN; rewrite /nat2 /at2 (nth_map [::]) ?s1 // (nth_map 0) //.
by rewrite (eqP (s2 i _)) ?s1.
Qed.
Lemma nvalue_nums i k : (i < n)%N -> (k < n)%N -> nvalue (nvia (nums A) (nums B) i k) = ivalue (via A B i k).
Proof.
move=> iN kN; have E j : (j < n)%N -> nvia (nums A) (nums B) i k j = Some (via A B i k j) by move=> jN; rewrite /nvia !nat2_nums.
rewrite /nvalue (_ : all _ _ = true); last by apply/allP => j; rewrite mem_iota add0n => /andP[_ jN]; rewrite E.
have Eg j : (j < n)%N -> odflt 0 (nvia (nums A) (nums B) i k j) = via A B i k j by move=> jN; rewrite E.
rewrite /ivalue (amin_ext K n _ (via A B i k)) => [|j /ssrnat.ltP jN]; last by rewrite Eg.
have [jN _] := amin_first_min (via A B i k).
by rewrite /second_difference !Eg ?left_lt ?right_lt.
Qed.
Lemma interp_l : exists C, [/\ combine_V_interp (nums A) (nums B) = Some C, square n C &
    forall i k j, (i < n)%N -> (k < n)%N -> first_min n (via A B i k) j ->
    let g := via A B i k in
    if second_difference n g j == 0 then nat2 C i k = None
    else exists v, [/\ nat2 C i k = Some v, parabola_min (g (left_of j)) (g j) (g (right_of n j)) v,
        v <= g j, g j - second_difference n g j / 8%:R <= v & (j == 0%N) || (j == n.-1) -> v = g j]].
Proof.
have sA' := nums_square sA; have sB' := nums_square sB.
eexists; split; [exact: combine_interpE | exact: mx_square|].
move=> i k j iN kN Hj g; rewrite /nat2 nth_mx // nvalue_nums // /ivalue -/g.
rewrite (first_min_uniq (amin_first_min g) Hj).
have [jN Hmin] := Hj; have lm := (Hmin _ (left_lt jN)).1; have rm := (Hmin _ (right_lt j)).1.
case: (altP (second_difference n g j =P 0)) => // d0; exists (vertex (g (left_of j)) (g j) (g (right_of n j))); split => //.
- exact: vertex_parabola.
- exact: vertex_le.
- exact: vertex_ge.
by move=> /(edge_eq jN) e; apply: vertex_edge; rewrite e.
Qed.
(** samples of a parabola *)
Lemma interp_exact_l C i k (a b c x0 h : R) : combine_V_interp (nums A) (nums B) = Some C -> (i < n)%N -> (k < n)%N -> 0 < a -> 0 < h ->
  (forall j, (j < n)%N -> via A B i k j = a * (x0 + j%:R * h - c) ^+ 2 + b) ->
  x0 + h / 2%:R < c -> c <= x0 + n.-1%:R * h - h / 2%:R -> nat2 C i k = Some b.
Proof.
move=> EC iN kN a0 h0 G c1 c2.
have [jN Hmin] := amin_first_min (via A B i k).
have -> : nat2 C i k = ivalue (via A B i k).
  by move: EC; rewrite combine_interpE; [case=> <-; rewrite /nat2 nth_mx // nvalue_nums | exact: nums_square | exact: nums_square].
rewrite /ivalue; move: (amin _ _) jN Hmin => j jN Hmin.
have j_gt0 : (0 < j)%N.
  case: j jN Hmin => // _ /(_ _ n1) [] h01 _; exfalso.
  move: h01; rewrite !G // ler_add2r ler_pmul2l // mul0r addr0 mul1r => h01.
  have : 0 <= h * (2%:R * (x0 - c) + h).
    by rewrite -subr_ge0 (_ : _ - _ = h * (2%:R * (x0 - c) + h)) in h01; last by rsn R; ring.
  rewrite pmulr_rge0 // => h2; move: c1; rewrite ltNge => /negP; apply.
  rewrite -subr_ge0 (_ : _ - _ = (2%:R * (x0 - c) + h) / 2%:R); first by rewrite divr_ge0 ?ler0n.
  by sfield.
have j_lt : (j.+1 < n)%N.
  rewrite ltn_neqAle jN andbT; apply/eqP => ej.
  have jm : (j.-1 < n)%N by rewrite (leq_ltn_trans (leq_pred j)).
  have [_ /(_ _)] := Hmin _ jm; rewrite prednK // leqnn => /(_ isT).
  rewrite !G // ltr_add2r ltr_pmul2l // => h01.
  move: c2; rewrite -ej /= leNgt => /negP; apply.
  have Ej : j%:R = j.-1%:R + 1 :> R by rewrite -{1}(prednK j_gt0) -addn1 natrD.
  move: h01; rewrite Ej -subr_gt0.
  rewrite (_ : _ - _ = h * (2%:R * (c - (x0 + (j.-1%:R + 1) * h)) + h)); last by rsn R; ring.
  rewrite pmulr_rgt0 // => h2; rewrite -subr_gt0 (_ : _ - _ = (2%:R * (c - (x0 + (j.-1%:R + 1) * h)) + h) / 2%:R).
    by rewrite divr_gt0 ?ltr0n.
  by sfield.
have Lj : left_of j = j.-1 by case: (j) j_gt0.
have Rj : right_of n j = j.+1 by rewrite /right_of j_lt.
have jm : (j.-1 < n)%N by rewrite (leq_ltn_trans (leq_pred j)).
have Ej : j%:R = j.-1%:R + 1 :> R by rewrite -{1}(prednK j_gt0) -addn1 natrD.
have Ej' : j.+1%:R = j%:R + 1 :> R by rewrite -addn1 natrD.
have El : x0 + j.-1%:R * h - c = (x0 + j%:R * h - c) - h by rewrite Ej; rsn R; ring.
have Er : x0 + j.+1%:R * h - c = (x0 + j%:R * h - c) + h by rewrite Ej'; rsn R; ring.
rewrite Lj Rj !G // El Er; set e := x0 + j%:R * h - c.
rewrite (_ : second_difference _ _ _ = 2%:R * a * h * h).
  by rewrite vertex_exact // gt_eqF // !mulr_gt0 ?ltr0n.
by rewrite /second_difference Lj Rj !G // El Er -/e; rsn R; ring.
Qed.
End Num.
(** the loop version *)
Lemma interp2_l (A B : seq (seq (option R))) : square n A -> square n B -> combine_V_interp2 A B = combine_V_interp A B.
Proof.
move=> sA sB; have sz : size A = n by case: sA.
have cB : ncols B = n := ncols_square None n0 sB.
pose h i k := nvalue (nvia A B i k).
have body i k Vik : (i < n)%N -> (k < n)%N ->
  (let? row := List.nth_error A i in let? s := nvsum B row k in let? v := ninterp (size s).-1 s in upd2 Vik i k v) =
  upd2 Vik i k (h i k).
  move=> iN kN.
  have -> : List.nth_error A i = Some (mkseq (nat2 A i) n) by rewrite {1}(square_mx None sA) /mx nth_error_mkseq.
  by rewrite obindS' nvsumE // obindS' size_mkseq ninterpE.
have init : [seq [seq Some 0 | _ <- row] | row <- A] = mx n (fun _ _ => Some (0 : R)).
  apply: (@eq_from_nth _ [::]); first by rewrite size_map size_mkseq.
  move=> i; rewrite size_map sz => iN; rewrite (nth_map [::]) ?sz // nth_mkseq //.
  have /eqP <- : size (nth [::] A i) == n by case: sA => _ /(all_nthP [::]); apply; rewrite sz.
  apply: (@eq_from_nth _ None) => [|k]; first by rewrite size_map size_mkseq.
  by rewrite size_map => kl; rewrite (nth_map None) // nth_mkseq.
rewrite /combine_V_interp2 cB sz init (combine_interpE sA sB).
pose J m i' (k' : nat) : option R := if (i' < m)%N then h i' k' else Some 0.
have -> : mx n (fun _ _ => Some (0 : R)) = mx n (J 0%N) by [].
rewrite (for_inv (I := fun m => mx n (J m))) => [|i iN].
  by congr Some; apply: mx_ext => i k iN kN; rewrite /J iN.
pose L m i' k' := if (i' == i) && (k' < m)%N then h i' k' else J i i' k'.
have -> : mx n (J i) = mx n (L 0%N) by apply: mx_ext => i' k' _ _; rewrite /L andbF.
rewrite (for_inv (I := fun m => mx n (L m))) => [|k kN].
  congr Some; apply: mx_ext => i' k' iN' kN'; rewrite /L /J kN' andbT ltnS [(i' <= i)%N]leq_eqVlt.
  by case: eqP.
rewrite body // mx_tab upd2_tab; try exact/ssrnat.ltP.
congr Some; apply: mx_ext => i' k' iN' kN'; rewrite /L ltnS [(k' <= k)%N]leq_eqVlt.
rewrite -[Nat.eqb i' i]/(i' == i)%N -[Nat.eqb k' k]/(k' == k)%N.
by case: (i' =P i) => [->|] //=; case: (k' =P k) => [->|] //=.
Qed.
End Two.
End Interp.
