(** The finite-difference passes (C53, C72). *)
From Coq Require Import Ring Field.
From mathcomp Require Import all_ssreflect all_algebra zify.
From Verif Require Import ScanModel ScanSpec ScanUse Ord FscModel FscCore FscProofs FscProofs2 TfScan MxBase LinComb LqtModel ClqtModel ClqtTfModel PararealModel PararealFwd.
From Verif Require Import Rk4Proofs HjbModel HjbSpec HjbProofs.
Import Order.TTheory GRing.Theory Num.Theory.
Set Implicit Arguments. Unset Strict Implicit. Unset Printing Implicit Defensive.
Local Open Scope ring_scope.

Section Fd.
Variable R : realFieldType.
Local Notation K := (Fcost R).
Add Ring Rr : (mc_ring R).
Add Field Rf : (mc_field R).
Ltac sfield := rsn R; field; repeat split; num_neq0 R.
Lemma half_sum : 1 / 2%:R + 1 / 2%:R = 1 :> R. Proof. by sfield. Qed.
Lemma In_mem (x : R) s : List.In x s <-> x \in s.
Proof.
elim: s => //= y s IH; rewrite in_cons; split; first by case=> [->|/IH ->]; rewrite ?eqxx ?orbT.
by case/orP => [/eqP ->|/IH]; [left | right].
Qed.
Lemma vmin_least (s : seq R) : s <> [::] -> exists2 q, @vmin K s = Some q & least_of s q.
Proof.
move=> s0; have [q E] := vmin_some K s s0; exists q => //.
have [h1 h2] := (vmin_spec K s q).1 E.
by split; [exact/In_mem | move=> y /In_mem; exact: h2].
Qed.
Lemma least_uniq (s : seq R) p q : least_of s p -> least_of s q -> p = q.
Proof. by case=> p1 p2 [q1 q2]; apply/eqP; rewrite eq_le p2 // q2. Qed.

Section Step.
Variables (f L : R -> R -> R).
Lemma dvF mid dx V : (forall dx V, (1 < size V)%N -> size (mid dx V : seq R) = (size V - 2)%N) -> (1 < size V)%N -> dv_all mid dx V = mkseq (fun i =>
  if i == 0%N then (nth 0 V 1 - nth 0 V 0) / dx else if i.+1 == size V then (nth 0 V i - nth 0 V i.-1) / dx else nth 0 (mid dx V) i.-1) (size V).
Proof.
move=> Hm s1; have sm := Hm dx V s1.
have Ef : dv_first dx V = [:: (nth 0 V 1 - nth 0 V 0) / dx] by case: (V) s1 => [|x [|y l]].
have El : dv_last dx V = [:: (nth 0 V (size V).-1 - nth 0 V (size V).-2) / dx].
  rewrite /dv_last; have := nth_rev 0 (_ : (0 < size V)%N); have := nth_rev 0 (_ : (1 < size V)%N).
  move=> /(_ s1) E1 /(_ (ltnW s1)) E0; rewrite subn1 in E0; rewrite subn2 in E1; rewrite -E0 -E1.
  have := size_rev V; case: (rev V) => [|a [|b l]] //= E; by move: s1; rewrite -E.
apply: (@eq_from_nth _ 0); first by rewrite /dv_all !size_cat Ef El sm size_mkseq /=; lia.
move=> i; rewrite /dv_all !size_cat Ef El sm /= => iS; rewrite nth_mkseq; last by lia.
case: i iS => [|i] iS //=; rewrite nth_cat sm; case: ltnP => h.
  by rewrite ifF //; apply/eqP; lia.
have -> : i = (size V - 2)%N by lia.
by rewrite subnn ifT /=; [congr ((nth 0 V _ - nth 0 V _) / dx); lia | apply/eqP; lia].
Qed.
Lemma size_inner (V : seq R) : size (inner V) = (size V - 2)%N.
Proof. by rewrite /inner size_take size_drop; move: (size V) => N; case: ltnP => h; lia. Qed.
Lemma size_but2 (V : seq R) : size (but_last2 V) = (size V - 2)%N.
Proof. by rewrite /but_last2 size_take; move: (size V) => N; case: ltnP => h; lia. Qed.
Lemma nth_fwd (dx : R) (V : seq R) i : (i.+2 < size V)%N -> nth 0 (dv_fwd dx V) i = (nth 0 V i.+2 - nth 0 V i.+1) / dx.
Proof.
move=> h; have h2 : (i < size V - 2)%N by lia.
rewrite /dv_fwd (nth_map (0, 0)); last by rewrite size_zip size_drop size_inner minnn.
rewrite nth_zip; last by rewrite size_drop size_inner.
by rewrite /= nth_drop /inner nth_take // nth_drop add2n add1n.
Qed.
Lemma nth_bwd (dx : R) (V : seq R) i : (i.+2 < size V)%N -> nth 0 (dv_bwd dx V) i = (nth 0 V i.+1 - nth 0 V i) / dx.
Proof.
move=> h; have h2 : (i < size V - 2)%N by lia.
rewrite /dv_bwd (nth_map (0, 0)); last by rewrite size_zip size_but2 size_inner minnn.
rewrite nth_zip; last by rewrite size_but2 size_inner.
by rewrite /= /inner /but_last2 !nth_take // nth_drop add1n.
Qed.
Lemma size_fwd (dx : R) (V : seq R) : (1 < size V)%N -> size (dv_fwd dx V) = (size V - 2)%N.
Proof. by move=> h; rewrite size_map size_zip size_drop size_inner minnn. Qed.
Lemma size_bwd (dx : R) (V : seq R) : (1 < size V)%N -> size (dv_bwd dx V) = (size V - 2)%N.
Proof. by move=> h; rewrite size_map size_zip size_but2 size_inner minnn. Qed.

Lemma omap_seqE {X Y} (g : X -> option Y) (h : X -> Y) l : (forall x, List.In x l -> g x = Some (h x)) -> omap_seq g l = Some (map h l).
Proof.
elim: l => // x l IH H; rewrite -[LHS]/(let? y := g x in let? ys := omap_seq g l in Some (y :: ys)) H; last by left.
by rewrite obindS' IH // => y yl; apply: H; right.
Qed.
Lemma zip_mkseq {X Y} (g : nat -> X) (h : nat -> Y) k : zip (mkseq g k) (mkseq h k) = mkseq (fun i => (g i, h i)) k.
Proof. by rewrite /mkseq; elim: (iota 0 k) => //= i l ->. Qed.
Lemma to_mkseq (s : seq R) : s = mkseq (nth 0 s) (size s).
Proof. by rewrite -[LHS](mkseq_nth 0). Qed.

Section Up.
Variables (xs us : seq R) (dx dt : R).
Hypotheses (us0 : us <> [::]) (s1 : (1 < size xs)%N).
Lemma upwind_QE x u dvf dvb : upwind_Q f L x u dvf dvb = L x u + f x u * (if 0 < f x u then dvf else dvb).
Proof.
rewrite /upwind_Q /sign; case: (altP (f x u =P 0)) => [->|f0].
  by rewrite !(mulr0, mul0r) !addr0.
case: ifP => _.
  by rewrite mulr1 half_sum subrr !mul0r addr0 mul1r.
by rewrite mulrN1 subrr !mul0r addr0 opprK half_sum mul1r.
Qed.
Lemma upwind_step_l V : size V = size xs -> exists V', [/\ upwind_step f L xs us dx dt V = Some V', size V' = size xs &
  forall i, (i < size xs)%N -> 0 <= dt -> least_of [seq upwind_cost f L dx dt xs V i u | u <- us] (nth 0 V' i)].
Proof.
move=> sV; have s1' : (1 < size V)%N by rewrite sV.
pose df := mkseq (fun i => if i == 0%N then (nth 0 V 1 - nth 0 V 0) / dx else if i.+1 == size V then (nth 0 V i - nth 0 V i.-1) / dx else nth 0 (dv_fwd dx V) i.-1) (size V).
pose db := mkseq (fun i => if i == 0%N then (nth 0 V 1 - nth 0 V 0) / dx else if i.+1 == size V then (nth 0 V i - nth 0 V i.-1) / dx else nth 0 (dv_bwd dx V) i.-1) (size V).
pose Q i := [seq upwind_Q f L (nth 0 xs i) u (nth 0 df i) (nth 0 db i) | u <- us].
have Q0 i : Q i <> [::] by rewrite /Q; case: (us) us0.
pose q i := odflt 0 (@vmin K (Q i)).
have qE i : @vmin K (Q i) = Some (q i) by rewrite /q; have [z -> _] := vmin_least (@Q0 i).
have qL i : least_of (Q i) (q i) by have [z E H] := vmin_least (@Q0 i); rewrite /q E.
exists (mkseq (fun i => nth 0 V i + q i * dt) (size xs)); split; last 1 first.
- move=> i iS d0; rewrite nth_mkseq //.
  have QC : [seq upwind_cost f L dx dt xs V i u | u <- us] = [seq nth 0 V i + z * dt | z <- Q i].
    rewrite -map_comp; apply: eq_map => u /=; rewrite /upwind_cost upwind_QE; congr (_ + (_ + _ * _) * _).
    rewrite /upwind_quotient /df /db !nth_mkseq ?sV //; case: (altP (i =P 0%N)) => [_|i0]; first by case: ifP.
    case: (altP (i.+1 =P size xs)) => [_|iN] /=; first by case: ifP.
    have hi : (i.-1.+2 < size V)%N by rewrite prednK ?lt0n // sV ltn_neqAle iN.
    by rewrite nth_fwd // nth_bwd // prednK ?lt0n //; case: (0 < _).
  rewrite QC; have [h1 h2] := qL i; split; first by apply/mapP; exists (q i).
  by move=> y /mapP [z zQ ->]; rewrite ler_add2l; apply: ler_wpmul2r => //; exact: h2.
- rewrite /upwind_step (dvF _ size_fwd s1') (dvF _ size_bwd s1') -/df -/db.
  have sz : size V = size xs by [].
  rewrite [in zip xs V](to_mkseq xs) [X in zip (zip _ X)](to_mkseq V) (to_mkseq df) (to_mkseq db) /df /db !size_mkseq -/df -/db sV.
  rewrite !zip_mkseq.
  rewrite (@omap_seqE _ _ _ (fun z => z.1.2 + odflt 0 (@vmin K [seq upwind_Q f L z.1.1 u z.2.1 z.2.2 | u <- us]) * dt)).
    by rewrite /mkseq -map_comp.
  move=> z zI; rewrite /upwind_point.
  have ne : [seq upwind_Q f L z.1.1 u z.2.1 z.2.2 | u <- us] <> [::] by case: (us) us0.
  by have [q' -> _] := vmin_least ne.
by rewrite size_mkseq.
Qed.
End Up.

(** the symmetric step: argmin and evaluation again is the minimum *)
Lemma symfd_pointE us dt x v dv : symfd_point f L us dt x v dv =
  let? q := @vmin K [seq L x u + f x u * dv | u <- us] in Some (v + q * dt).
Proof.
rewrite /symfd_point; set g := fun u => L x u + f x u * dv.
case E : (@argmin K (map g us)) => [j|]; last by case: us E.
rewrite obindS'; have [v' [E1 ->]] := argmin_vmin K _ _ E; rewrite obindS'.
have -> : List.nth_error us j = Some (nth 0 us j).
  by move: E1; elim: (us) (j) {E} => [|u us' IH] [|j'] //=; exact: IH.
rewrite obindS'; congr (Some (v + _ * dt)).
by move: E1; elim: (us) (j) {E} => [|u us' IH] [|j'] //=; [case | exact: IH].
Qed.
Lemma tf_symfd_stepE xs us dx dt V : tf_symfd_step f L xs us dx dt V = symfd_step f L xs us dx dt V.
Proof.
rewrite /tf_symfd_step /symfd_step; elim: (zip _ _) => // z l IH.
by rewrite [LHS]/= [RHS]/= symfd_pointE IH.
Qed.
End Step.

(** the loops, for a step that never raises *)
Section Loop.
Variables (LT : R -> R) (mk : seq R -> seq R -> R -> R -> seq R -> option (seq R)) (xs us : seq R).
Variables (T dx : R) (blocks steps : nat).
Hypotheses (b0 : (0 < blocks)%N) (s0 : (0 < steps)%N) (dxE : grid_dx xs = Some dx) (dx0 : dx != 0).
Let dt := T / blocks%:R / steps%:R.
Variable g : seq R -> seq R.
Variable I : seq R -> Prop.
Hypothesis gE : forall V, I V -> mk xs us dx dt V = Some (g V) /\ I (g V).
Let V0 := [seq LT x | x <- xs].
Hypothesis I0 : I V0.
Definition itV k := iter k g V0.
Lemma itI k : I (itV k). Proof. by elim: k => // k IH; rewrite /itV iterS; case: (gE IH). Qed.
Lemma iter_oE k j : iter_o k (mk xs us dx dt) (itV j) = Some (itV (k + j)).
Proof.
elim: k j => // k IH j; rewrite -[LHS]/(let? s' := mk xs us dx dt (itV j) in iter_o k (mk xs us dx dt) s') (gE (itI j)).1 obindS'.
by rewrite -[g _]/(itV j.+1) IH addSnnS.
Qed.
Lemma fd_blocksE b j : fd_blocks (mk xs us dx dt) steps b (itV j) = Some [seq itV (j + k * steps) | k <- iota 1 b].
Proof.
elim: b j => // b IH j.
rewrite -[LHS]/(let? V' := iter_o steps (mk xs us dx dt) (itV j) in let? l := fd_blocks (mk xs us dx dt) steps b V' in Some (V' :: l)).
rewrite iter_oE obindS' IH obindS' -[iota 1 b.+1]/(1%N :: iota 2 b) map_cons mul1n addnC; congr (Some (_ :: _)).
rewrite -[2%N]/(1 + 1)%N iotaDl -map_comp; apply: eq_map => k /=.
by rewrite mulnDl mul1n addnA.
Qed.
Lemma seq_fdE : seq_fd LT mk T blocks steps xs us = Some (rev [seq itV (k * steps) | k <- iota 0 blocks.+1]).
Proof.
rewrite /seq_fd dxE obindS' /= (negPf (lt0n_neq0 b0)) (negPf (lt0n_neq0 s0)) obindS' (negPf dx0).
by rewrite -/dt -/V0 -[V0]/(itV 0) fd_blocksE obindS'.
Qed.
Lemma tf_scan_itE k j (l : seq nat) : size l = k -> tf_scan (fun V (_ : nat) => mk xs us dx dt V) (itV j) l = Some [seq itV i | i <- iota j.+1 k].
Proof.
elim: k j l => [|k IH] j [|x l] // [sl].
rewrite -[LHS]/(let? x' := mk xs us dx dt (itV j) in let? r := tf_scan (fun V (_ : nat) => mk xs us dx dt V) x' l in Some (x' :: r)).
by rewrite (gE (itI j)).1 obindS' -[g _]/(itV j.+1) IH.
Qed.
Lemma stride_rev (W : nat -> seq R) B s : (0 < s)%N ->
  stride s (rev [seq W i | i <- iota 0 (B * s).+1]) = Some (rev [seq W (k * s)%N | k <- iota 0 B.+1]).
Proof.
move=> sp; rewrite /stride (negPf (lt0n_neq0 sp)) size_rev size_map size_iota; congr Some.
elim: B => [|B IH]; first by rewrite /= mod0n.
have e : (B.+1 * s).+1 = (s + (B * s).+1)%N by rewrite mulSn addnS.
have -> : rev [seq W i | i <- iota 0 (B.+1 * s).+1] = rev [seq W i | i <- iota (B * s).+1 s] ++ rev [seq W i | i <- iota 0 (B * s).+1].
  by rewrite e addnC iotaD map_cat rev_cat add0n.
have -> : rev [seq W (k * s)%N | k <- iota 0 B.+2] = W (B.+1 * s)%N :: rev [seq W (k * s)%N | k <- iota 0 B.+1].
  by rewrite -[B.+2]addn1 iotaD map_cat rev_cat.
rewrite e iotaD map_cat mask_cat; last by rewrite size_rev !size_map !size_iota.
rewrite -IH -cat1s; congr (_ ++ _).
  case: s sp e {IH} => // s _ e.
  have -> : rev [seq W i | i <- iota (B * s.+1).+1 s.+1] = W (B.+1 * s.+1)%N :: rev [seq W i | i <- iota (B * s.+1).+1 s].
    by rewrite -{2}[s.+1]addn1 iotaD map_cat rev_cat /=; congr (W _ :: _); lia.
  rewrite -[iota 0 s.+1]/(0%N :: iota 1 s) map_cons mod0n eqxx mask_cons /=; congr cons.
  have -> : [seq (i %% s.+1 == 0)%N | i <- iota 1 s] = nseq s false.
    apply: (@eq_from_nth _ false) => [|i]; rewrite size_map size_iota ?size_nseq // => h.
    by rewrite (nth_map 0%N) ?size_iota // nth_iota // nth_nseq h modn_small ?add1n.
  by rewrite mask_false.
congr (mask _ _); rewrite addnC iotaDl -map_comp; apply: eq_map => i /=.
by rewrite modnDl.
Qed.
Lemma tf_seq_fdE : tf_seq_fd LT mk T blocks steps xs us = seq_fd LT mk T blocks steps xs us.
Proof.
rewrite seq_fdE /tf_seq_fd dxE obindS' (negPf dx0) -/dt -/V0 /tf_scan_rev -[V0]/(itV 0).
rewrite (@tf_scan_itE (blocks * steps)) ?size_rev ?size_iota // [omap _ _]/= obindS'.
by rewrite -rev_cons -(stride_rev _ _ s0).
Qed.
End Loop.
End Fd.
