(** Symmetry and lengths of the backward passes; combination of the value functions. *)
From Coq Require Import Ring Field.
From mathcomp Require Import all_ssreflect all_algebra zify.
From Verif Require Import ScanModel ScanSpec ScanProofs ScanUse BracketSpec ScanRel MxBase LqtModel LqtSpec LqtCore LqtElem LinComb Rk4Model Rk4Spec Rk4Proofs ClqtModel ClqtPack ClqtSpec ClqtFwd2.
Import Order.TTheory GRing.Theory Num.Theory.
Set Implicit Arguments. Unset Strict Implicit. Unset Printing Implicit Defensive.
Local Open Scope ring_scope.

Section Val.
Variable R : realFieldType.
Variables n m p pT : nat.
Variable P : clqt R n m p pT.
Add Ring Rr : (mc_ring R).
Add Field Rf : (mc_field R).

Lemma symz_symm (M : 'M[R]_n) : symm (symz M).
Proof. by rewrite /symm /symz linearZ /= linearD /= trmxK addrC. Qed.

Lemma bwd_loop_spec dt t0 l Sv Ks ds Ss vs Ks' ds' Ss' vs' :
  bwd_loop P dt t0 l Sv (Ks, ds, Ss, vs) = Some (Ks', ds', Ss', vs') ->
  [/\ size Ks' = (l + size Ks)%N, size ds' = (l + size ds)%N
    & exists A B, [/\ Ss' = A ++ Ss, vs' = B ++ vs, size A = l, size B = l & forall Q, Q \in A -> symm Q]].
Proof.
elim: l Sv Ks ds Ss vs => [|l IH] Sv Ks ds Ss vs.
  by move=> [<- <- <- <-]; split => //; exists [::], [::].
rewrite -[bwd_loop _ _ _ _.+1 _ _]/(let? Sv' := bwd_step P dt t0 l Sv in
      let? '(K, d) := bwd_gain P dt t0 l Sv' in
      bwd_loop P dt t0 l Sv' (K :: Ks, d :: ds, Sv'.1 :: Ss, Sv'.2 :: vs)).
case E: (bwd_step P dt t0 l Sv) => [[Q v]|]; last by [].
rewrite obindS; case: (bwd_gain P dt t0 l (Q, v)) => [[K d]|]; last by [].
rewrite obindS => /IH [sK sd [A [B [-> -> sA sB H]]]]; split; try by rewrite ?sK ?sd /= addnS.
exists (rcons A Q), (rcons B v); rewrite !cat_rcons !size_rcons sA sB; split => // Q'.
rewrite mem_rcons inE => /orP [/eqP ->|/H //].
move: E; rewrite /bwd_step; case: (rk4_xt _ _ _ _) => [x|]; last by [].
by rewrite obindS => -[<- _]; exact: symz_symm.
Qed.

Definition symm_all (Ss : seq 'M[R]_n) := forall Q, Q \in Ss -> symm Q.
Lemma seq_backward_spec steps dt t0 Q v Ks ds Ss vs : symm (or_else Q (ST P)) ->
  clqt_seqBackwardPass P steps dt t0 Q v = Some (Ks, ds, Ss, vs) ->
  [/\ size Ks = steps, size ds = steps &
    exists A B, [/\ Ss = rcons A (or_else Q (ST P)), vs = rcons B (or_else v (vT P)), size A = steps, size B = steps & symm_all Ss]].
Proof.
move=> sQ; rewrite /clqt_seqBackwardPass; case: (dt_or P dt _) => [h|]; last by [].
rewrite obindS => /bwd_loop_spec [-> -> [A [B [-> -> sA sB H]]]]; rewrite !addn0; split => //.
exists A, B; rewrite !cats1; split => // Q'; rewrite mem_rcons inE => /orP [/eqP -> //|]; exact: H.
Qed.

(** combination keeps C and J symmetric *)
Definition symm_elem (e : elem R n) := symm (eC e) /\ symm (eJ e).
Lemma combine_symm e f g : symm_elem e -> symm_elem f -> combine_abcej e f = Some g -> symm_elem g.
Proof.
case: e f => A b C eta J [A' b' C' eta' J'] [/= sC sJ] [/= sC' sJ']; rewrite /combine_abcej /=.
case E1: (solve (1%:M + C *m J') A) => [x1|] //=; have [u _] := (solveP _ _ _).1 E1; rewrite !(solve_unit _ u) /=.
case E2: (solve (1%:M + J' *m C) (eta' - J' *m b)) => [y1|] //=; have [u' _] := (solveP _ _ _).1 E2; rewrite !(solve_unit _ u') /= => -[<-].
have tW : (invmx (1%:M + C *m J'))^T = invmx (1%:M + J' *m C).
  by rewrite trmx_inv linearD /= trmx1 trmx_mul sJ' sC.
have tV : (invmx (1%:M + J' *m C))^T = invmx (1%:M + C *m J').
  by rewrite -tW trmxK.
have c1 : invmx (1%:M + C *m J') *m C = C *m invmx (1%:M + J' *m C).
  apply: (unit_inj u); rewrite mulKVmx // mulmxA mulmxDl mul1mx -mulmxA.
  have -> : C + C *m (J' *m C) = C *m (1%:M + J' *m C) by rewrite mulmxDr mulmx1.
  by rewrite mulmxK.
have c2 : invmx (1%:M + J' *m C) *m J' = J' *m invmx (1%:M + C *m J').
  apply: (unit_inj u'); rewrite mulKVmx // mulmxA mulmxDl mul1mx -mulmxA.
  have -> : J' + J' *m (C *m J') = J' *m (1%:M + C *m J') by rewrite mulmxDr mulmx1.
  by rewrite mulmxK.
split; rewrite /symm /= linearD /= ?sC' ?sJ; congr (_ + _); rewrite !trmx_mul trmxK.
  by rewrite ?sC ?sJ' tW -!mulmxA [C *m (_ *m _)]mulmxA -c1 !mulmxA.
by rewrite ?sC ?sJ' tV -!mulmxA [J' *m (_ *m _)]mulmxA -c2 !mulmxA.
Qed.

Lemma block_symm dt t0 steps forward k e : block_elem P dt t0 steps forward k = Some e -> symm_elem e.
Proof.
have H l ode (g : nat -> R) h e0 e1 : symm_elem e0 ->
    for_ l (fun i e => elem_step (n := n) ode h (g i) e) e0 = Some e1 -> symm_elem e1.
  elim: l e0 => [|i l IH] e0 s0; first by case=> <-.
  rewrite for_cons; case E: (elem_step _ _ _ _) => [e2|]; last by [].
  apply: IH; move: E; rewrite /elem_step; case: (rk4_xt _ _ _ _) => [x|]; last by [].
  by rewrite obindS => -[<-]; split; exact: symz_symm.
have s0 : symm_elem (Elem (1%:M : 'M[R]_n) 0 0 0 0) by split; exact: symm0.
rewrite /block_elem; case: forward; first exact: (H _ _ (fun i => t0 + (k * steps + i)%:R * dt)).
exact: (H _ _ (fun i => t0 + (k * steps + i + 1)%:R * dt)).
Qed.
Lemma omap_seq_P {X Y} (f : X -> option Y) (T : Y -> Prop) l r : (forall x y, f x = Some y -> T y) ->
  omap_seq f l = Some r -> List.Forall T r /\ size r = size l.
Proof.
move=> H; elim: l r => [|x l IH] r /=; first by case=> <-; split.
case E: (f x) => [y|] //=; case E2: (omap_seq f l) => [r'|] //= [<-].
have [F sz] := IH _ E2; split; last by rewrite /= sz.
by constructor => //; exact: (H _ _ E).
Qed.

(** extraction of the parallel backward pass *)
Lemma par_extract_spec dt t0 steps k es Ks ds Ss vs : (forall e, List.In e es -> symm (eJ e)) ->
  par_extract_loop P dt t0 steps k es = Some (Ks, ds, Ss, vs) ->
  [/\ size Ks = (size es * steps)%N, size ds = (size es * steps)%N, size Ss = (size es * steps)%N, size vs = (size es * steps)%N &
    symm_all Ss /\ forall es' e, es = rcons es' e -> (0 < steps)%N -> last 0 Ss = eJ e /\ last 0 vs = eeta e].
Proof.
elim: es k Ks ds Ss vs => [|e es IH] k Ks ds Ss vs H.
  by case=> <- <- <- <-; split => //; split=> // -[].
rewrite -[par_extract_loop _ _ _ _ _ (_ :: _)]/(
      let? '(bKs, bds, bSs, bvs) := clqt_seqBackwardPass P steps (Some dt) (Some (t0 + k%:R * dt * steps%:R)) (Some (eJ e)) (Some (eeta e)) in
      let? '(Ks, ds, Ss, vs) := par_extract_loop P dt t0 steps k.+1 es in
      Some (bKs ++ Ks, bds ++ ds, behead bSs ++ Ss, behead bvs ++ vs)).
case E: (clqt_seqBackwardPass _ _ _ _ _ _) => [[[[bKs bds] bSs] bvs]|]; last by [].
have [sK sd [A [B [eS ev sA sB sy]]]] := seq_backward_spec (Q := Some (eJ e)) (H e (or_introl erefl)) E.
rewrite obindS; case E2: (par_extract_loop _ _ _ _ _ _) => [[[[Ks2 ds2] Ss2] vs2]|]; last by [].
have [|s1 s2 s3 s4 [sy2 l2]] := IH _ _ _ _ _ _ E2; first by move=> e' ie; apply: H; right.
rewrite obindS => -[<- <- <- <-]; rewrite eS ev !size_cat !size_behead !size_rcons sK sd sA sB s1 s2 s3 s4.
split => //; split.
  move=> Q; rewrite mem_cat => /orP [|/sy2 //].
  by move=> /mem_behead; rewrite -eS => /sy.
move=> es' e2; case: es' => [|e' es'] /= []; last first.
  move=> _ ees st; have [l3 l4] := l2 _ _ ees st.
  have ne : (0 < size Ss2)%N by rewrite s3 ees size_rcons mulSn addn_gt0 st.
  have ne' : (0 < size vs2)%N by rewrite s4 ees size_rcons mulSn addn_gt0 st.
  rewrite !last_cat; case: Ss2 ne l3 {sy2 s3 E2 l2} => // q Ss2 _ /= ->.
  by case: vs2 ne' l4 {s4} => // q' vs2 _ /= ->.
move=> <- ees st; rewrite ees in s3 s4 *; case: Ss2 s3 {sy2 E2 l2} => // _; case: vs2 s4 => // _; rewrite !cats0.
by case: A sA {eS} => [|a A] sA; [move: st; rewrite -sA|case: B sB {ev} => [|b B] sB; [move: st; rewrite -sB|rewrite /= !last_rcons]].
Qed.

Lemma nth_in {X} (l : seq X) (x : X) : List.In x l -> exists k, List.nth_error l k = Some x.
Proof. exact: List.In_nth_error. Qed.

Theorem par_backward_spec blocks steps dt t0 forward Ks ds Ss vs : symm (kXT P) ->
  clqt_parBackwardPass P blocks steps dt t0 forward = Some (Ks, ds, Ss, vs) ->
  [/\ size Ks = (blocks * steps)%N, size ds = (blocks * steps)%N, size Ss = (blocks * steps).+1, size vs = (blocks * steps).+1 &
    symm_all Ss /\ ((0 < steps)%N \/ blocks = 0%N -> last 0 Ss = ST P /\ last 0 vs = vT P)].
Proof.
move=> sX; rewrite /clqt_parBackwardPass; case: (dt_or P dt _) => [h|]; last by [].
rewrite obindS /clqt_parBackwardPass_init.
case E1: (omap_seq _ _) => [es|]; last by [].
rewrite 2!obindS /par_backward_pass_scan; case E2: (my_assoc_scan _ _ _) => [r|]; last by [].
rewrite obindS.
have [F sz] := omap_seq_P (@block_symm h (or_else t0 0) steps forward) E1; rewrite size_iota in sz.
have sT : symm (ST P) by rewrite /ST; exact: symm_cong.
have F' : List.Forall symm_elem (rcons es (Elem 0 0 0 (vT P) (ST P))).
  by rewrite -cats1; apply/List.Forall_app; split=> //; constructor=> //; split => //; exact: symm0.
have [lr br] := scan_bracketing _ _ _ _ E2.
have {lr} lr : size r = blocks.+1.
  have -> : size r = length r by [].
  by rewrite lr -[length _]/(size (rcons es _)) size_rcons sz.
have sr e : List.In e r -> symm_elem e.
  move=> ie; have [k ek] := List.In_nth_error _ _ ie; apply: (br_inv _ _ combine_symm _ _ (br _ _ ek)).
  by move/List.Forall_forall: F' => F'; apply/List.Forall_forall => x ix; apply: F'; rewrite -[rcons _ _](List.firstn_skipn k); apply/List.in_or_app; right.
have lastr : forall r' e, r = rcons r' e -> e = Elem 0 0 0 (vT P) (ST P).
  move=> r' e er; move: lr; rewrite er size_rcons => -[lr'].
  have : List.nth_error r blocks = Some e by rewrite er (nthe e) ?size_rcons ?lr' // nth_rcons lr' ltnn eqxx.
  move=> /br; have -> : List.skipn blocks (rcons es (Elem 0 0 0 (vT P) (ST P))) = [:: Elem 0 0 0 (vT P) (ST P)].
    by rewrite -sz -cats1 List.skipn_app List.skipn_all PeanoNat.Nat.sub_diag.
  exact: br_one.
case: r E2 br sr lr lastr => [//|e r] _ _ sr [lr] lastr.
rewrite /clqt_parBackwardPass_extract.
case E3: (par_extract_loop _ _ _ _ _ _) => [[[[Ks' ds'] Ss'] vs']|]; last by [].
have [|s1 s2 s3 s4 [sy l3]] := par_extract_spec _ E3.
  by move=> e' ie; case: (sr e') => //; right.
rewrite obindS => -[<- <- <- <-]; rewrite /= s1 s2 s3 s4 lr; split => //; split.
  by move=> Q; rewrite inE => /orP [/eqP ->|/sy //]; case: (sr e) => //; left.
case: (lastP r) lr lastr l3 s3 s4 {E3 s1 s2 sr} => [|r' e'] lr lastr l3 s3 s4.
  by rewrite /= in lr s3 s4; rewrite (lastr [::] e) //=; case: Ss' s3 {sy l3} => //; case: vs' s4.
case=> [st|b0]; last by move: lr; rewrite b0 size_rcons.
have [a b] := l3 _ _ erefl st; have el := lastr (e :: r') e' erefl; rewrite el /= in a b.
have ne1 : (0 < size Ss')%N by rewrite s3 size_rcons mulSn addn_gt0 st.
have ne2 : (0 < size vs')%N by rewrite s4 size_rcons mulSn addn_gt0 st.
by case: Ss' ne1 a {sy l3 s3} => // q Ss' _ /= ->; case: vs' ne2 b {s4} => // q' vs' _ /= ->.
Qed.

(** ** combination of the value functions *)
Lemma combine_min (C Q : 'M[R]_n) b v : symm C -> psd C -> symm Q -> psd Q ->
  exists x, solve (1%:M + C *m Q) (b + C *m v) = Some x /\ unique_minimiser C b Q v x.
Proof.
move=> sC pC sQ pQ; have u := unit_ICJ sC pC sQ pQ.
rewrite (solve_unit _ u); eexists; split; first by []; set x := _ *m _.
have E : x + C *m (Q *m x) = b + C *m v by rewrite mulmxA -{1}[x]mul1mx -mulmxDl mulKVmx.
have xE : x = b + C *m (v - Q *m x).
  by rewrite mulmxBr addrA -E addrK.
exists (v - Q *m x); split => // w' x' ->.
pose d := w' - (v - Q *m x).
have x'E : b + C *m w' = x + C *m d by rewrite {1}xE /d !mulmxBr; abel.
have wE : w' = (v - Q *m x) + d by rewrite /d addrC subrK.
clearbody d x.
have D : fwd_bwd_cost C Q v w' (b + C *m w') = fwd_bwd_cost C Q v (v - Q *m x) x + (qf C d / 2%:R + qf Q (C *m d) / 2%:R).
  rewrite x'E wE.
  rewrite /fwd_bwd_cost (qfD _ _ sC) (qfD _ _ sQ) [dot v (_ + _)]dotDr [dot (C *m _) d]dotMl sC [dot (_ - _) _]dotBl.
  move: (qf C _) (qf C _) (qf Q _) (qf Q _) (dot _ _) (dot _ _) (dot _ _) => a1 a2 a3 a4 a5 a6 a7.
  rsn R; field; exact: two_neq0.
have pos : 0 <= qf C d / 2%:R + qf Q (C *m d) / 2%:R.
  by rewrite addr_ge0 // divr_ge0 ?ler0n // ?pC ?pQ.
rewrite D; split; first by rewrite ler_addl.
rewrite ger_addl => neg; rewrite x'E.
suff -> : C *m d = 0 by rewrite addr0.
apply: psd_ker => //; apply/eqP; rewrite eq_le pC andbT.
have : qf C d / 2%:R <= 0 by apply: le_trans neg; rewrite ler_addl divr_ge0 ?ler0n // pQ.
by rewrite pmulr_lle0 // invr_gt0 ltr0n.
Qed.

Theorem combine_spec (Ks : seq 'M[R]_(m, n)) ds Ss vs es : size vs = size Ss -> size es = size Ss -> (size Ks <= size ds)%N ->
  (forall k, (k < size Ss)%N -> [/\ symm (nth (0, 0, 0) es k).2, psd (nth (0, 0, 0) es k).2, symm (nth 0 Ss k) & psd (nth 0 Ss k)]) ->
  exists us xs, [/\ combineForwardBackward Ks ds Ss vs es = Some (us, xs), size xs = size Ss, size us = minn (size Ks) (size Ss),
    forall k, (k < size Ss)%N -> let: (_, b, C) := nth (0, 0, 0) es k in unique_minimiser C b (nth 0 Ss k) (nth 0 vs k) (nth 0 xs k) &
    forall k, (k < minn (size Ks) (size Ss))%N -> nth 0 us k = - nth 0 Ks k *m nth 0 xs k + nth 0 ds k].
Proof.
elim: Ss Ks ds vs es => [|Q Ss IH] Ks ds [|v vs] [|[[A b] C] es] //.
  by move=> _ _ _ _; exists [::], [::]; rewrite minn0; split=> //; case: Ks.
move=> [sv] [se] sd H; have [/= sC pC sQ pQ] := H 0%N isT.
have [x [E mx]] := combine_min b v sC pC sQ pQ.
have H' k : (k < size Ss)%N -> [/\ symm (nth (0, 0, 0) es k).2, psd (nth (0, 0, 0) es k).2, symm (nth 0 Ss k) & psd (nth 0 Ss k)] := H k.+1.
case: Ks ds sd => [|K Ks] ds sd.
  have [us [xs [E2 s1 s2 h1 h2]]] := IH [::] ds vs es sv se (leq0n _) H'.
  exists us, (x :: xs); rewrite /= E /= E2 /= s1 s2 !min0n; split => //.
  by case=> [|k] // lt; exact: h1.
case: ds sd => [//|d ds] sd.
have [us [xs [E2 s1 s2 h1 h2]]] := IH Ks ds vs es sv se sd H'.
exists (- K *m x + d :: us), (x :: xs); rewrite /= E /= E2 /= s1 s2 minnSS; split => //.
  by case=> [|k] // lt; exact: h1.
by case=> [|k] // lt; exact: h2.
Qed.
End Val.
