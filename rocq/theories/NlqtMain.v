(** Nonlinear tracker: the iteration. *)
From Coq Require Import Ring Field.
From mathcomp Require Import all_ssreflect all_algebra.
From Verif Require Import TfScan MxBase LqtModel LqtSpec LqtCore LqtProofs LqtPar LqtMore LqtTfModel LqtTfSpec LqtTf NlqtModel NlqtSpec NlqtProofs.
Import Order.TTheory GRing.Theory Num.Theory.
Set Implicit Arguments. Unset Strict Implicit. Unset Printing Implicit Defensive.
Local Open Scope ring_scope.

Section Main.
Variable R : realFieldType.
Variables n m : nat.
Variable M : nlmodel R n m.
Notation vstage := (vstage R n m).
Implicit Types (P : lqt R n m) (sts : seq vstage) (us : seq 'cV[R]_m) (xs : seq 'cV[R]_n).

Fixpoint lin_stages sts us xs : seq vstage :=
  match sts, us, xs with
  | s :: sts', u :: us', x :: xs' => VStage (lin_stage M s x u) :: lin_stages sts' us' xs'
  | _, _, _ => [::]
  end.
Definition linP P us xs := Lqt (lin_stages (stages P) us xs) (XT P) (HT P) (rT P).
Lemma lin_loopE sts us xs : size us = size sts -> (size us <= size xs)%N -> lin_loop M sts us xs = Some (lin_stages sts us xs).
Proof. by elim: sts us xs => [|s sts IH] [|u us] [|x xs] //= [sz] le; rewrite IH. Qed.
Lemma linearizeE P us xs : size us = size (stages P) -> (size us <= size xs)%N -> linearize M P us xs = Some (linP P us xs).
Proof. by move=> sz le; rewrite /linearize lin_loopE. Qed.
Lemma size_lin sts us xs : size us = size sts -> (size us <= size xs)%N -> size (lin_stages sts us xs) = size sts.
Proof. by elim: sts us xs => [|s sts IH] [|u us] [|x xs] //= [sz] le; rewrite IH. Qed.
Lemma lin_ok sts us xs : all_stages (fun s => stage_ok s) sts -> all_stages (fun s => stage_ok s) (lin_stages sts us xs).
Proof. by elim: sts us xs => [|s sts IH] [|u us] [|x xs] //= [ok oks]; split=> //; exact: IH. Qed.
Lemma linP_ok P us xs : problem_ok P -> problem_ok (linP P us xs).
Proof. by case=> sy ps ok; split=> //; exact: lin_ok. Qed.

Lemma all_methods P x0 : problem_ok P -> stages P <> [::] -> exists Ks ds Ss vs us xs,
  [/\ seqBackwardPass P = Some (Ks, ds, Ss, vs), parBackwardPass P = Some (Ks, ds, Ss, vs),
      seqForwardPass P x0 Ks ds = Some (us, xs) &
      parForwardPass P x0 Ks ds = Some (us, xs) /\ parFwdBwdPass P x0 Ks ds Ss vs = Some (us, xs)] /\
  [/\ unique_minimiser P x0 us & xs = traj (stages P) x0 us].
Proof.
move=> ok ne; have [Ks [ds [Ss [vs [us [xs [E1 E2 E3 E4 _]]]]]]] := seq_optimal x0 ok.
have [sy ps oks] := ok.
have [pe _] := par_backward_eq (conj sy ps) oks ne.
have [fe _ _] := fwdbwd_eq (conj sy ps) x0 oks ne E1.
exists Ks, ds, Ss, vs, us, xs; split; last by [].
split=> //; first by rewrite pe.
have [[sz _ _ _] _] := seq_values ok E1.
by rewrite fe par_forward_eq // => e; apply: ne; apply/nilP; rewrite /nilp -sz e.
Qed.

Lemma iterateE P us x0 xs : problem_ok P -> stages P <> [::] -> size us = size (stages P) -> (size us <= (size xs).+1)%N ->
  exists us' xs', [/\ forall meth, iterate M P us (x0 :: xs) meth = Some (linP P us (x0 :: xs), (us', xs')),
    unique_minimiser (linP P us (x0 :: xs)) x0 us' & xs' = traj (lin_stages (stages P) us (x0 :: xs)) x0 us'].
Proof.
move=> ok ne sz le.
have ne' : stages (linP P us (x0 :: xs)) <> [::].
  by move=> /= e; apply: ne; apply/nilP; rewrite /nilp -(@size_lin (stages P) us (x0 :: xs)) // e.
have [Ks [ds [Ss [vs [us' [xs' [[E1 E2 E3 [E4 E5]] [E6 E7]]]]]]]] := all_methods x0 (linP_ok us (x0 :: xs) ok) ne'.
exists us', xs'; split=> // meth; rewrite /iterate linearizeE //=.
by case: eqP => _; [rewrite E2 /= E4|case: eqP => _; [rewrite E2 /= E5|rewrite E1 /= E3]].
Qed.

(** ** affine models *)
Section Affine.
Variables (A : 'M[R]_n) (B : 'M[R]_(n, m)) (c : 'cV[R]_n).
Hypothesis aff : forall x u, [/\ nf M x u = A *m x + B *m u + c, nFx M x u = A & nFu M x u = B].
Definition aff_stage p (s : stage R n m p) := Stage A B (sX s) (sU s) c (sH s) (sr s) (sZ s) (ss s) (sM s).
Lemma lin_aff p (s : stage R n m p) x u : lin_stage M s x u = aff_stage s.
Proof. by rewrite /lin_stage; have [-> -> ->] := aff x u; congr Stage; abel. Qed.
Definition affs sts := [seq VStage (aff_stage s) | s : vstage <- sts].
Lemma lin_stages_aff sts us xs : size us = size sts -> (size us <= size xs)%N -> lin_stages sts us xs = affs sts.
Proof. by elim: sts us xs => [|s sts IH] [|u us] [|x xs] //= [sz] le; rewrite lin_aff IH. Qed.
Lemma aff_cost P P' sts x us : final_cost P' =1 final_cost P -> size us = size sts ->
  cost_to_go P' (affs sts) x us = nl_ctg M P sts x us.
Proof.
move=> fc; elim: sts us x => [|s sts IH] [|u us] x //= [sz]; congr (_ + _).
rewrite IH // /next /=; have [-> _ _] := aff x u; congr nl_ctg; abel.
Qed.
Lemma aff_traj sts x us : size us = size sts -> traj (affs sts) x us = simulate M x us.
Proof.
elim: sts us x => [|s sts IH] [|u us] x //= [sz]; rewrite IH // /simulate /next /=.
by have [-> _ _] := aff x u; rewrite -addrA [c + _]addrC addrA.
Qed.
End Affine.

Theorem affine_one_step P x0 : problem_ok P -> stages P <> [::] -> affine_model M ->
  exists us' xs', [/\ forall us xs meth, size us = size (stages P) -> (size us <= (size xs).+1)%N ->
      exists P', iterate M P us (x0 :: xs) meth = Some (P', (us', xs')),
    size us' = size (stages P), follows M x0 us' xs' & only_minimiser (nlqt_cost M P x0) us'].
Proof.
move=> ok ne [A [B [c aff]]].
pose us0 : seq 'cV[R]_m := nseq (size (stages P)) 0; pose xs0 : seq 'cV[R]_n := nseq (size (stages P)) 0.
have sz0 : size us0 = size (stages P) by rewrite size_nseq.
have le0 : (size us0 <= (size xs0).+1)%N by rewrite !size_nseq.
have [us' [xs' [E U T]]] := iterateE x0 ok ne sz0 le0.
rewrite /linP (lin_stages_aff aff) in U T => //.
pose Pa := Lqt (affs A B c (stages P)) (XT P) (HT P) (rT P).
have szP : size (stages Pa) = size (stages P) by rewrite size_map.
have su : size us' = size (stages P) by case: U; rewrite -/Pa szP.
exists us', xs'; split=> //.
- move=> us xs meth sz le; exists (linP P us (x0 :: xs)).
  have [us2 [xs2 [E2 U2 T2]]] := iterateE x0 ok ne sz le.
  rewrite E2; rewrite /linP (lin_stages_aff aff) // in U2 T2 *.
  have e : us2 = us'.
    apply/eqP/negPn/negP => /eqP ne2; case: U U2 => s1 m1 [s2 m2].
    by have := lt_trans (m1 us2 s2 ne2) (m2 us' s1 (nesym ne2)); rewrite ltxx.
  by rewrite T2 T e.
- rewrite T aff_traj //; clear; elim: us' x0 => [|u us IH] x //=; split=> //; exact: IH.
- exists (nl_ctg M P (stages P) x0 us'); first by rewrite nlqt_costE.
  move=> us2 s2 ne2; exists (nl_ctg M P (stages P) x0 us2); first by rewrite nlqt_costE // s2.
  case: U => _ /(_ us2); rewrite -/Pa szP /total_cost /= !(@aff_cost A B c aff P Pa) // ?s2 //; exact.
Qed.

Lemma traj_head sts us x : exists t, traj sts x us = x :: t.
Proof. by case: sts us => [|s sts] [|u us] /=; eexists. Qed.
Lemma size_traj sts x us : size us = size sts -> size (traj sts x us) = (size sts).+1.
Proof. by elim: sts us x => [|s sts IH] [|u us] x //= [sz]; rewrite IH. Qed.
Theorem methods_agree P us x0 xs : problem_ok P -> stages P <> [::] -> size us = size (stages P) -> size xs = size us ->
  exists P' us' xs', [/\ forall meth, iterate M P us (x0 :: xs) meth = Some (P', (us', xs')), size us' = size us & size xs' = (size xs).+1].
Proof.
move=> ok ne sz se; have [us' [xs' [E [su _] T]]] := iterateE x0 ok ne sz (ltac:(by rewrite se leqW) : (size us <= (size xs).+1)%N).
exists (linP P us (x0 :: xs)), us', xs'; split=> //.
  by rewrite su size_lin ?sz //= se sz leqW.
by rewrite T size_traj // size_lin //= se ?sz // leqW.
Qed.

(** ** fixed points *)
Lemma traj_follows sts us x xs : size us = size sts -> size xs = size us ->
  traj (lin_stages sts us (x :: xs)) x us = x :: xs -> follows M x us (x :: xs).
Proof.
elim: sts us x xs => [|s sts IH] [|u us] x [|x1 xs] //= [sz] [se] [e].
split=> //; rewrite next_lin in e *.
have e1 : nf M x u = x1 by have [t T] := traj_head (lin_stages sts us (x1 :: xs)) us (nf M x u); move: e; rewrite T; case.
by rewrite e1; apply: IH => //; rewrite -{2}e -e1.
Qed.
Lemma follows_along sts us x xs : size us = size sts -> follows M x us (x :: xs) ->
  lin_stages sts us (x :: xs) = lin_along M sts x us /\ traj (lin_stages sts us (x :: xs)) x us = x :: xs.
Proof.
elim: sts us x xs => [|s sts IH] [|u us] x [|x1 xs] //=; try by move=> ? [].
  by move=> _ [_]; case: us.
move=> [sz] [_ F].
have e : x1 = nf M x u by case: (us) F => [|? ?] /=; [case: (xs)|case].
subst x1; have [E1 E2] := IH us _ xs sz F.
by rewrite E1 next_lin -E1 E2.
Qed.
Lemma udist_sub us us' : size us' = size us -> udist us us' = unorm (subu us' us).
Proof.
rewrite /udist /unorm /subu; elim: us us' => [|u us IH] [|u' us'] //=; rewrite ?big_nil // !big_cons => - [sz]; rewrite IH //=.
by rewrite vnormB.
Qed.
Lemma follows_size x us xs : follows M x us xs -> size xs = (size us).+1.
Proof.
elim: us x xs => [|u us IH] x [|y xs] //=; first by case: xs.
by case=> _ /IH ->.
Qed.
Lemma subu_scale us dus t : size dus = size us -> subu (addu us [seq t *: du | du <- dus]) us = [seq t *: du | du <- dus].
Proof.
elim: us dus => [|u us IH] [|du dus] //= - [sz]; rewrite /addu /subu /= -/(addu us _) -/(subu _ us) IH //.
by rewrite [u + _]addrC addrK.
Qed.
Lemma unormZ t (dus : seq 'cV[R]_m) : unorm [seq t *: du | du <- dus] = `|t| * unorm dus.
Proof. by rewrite /unorm big_map mulr_sumr; apply: eq_bigr => i _; rewrite vnormZ. Qed.

Lemma stationary_lin P us x0 : problem_ok P -> size us = size (stages P) -> differentiable M ->
  stationary (nlqt_cost M P x0) us <-> (forall dus, size dus = size (stages P) -> lin P (lin_along M (stages P) x0 us) x0 us 0 dus = 0).
Proof.
case=> sy ps ok sz df; have FR := frechet sy df x0 ok sz.
split.
- case=> c; rewrite nlqt_costE // => - [<-] st dus sd.
  set l := lin _ _ _ _ _ _.
  apply/eqP; rewrite -normr_eq0 eq_le normr_ge0 andbT leNgt; apply/negP => l0.
  pose N := unorm dus; have N0 : 0 <= N by exact: unorm_ge0.
  have N1 : 0 < N + 1 by rewrite ltr_spaddr ?ltr01.
  pose eps := `|l| / 3%:R / (N + 1); have e0 : 0 < eps by rewrite !divr_gt0 ?ltr0n.
  have [d1 d1p H1] := FR eps e0; have [d2 d2p H2] := st eps e0.
  pose t := Num.min d1 d2 / 2%:R / (N + 1).
  have t0 : 0 < t by rewrite !divr_gt0 ?ltr0n // lt_minr d1p.
  have tN : t * N < Num.min d1 d2.
    have : t * (N + 1) < Num.min d1 d2.
      by rewrite /t divfK ?lt0r_neq0 // ltr_pdivr_mulr ?ltr0n // ltr_pmulr ?ltr1n // lt_minr d1p.
    by apply: le_lt_trans; apply: ler_wpmul2l; [exact: ltW|rewrite ler_addl ler01].
  pose dus' := [seq t *: du | du <- dus].
  have sd' : size dus' = size (stages P) by rewrite size_map.
  have u' : unorm dus' = t * N by rewrite unormZ gtr0_norm.
  have := H1 0 dus' sd'; rewrite vnorm0 add0r u' -(scaler0 _ t) linZ scaler0 addr0 -/l => /(_ (lt_le_trans tN _)).
  rewrite le_minl lexx => /(_ isT) h1.
  have sa : size (addu us dus') = size us by rewrite size_addu // sd' sz.
  have := H2 (addu us dus') sa; rewrite udist_sub // subu_scale ?sd // -/dus' u' => /(_ (lt_le_trans tN _)).
  rewrite le_minl lexx orbT => /(_ isT) [c' ]; rewrite nlqt_costE ?sa // => - [<-] h2.
  have : `|t * l| <= eps * (t * N) + eps * (t * N).
    have {1}-> : t * l = (nl_ctg M P (stages P) x0 (addu us dus') - nl_ctg M P (stages P) x0 us)
      - (nl_ctg M P (stages P) x0 (addu us dus') - nl_ctg M P (stages P) x0 us - t * l) by rewrite opprB addrC subrK.
    by apply: (le_trans (ler_norm_sub _ _)); apply: ler_add.
  rewrite normrM (gtr0_norm t0) -mulr2n mulrCA -mulrnAr ler_pmul2l // leNgt => /negP; apply.
  have : eps * (N + 1) *+ 3 = `|l| by rewrite /eps divfK ?lt0r_neq0 // -mulr_natr divfK // pnatr_eq0.
  move=> <-; rewrite [_ *+ 3]mulrS.
  have : eps * N *+ 2 <= eps * (N + 1) *+ 2 by rewrite ler_muln2r orFb; apply: ler_wpmul2l; [exact: ltW|rewrite ler_addl ler01].
  by move=> h; apply: (le_lt_trans h); rewrite ltr_addr mulr_gt0.
- move=> z; exists (nl_ctg M P (stages P) x0 us); first by rewrite nlqt_costE.
  move=> eps e0; have [d dp H] := FR eps e0; exists d => // us' su lt.
  exists (nl_ctg M P (stages P) x0 us'); first by rewrite nlqt_costE // su.
  rewrite udist_sub // in lt *; have ss : size (subu us' us) = size (stages P) by rewrite size_subu.
  have := H 0 (subu us' us) ss; rewrite vnorm0 add0r adduK // addr0 z // subr0; exact.
Qed.

Lemma lin_P P sts0 sts x us dx dus : lin (Lqt sts0 (XT P) (HT P) (rT P)) sts x us dx dus = lin P sts x us dx dus.
Proof. by elim: sts x us dx dus => [|s sts IH] x [|u us] dx [|du dus] //=; rewrite IH. Qed.
Theorem fixed_point_iff P us x0 xs meth : problem_ok P -> stages P <> [::] -> size us = size (stages P) -> size xs = size us ->
  differentiable M ->
  (exists P', iterate M P us (x0 :: xs) meth = Some (P', (us, x0 :: xs))) <->
  follows M x0 us (x0 :: xs) /\ stationary (nlqt_cost M P x0) us.
Proof.
move=> ok ne sz se df.
have [us' [xs' [E U T]]] := iterateE x0 ok ne sz (ltac:(by rewrite se leqW) : (size us <= (size xs).+1)%N).
have okl := linP_ok us (x0 :: xs) ok.
split.
- case=> P'; rewrite E => - [_ eu ex]; rewrite eu in U T; rewrite ex in T.
  have F : follows M x0 us (x0 :: xs) by apply: (traj_follows sz se); rewrite -T.
  split=> //; apply/stationary_lin => // dus sd.
  have [A _] := follows_along sz F.
  have := min_lin okl U; rewrite /linP /= A => /(_ dus).
  have -> : size (lin_along M (stages P) x0 us) = size (stages P) by rewrite -A size_lin //= se leqW.
  by rewrite lin_P => /(_ sd).
- case=> F /(stationary_lin x0 ok sz df) z.
  have [A Tr] := follows_along sz F.
  have szl : size us = size (stages (linP P us (x0 :: xs))) by rewrite size_lin //= se leqW.
  have eu : us' = us.
    apply: (lin_min okl szl _ U) => dus sd; rewrite -szl sz in sd; by rewrite /linP /= A lin_P; exact: z.
  by exists (linP P us (x0 :: xs)); rewrite E T eu Tr.
Qed.

(** ** tensor versions *)
Section Tf.
Variable p : nat.
Notation cstage := (cstage R n m p).
Implicit Types (cs : seq cstage).
Fixpoint clin cs us xs : seq cstage :=
  match cs, us, xs with
  | s :: cs', u :: us', x :: xs' =>
     CStage (nFx M x u) (nf M x u - nFx M x u *m x - nFu M x u *m u) (nFu M x u) (cH s) (cr s) (cX s) (cU s) :: clin cs' us' xs'
  | _, _, _ => [::]
  end.
Lemma nlqt_linearizeE cs us xs : size us = size cs -> size xs = size cs -> nlqt_linearize M cs us xs = Some (clin cs us xs).
Proof. by elim: cs us xs => [|s cs IH] [|u us] [|x xs] //= [sz] [se]; rewrite IH. Qed.
Lemma clin_np cs us xs x : size us = size cs -> size xs = size cs ->
  [seq VStage (np_stage s) | s <- clin cs us (take (size xs) (x :: xs))] = lin_stages [seq VStage (np_stage s) | s <- cs] us (x :: xs).
Proof.
elim: cs us xs x => [|s cs IH] [|u us] [|x1 xs] x //= [sz] [se]; congr (_ :: _).
by rewrite -IH.
Qed.
Lemma size_clin cs us xs x : size us = size cs -> size xs = size cs -> size (clin cs us (take (size xs) (x :: xs))) = size cs.
Proof.
move=> sz se; have := clin_np x sz se => /(congr1 size); rewrite !size_map => ->.
by rewrite size_lin ?size_map //= sz se leqW.
Qed.

Theorem tf_iterate_eq cs f us x0 xs mp : problem_ok (np_lqt cs f) -> cs <> [::] -> size us = size cs -> size xs = size us ->
  (size cs < (2 * mp).-1)%N ->
  exists P' us' xs', [/\ forall meth, iterate M (np_lqt cs f) us (x0 :: xs) meth = Some (P', (us', xs')),
    nlqt_iterate_seq M us (x0 :: xs) cs f = Some (us', xs'),
    nlqt_iterate_par_1 M us (x0 :: xs) cs f mp = Some (us', xs') &
    nlqt_iterate_par_2 M us (x0 :: xs) cs f mp = Some (us', xs')].
Proof.
move=> ok ne sz se lt.
have ne' : stages (np_lqt cs f) <> [::] by case: (cs) ne.
have szn : size us = size (stages (np_lqt cs f)) by rewrite size_map.
have [us' [xs' [E U T]]] := iterateE x0 ok ne' szn (ltac:(by rewrite se leqW) : (size us <= (size xs).+1)%N).
exists (linP (np_lqt cs f) us (x0 :: xs)), us', xs'.
set cl := clin cs us (take (size xs) (x0 :: xs)).
have sc : size cl = size cs by rewrite size_clin // se.
have LE : nlqt_linearize M cs us (but_last (x0 :: xs)) = Some cl.
  by rewrite nlqt_linearizeE // /but_last ?size_takel //= ?se // size_take /= se sz ltnS leqnn.
have PE : np_lqt cl f = linP (np_lqt cs f) us (x0 :: xs) by rewrite /np_lqt /linP /cl clin_np ?se.
have okc : problem_ok (np_lqt cl f) by rewrite PE; exact: linP_ok.
have nec : cl <> [::] by move=> e; apply: ne; apply/nilP; rewrite /nilp -sc e.
have ltc : (size cl < (2 * mp).-1)%N by rewrite sc.
have ltc' : (size cl < 2 * mp)%N by apply: (leq_trans ltc); exact: leq_pred.
have [Ks [ds [Ss [vs [B1 B2]]]]] := tf_seq_backward_eq okc.
have [Ks1 [ds1 [Ss1 [vs1 [B1' B3]]]]] := tf_par_backward_eq okc ltc.
move: B1'; rewrite B1 => - [? ? ? ?]; subst Ks1 ds1 Ss1 vs1.
have [[sK sd _ _] _] := seq_values okc B1; rewrite size_map in sK sd.
have [y1 [v1 [F1 G1]]] := tf_seq_forward_eq f x0 nec sK sd.
have [y2 [v2 [F2 G2]]] := tf_par_forward_eq f x0 nec sK sd ltc'.
have [y3 [v3 [F3 G3]]] := tf_fwdbwd_eq x0 okc nec ltc B1.
move: F2 F3; rewrite F1 => - [? ?] [? ?]; subst v2 y2 v3 y3.
have : iterate M (np_lqt cs f) us (x0 :: xs) 2 = Some (linP (np_lqt cs f) us (x0 :: xs), (v1, y1)).
  by rewrite /iterate linearizeE //= ?se ?leqW // -PE B1 /= F1.
rewrite E => - [? ?]; clear T; subst us' xs'.
split=> //.
- by rewrite /nlqt_iterate_seq LE /= B2 /= G1.
- by rewrite /nlqt_iterate_par_1 LE /= B3 /= G2.
- by rewrite /nlqt_iterate_par_2 LE /= B3 /= G3.
Qed.

Lemma tf_run_clin cs us xs ys vs : size us = size cs -> size xs = size cs -> tf_run (clin cs us xs) ys vs = tf_run cs ys vs.
Proof.
elim: cs us xs ys vs => [|s cs IH] [|u us] [|x xs] [|y ys] [|v vs] //= [sz] [se]; by rewrite IH.
Qed.
Lemma simulate_follows us x : follows M x us (simulate M x us).
Proof. by elim: us x => [|u us IH] x //=; split=> //; exact: IH. Qed.
Lemma scanl_sim us x : tf_simulate M x us = simulate M x us.
Proof. by rewrite /tf_simulate /simulate; congr (_ :: _); elim: us x => //= u us IH x; rewrite IH. Qed.
Lemma ctg_along P sts x us : size us = size sts -> cost_to_go P (lin_along M sts x us) x us = nl_ctg M P sts x us.
Proof. by elim: sts us x => [|s sts IH] [|u us] x //= [sz]; rewrite next_lin IH. Qed.
Lemma ctg_P (P P' : lqt R n m) sts x us : final_cost P' =1 final_cost P -> cost_to_go P' sts x us = cost_to_go P sts x us.
Proof. by move=> fc; elim: sts us x => [|s sts IH] [|u us] x //=; rewrite IH. Qed.
Theorem tf_nlqt_cost_eq cs f us x : size us = size cs -> tf_nlqt_cost M x us cs f = nlqt_cost M (np_lqt cs f) x us.
Proof.
move=> sz; have szn : size us = size (stages (np_lqt cs f)) by rewrite size_map.
have F := simulate_follows us x; set xs := sim_loop M x us; rewrite -/(simulate M x us) in F.
have sx : size xs = size cs by have := follows_size F; rewrite /simulate /= => - [->].
have [A T] := follows_along szn F.
rewrite nlqt_costE // -ctg_along // -A.
have := tf_cost_eq f x (etrans sz (esym (@size_clin cs us xs x sz sx))).
rewrite (clin_np x sz sx) T /total_cost /= (clin_np x sz sx) (@ctg_P (np_lqt cs f)) // => <-.
rewrite /tf_nlqt_cost scanl_sim /tf_lqt_cost /simulate -/xs tf_run_clin // size_takel //= sx leqW //.
Qed.
End Tf.
End Main.
