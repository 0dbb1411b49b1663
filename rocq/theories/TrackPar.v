(** The parallel passes of the tracker with constant data are the regulator's for the extended state. *)
From Coq Require Import Ring Field List.
From mathcomp Require Import all_ssreflect all_algebra zify.
From Verif Require Import ScanModel ScanSpec ScanProofs ScanUse MxBase LqtModel LqtCore LqtElem LqtMore LinComb Rk4Model Rk4Spec Rk4Proofs ClqtModel ClqtPack ClqtFwd ClqtFwd2 ClqtBwd ClqtVal ClqtHjb ScanRel BracketSpec ClqrModel ClqrSpec ClqrProofs ClqrPar ClqrUse TrackSpec TrackExt TrackExt2 TrackExt3 TrackExt4.
Import Order.TTheory GRing.Theory Num.Theory.
Set Implicit Arguments. Unset Strict Implicit. Unset Printing Implicit Defensive.
Local Open Scope ring_scope.

Lemma f2_size {A B} (Rel : A -> B -> Prop) l l' : Forall2 Rel l l' -> size l = size l'.
Proof. by elim=> //= x y a b _ _ ->. Qed.
Lemma omap_seq_rel {A B} (Rel : A -> B -> Prop) (f : nat -> option A) (e : option B) l : (forall k, orel Rel (f k) e) -> (0 < size l)%N ->
  orel (Forall2 Rel) (omap_seq f l) (let? x := e in Some (nseq (size l) x)).
Proof.
move=> H; elim: l => // k l IH _; have := H k.
rewrite -[omap_seq f (k :: l)]/(let? y := f k in let? ys := omap_seq f l in Some (y :: ys)).
case: (f k) => [a|]; case: e H IH => [b|] H IH // hab; rewrite !obindS.
case: l IH => [_|j l /(_ isT)]; first by repeat constructor.
by rewrite obindS; case: (omap_seq f (j :: l)) => // x h; rewrite obindS; constructor.
Qed.
Lemma bindP {A B} (f : A -> option B) o w : obind f o = Some w -> exists x, o = Some x /\ f x = Some w.
Proof. by case: o => //= x e; exists x. Qed.
(** the transition matrix of a combination vanishes with one of the factors *)
Lemma br_A0 (R : realFieldType) n l (x : elem R n) : bracketing (@combine_abcej R n) l x -> forall e, List.In e l -> eA e = 0 -> eA x = 0.
Proof.
elim=> [y e [->|//]|l1 l2 y z w _ IH1 _ IH2 E e] //.
move=> ie e0; have h := List.in_app_or _ _ _ ie; move: E; rewrite /combine_abcej; cbv zeta.
move=> E; have [x1 [E1 E2]] := bindP E; have [x2 [_ E3]] := bindP E2; have [x3 [_ E4]] := bindP E3.
have [y1 [_ E5]] := bindP E4; have [y2 [_ E6]] := bindP E5; case: E6 => <- /=.
case: h => h; last by rewrite (IH2 _ h e0) mul0mx.
by move: E1; rewrite /solve (IH1 _ h e0); case: ifP => // _ [<-]; rewrite mulmx0 mulmx0.
Qed.

Section Ext.
Variable R : realFieldType.
Variable expm : forall n, 'M[R]_n -> 'M[R]_n.
Variables n m p pT : nat.
Variable P : clqt R n m p pT.
Hypothesis cP : constant P.
Hypothesis wP : weights_ok P.
Local Notation q := (extended P).

Lemma bwd_init_ext blocks steps dt t0 : div_nats (qT q) [:: steps; blocks] = Some dt ->
  orel (Forall2 (eext false)) (clqt_parBackwardPass_init P blocks steps dt t0 false) (clqr_parBackwardPass_init q blocks steps Rk4 false).
Proof.
move=> E; rewrite /clqt_parBackwardPass_init /clqr_parBackwardPass_init E obindS.
have b0 : (0 < blocks)%N by case/andP: (div_nats_pos E) => _ /andP [].
have := @omap_seq_rel _ _ (eext false) (block_elem P dt t0 steps false) (qblock_elem q dt steps false) (iota 0 blocks) (fun k => block_ext cP wP dt t0 steps false false k).
rewrite size_iota b0 => /(_ isT); case: (omap_seq _ _) => [l|]; case: (qblock_elem _ _ _ _) => [e|] //; rewrite !obindS => h.
rewrite -!cats1; apply: Forall2_app h _; constructor; last by constructor.
have [sS [s hs]] := vext_T wP.
split.
- by split; [rewrite /symm trmx0|exact: sS].
- by rewrite /= /blk0 block_mx_const.
- by [].
- by exists s; rewrite -[eJ _]/(qXT q) hs.
by right.
Qed.
Lemma eext_vext fl (e : elem R n) e' : eext fl e e' -> vext (eJ e, eeta e) (eJ e').
Proof. by move=> [[_ sJ] _ _ [s hs] _]; split=> //; exists s. Qed.
Lemma extract_ext dt t0 steps k fl es es' : Forall2 (eext fl) es es' ->
  par_extract_loop P dt t0 steps k es = omap (@split_backward R n m) (qpar_extract_loop expm q dt steps Rk4 es').
Proof.
move=> h; elim: h k => [|e e' l l' he _ IH] k //.
rewrite -[par_extract_loop _ _ _ _ _ _]/(let? '(bKs, bds, bSs, bvs) := clqt_seqBackwardPass P steps (Some dt) (Some (t0 + k%:R * dt * steps%:R)) (Some (eJ e)) (Some (eeta e)) in
  let? '(Ks, ds, Ss, vs) := par_extract_loop P dt t0 steps k.+1 l in
  Some (bKs ++ Ks, bds ++ ds, behead bSs ++ Ss, behead bvs ++ vs)).
rewrite qextract_cons (seq_backward_start expm cP wP _ _ _ (eext_vext he)).
case E: (clqr_seqBackwardPass _ _ _ _ _ _) => [[bKs bSs]|]; last by [].
rewrite [omap _ (Some _)]/= /split_backward !obindS; cbv beta iota; rewrite IH.
case: (qpar_extract_loop _ _ _ _ _ _) => [[Ks Ss]|] //=; rewrite /split_backward /= !map_cat.
by case: bSs {E}.
Qed.
Theorem par_backward_ext blocks steps t0 :
  clqt_parBackwardPass P blocks steps None t0 false = omap (@split_backward R n m) (clqr_parBackwardPass expm q blocks steps Rk4 Rk4).
Proof.
rewrite /clqt_parBackwardPass /clqr_parBackwardPass /dt_or -[kT P]/(qT q).
case E: (div_nats _ _) => [dt|]; last by rewrite /clqr_parBackwardPass_init E.
rewrite obindS; have := bwd_init_ext (or_else t0 0) E.
case E1: (clqt_parBackwardPass_init _ _ _ _ _ _) => [es|]; case E1': (clqr_parBackwardPass_init _ _ _ _ _) => [es'|] // hes.
rewrite !obindS /par_backward_pass_scan; have := scan_rel (@combine_eext R n false) true hes.
case E2: (my_assoc_scan _ es _) => [r|]; case E2': (my_assoc_scan _ es' _) => [r'|] // hr; rewrite !obindS.
have [lr _] := scan_bracketing _ _ _ _ E2'.
have {lr} lr : size r' = blocks.+1.
  have -> : size r' = length r' by []; rewrite lr -[length _]/(size es').
  by move: E1'; rewrite /clqr_parBackwardPass_init E obindS; case: (qblock_elem _ _ _ _) => // e [<-]; rewrite size_rcons size_nseq.
case: hr lr {E2 E2'} => [//|e e' l l' he hl] [lr].
rewrite /clqt_parBackwardPass_extract /clqr_parBackwardPass_extract lr E obindS (extract_ext _ _ _ _ hl).
case: (qpar_extract_loop _ _ _ _ _ _) => [[Ks Ss]|] //; rewrite !obindS /split_backward.
have [_ [s hs]] := eext_vext he; rewrite [omap _ _]/= /split_backward /= hs block_mxKul block_mxKur opprK.
by [].
Qed.

(** ** forward-backward pass *)
Lemma fb_init_ext x0 blocks steps dt t0 : div_nats (qT q) [:: steps; blocks] = Some dt ->
  orel (Forall2 (eext true)) (clqt_parFwdBwdPass_init P x0 blocks steps dt t0 true) (clqr_parFwdBwdPass_init q (extend x0) blocks steps Rk4 true).
Proof.
move=> E; rewrite /clqt_parFwdBwdPass_init /clqr_parFwdBwdPass_init E obindS.
have b0 : (0 < blocks)%N by case/andP: (div_nats_pos E) => _ /andP [].
have := @omap_seq_rel _ _ (eext true) (block_elem P dt t0 steps true) (qblock_elem q dt steps true) (iota 0 blocks) (fun k => block_ext cP wP dt t0 steps true true k).
rewrite size_iota b0 => /(_ isT); case: (omap_seq _ _) => [l|]; case: (qblock_elem _ _ _ _) => [e|] //; rewrite !obindS => h.
constructor=> //; split.
- by split; rewrite /symm trmx0.
- by rewrite /= /blk0 block_mx_const.
- by [].
- by exists 0; rewrite /= /blkJ trmx0 !oppr0 block_mx_const.
by right.
Qed.
Lemma fb_loop_ext dt t0 steps k Ks Ss es es' : Forall2 (eext true) es es' -> (forall e, List.In e es' -> eA e = 0) ->
  par_fb_loop P dt t0 steps k (map lsubmx Ks) (map (fun K => - rsubmx K) Ks) (map ulsubmx Ss) (map (fun S => - ursubmx S) Ss) es =
  omap (@split_states R n m) (qpar_fb_loop q dt Rk4 steps k Ks Ss es').
Proof.
move=> h; elim: h k => [|e e' l l' he hl IH] k H0 //; case: hl IH H0 => [|f f' l1 l1' hf hl] IH H0 //.
rewrite -[par_fb_loop _ _ _ _ _ _ _ _ _ _]/(let? l := abc_loop P dt (t0 + k%:R * steps%:R * dt) steps 0 (eA e, eb e, eC e) in
  let? '(bus, bxs) := combineForwardBackward (slice (k * steps) ((k + 1) * steps) (map lsubmx Ks)) (slice (k * steps) ((k + 1) * steps) (map (fun K => - rsubmx K) Ks))
                         (slice (k * steps) ((k + 1) * steps + 1) (map ulsubmx Ss)) (slice (k * steps) ((k + 1) * steps + 1) (map (fun S => - ursubmx S) Ss)) l in
  if l1 is [::] then
    if bxs is x :: t then Some (bus, rcons (take (size bus) bxs) (last x t)) else None
  else let? '(us, xs) := par_fb_loop P dt t0 steps k.+1 (map lsubmx Ks) (map (fun K => - rsubmx K) Ks) (map ulsubmx Ss) (map (fun S => - ursubmx S) Ss) (f :: l1) in
    Some (bus ++ us, take (size bus) bxs ++ xs)).
rewrite qfb_loop_cons /clqr_seqFwdBwdPass obindS /slice -!map_drop -!map_take.
have hfe : fext (eA e, eb e, eC e) (eA e', eb e', eC e').
  case: he => _ hC _ _ hA; split=> //=; case: hA => [[hA _]|[_ _ -> //]].
  have := H0 e' (or_introl erefl); rewrite hA => /(congr1 drsubmx); rewrite block_mxKdr => /matrixP /(_ 0 0); rewrite !mxE eqxx => /eqP.
  by rewrite oner_eq0.
have := abc_loop_ext cP wP dt (t0 + k%:R * steps%:R * dt) steps 0 hfe.
case: (abc_loop _ _ _ _ _ _) => [a|]; case: (qabc_loop _ _ _ _) => [a'|] // ha; rewrite !obindS (combine_ext _ _ ha).
case: (qcombineForwardBackward _ _ _) => [[us xs]|] //; rewrite !obindS [omap _ _]/= /split_states; cbv beta iota.
case: hl IH H0 => [|g g' l2 l2' hg hl] IH H0.
  by case: xs => //= x t; rewrite /split_states /= map_rcons map_take last_map.
rewrite IH; last by move=> e1 i1; apply: H0; right.
rewrite -[RHS]/(omap (@split_states R n m) (let? '(us0, xs0) := qpar_fb_loop q dt Rk4 steps k.+1 Ks Ss (f' :: g' :: l2') in
  Some (us ++ us0, take (size us) xs ++ xs0))).
by case: (qpar_fb_loop q dt Rk4 steps k.+1 Ks Ss _) => [[us' xs']|] //=; rewrite /split_states /= map_cat map_take.
Qed.
Theorem par_fwdbwd_ext x0 Ks Ss blocks steps t0 :
  clqt_parFwdBwdPass P x0 (map lsubmx Ks) (map (fun K => - rsubmx K) Ks) (map ulsubmx Ss) (map (fun S => - ursubmx S) Ss) blocks steps None t0 true =
  omap (@split_states R n m) (clqr_parFwdBwdPass q (extend x0) Ks Ss blocks steps Rk4 Rk4).
Proof.
rewrite /clqt_parFwdBwdPass /clqr_parFwdBwdPass /dt_or -[kT P]/(qT q).
case E: (div_nats _ _) => [dt|]; last by rewrite /clqr_parFwdBwdPass_init E.
rewrite obindS; have := fb_init_ext x0 (or_else t0 0) E.
case E1: (clqt_parFwdBwdPass_init _ _ _ _ _ _ _) => [es|]; case E1': (clqr_parFwdBwdPass_init _ _ _ _ _ _) => [es'|] // hes.
rewrite !obindS /par_fwdbwd_pass_scan; have := scan_rel (@combine_eext R n true) false hes.
case E2: (my_assoc_scan _ es _) => [r|]; case E2': (my_assoc_scan _ es' _) => [r'|] // hr; rewrite !obindS.
have [lr br] := scan_bracketing _ _ _ _ E2'.
have [e Ees] : exists e, es' = Elem 0 (extend x0) 0 0 0 :: nseq blocks e.
  by move: E1'; rewrite /clqr_parFwdBwdPass_init E obindS; case: (qblock_elem _ _ _ _) => // e [<-]; exists e.
have {lr} lr : size r' = blocks.+1.
  by have -> : size r' = length r' by []; rewrite lr -[length _]/(size es') Ees /= size_nseq.
rewrite /clqt_parFwdBwdPass_extract /clqr_parFwdBwdPass_extract (f2_size hr) lr E !size_map; case: ifP => // _; case: ifP => // _.
rewrite obindS; apply: fb_loop_ext => // x ix; have [k ek] := List.In_nth_error _ _ ix.
by apply: (br_A0 (br _ _ ek) (e := Elem 0 (extend x0) 0 0 0)) => //; rewrite Ees /=; left.
Qed.

(** ** forward pass without hold *)
Theorem par_forward_ext x0 (Ks : seq 'M[R]_(m, n + 1)) blocks steps t0 forward :
  clqt_parForwardPass P x0 (map lsubmx Ks) (map (fun K => - rsubmx K) Ks) blocks steps None t0 forward false =
  omap (@split_states R n m) (clqr_parForwardPass expm q (extend x0) Ks blocks steps Rk4 Rk4 false).
Proof.
have [h1 h2] := C43_np_l P x0 (map lsubmx Ks) (map (fun K => - rsubmx K) Ks) blocks steps None t0 forward.
have [g1 g2] := reg_par_forward expm q (extend x0) Ks blocks steps.
case: (eqVneq (blocks * steps)%N (size Ks)) => [e|/eqP ne]; last by rewrite h2 ?size_map // g2.
by rewrite h1 ?size_map // g1 // (seq_forward_ext expm).
Qed.
End Ext.
