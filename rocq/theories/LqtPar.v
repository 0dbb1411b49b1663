(** The parallel passes of LQT agree with the sequential ones. *)
From Coq Require Import Ring Field.
From mathcomp Require Import all_ssreflect all_algebra.
From Verif Require Import ScanModel ScanSpec ScanProofs ScanUse MxBase LqtModel LqtSpec LqtCore LqtElem LqtProofs.
Import Order.TTheory GRing.Theory Num.Theory.
Set Implicit Arguments. Unset Strict Implicit. Unset Printing Implicit Defensive.
Local Open Scope ring_scope.

Section Par.
Variable R : realFieldType.
Variables n m : nat.
Add Ring Rr : (mc_ring R).
Add Field Rf : (mc_field R).

(** value function as an element *)
Definition vel (Sv : 'M[R]_n) (v : 'cV[R]_n) : elem R n := Elem 0 0 0 v Sv.
Lemma vel_ok Sv v : symm Sv -> psd Sv -> elem_ok (vel Sv v).
Proof. by move=> sS pS; split => //; [exact: symm0 | exact: psd0]. Qed.
Lemma rel_vel Sv v x l y k : rel (vel Sv v) x l y k <-> y = 0 /\ l = Sv *m x - v.
Proof. by rewrite /rel /= mul0mx mul0mx subr0 addr0 trmx0 mul0mx addr0. Qed.

(** one element combined with the value function of the next step is a Riccati step *)
Lemma comb_vel p (s : stage R n m p) e Sv v K d : stage_ok s -> symm Sv -> psd Sv ->
  W s Sv *m K = G s Sv -> W s Sv *m d = e0 s Sv v -> stage_elem s = Some e -> elem_ok e ->
  combine_abcej e (vel Sv v) = Some (vel (S' s Sv K) (v' s Sv v K)).
Proof.
move=> oks sS pS WK Wd Es oe; rewrite combineE //; last exact: vel_ok.
congr Some; apply/esym/rel_ext => x l z k /rel_vel [-> ->].
apply/comb_rel => //; first exact: vel_ok.
have [e' [Es' _ He]] := stage_elemP oks.
move: Es'; rewrite Es => -[ee]; subst e'.
have kk := ric_kkt oks sS WK Wd x.
eexists; eexists; split; first by apply/He; eexists; exact: kk.
by apply/rel_vel.
Qed.

Section P.
Variable P : lqt R n m.
Hypothesis okT : symm (XT P) /\ psd (XT P).

Fixpoint zipv (Ss : seq 'M[R]_n) (vs : seq 'cV[R]_n) : seq (elem R n) :=
  match Ss, vs with Sv :: Ss', v :: vs' => vel Sv v :: zipv Ss' vs' | _, _ => [::] end.

Lemma elems_ok sts : all_stages (fun s => stage_ok s) sts ->
  exists es, omap_seq (fun s : vstage R n m => stage_elem s) sts = Some es /\ List.Forall (@elem_ok R n) es /\ size es = size sts.
Proof.
elim: sts => [|s sts IH] /=; first by exists [::]; split => //; split=> //; constructor.
case=> oks /IH [es [-> [F sz]]]; have [e [-> oe _]] := stage_elemP oks.
by exists (e :: es); split => //; split; [constructor | rewrite /= sz].
Qed.

Lemma bwd_scanr sts Ks ds Ss vs es : bwd P sts Ks ds Ss vs ->
  omap_seq (fun s : vstage R n m => stage_elem s) sts = Some es ->
  scanr_o (@combine_abcej R n) (rcons es (vel (Sterm P) (vterm P))) = Some (zipv Ss vs).
Proof.
move=> B; elim: B es => [|s sts' K d Ks' ds' Sv v Ss' vs' oks sS pS WK Wd B IH] es /=; first by case=> <-.
have [e [E oe He]] := stage_elemP oks; rewrite E /=.
case: (omap_seq _ _) IH => [es'|//] IH [<-] /=; rewrite (IH es') //=.
by rewrite (comb_vel oks sS pS WK Wd E oe).
Qed.

Lemma forall_rcons T (Q : T -> Prop) l x : List.Forall Q l -> Q x -> List.Forall Q (rcons l x).
Proof. by move=> F q; elim: F => [|y l' Qy _ IH] /=; constructor. Qed.

Lemma extract_loop sts Ks ds Sv Ss v vs : bwd P sts Ks ds (Sv :: Ss) (v :: vs) ->
  par_bwd_extract sts (zipv Ss vs) = Some (Ks, ds, Ss, vs).
Proof.
move=> B; have : bwd P sts Ks ds (Sv :: Ss) (v :: vs) by [].
move: {1 3}(Sv :: Ss) {1 3}(v :: vs) (erefl (Sv :: Ss)) (erefl (v :: vs)) => S1 v1 e1 e2 B1.
rewrite -[Ss]/(behead (Sv :: Ss)) -[vs]/(behead (v :: vs)) -e1 -e2 {B e1 e2 Sv Ss v vs}.
elim: B1 => [//|s sts' K d Ks' ds' Sv v Ss' vs' oks sS pS WK Wd B /= IH].
by rewrite ((gainP oks v sS pS K d).2 (conj WK Wd)) /= IH.
Qed.

Theorem par_backward_eq : all_stages (fun s => stage_ok s) (stages P) -> stages P <> [::] ->
  parBackwardPass P = seqBackwardPass P /\ parBackwardPass P <> None.
Proof.
move=> oks ne.
have [Sv [v [Ks [ds [Ss [vs [E B sS pS]]]]]]] := bwd_ex okT oks.
have [es [Ees [Fes sz]]] := elems_ok oks.
have Esc : par_backward_pass_scan (rcons es (vel (Sterm P) (vterm P))) = Some (zipv (Sv :: Ss) (v :: vs)).
  rewrite /par_backward_pass_scan (scan_scanr (@elem_ok R n)); first exact: bwd_scanr B Ees.
  - exact: combine_closed.
  - exact: combine_assoc.
  - by case: (es).
  - apply: forall_rcons => //; apply: vel_ok; first by apply: symm_cong; case: okT.
    by apply: psd_cong; case: okT.
have E2 : parBackwardPass P = Some (Ks, ds, Sv :: Ss, v :: vs).
  rewrite /parBackwardPass /parBackwardPass_init Ees /=.
  have X := extract_loop B.
  have -> : (if stages P is [::] then None else Some (rcons es (Elem 0 0 0 (vterm P) (Sterm P)))) = Some (rcons es (Elem 0 0 0 (vterm P) (Sterm P))) by case: (stages P) ne.
  rewrite -/(vel (Sterm P) (vterm P)) /= Esc.
  by rewrite /= X.
rewrite E2; split=> //.
by rewrite /seqBackwardPass -/(Sterm P) -/(vterm P) E.
Qed.

(** ** forward-backward passes *)
Lemma solve_fb (f : elem R n) Sv (v x x1 l1 : 'cV[R]_n) : elem_ok f -> symm Sv -> psd Sv ->
  rel f x1 l1 x (Sv *m x - v) -> solve (1%:M + eC f *m Sv) (eA f *m x1 + eb f + eC f *m v) = Some x.
Proof.
move=> [sC pC _ _] sS pS [E _].
have u : 1%:M + eC f *m Sv \in unitmx by apply: unit_ICJ.
rewrite solve_unit //; congr Some; apply: (unit_inj u); rewrite mulKVmx //.
by apply: (lincomb (esym E)); mxabel.
Qed.

Lemma bwd_inv sts Ks ds Ss vs : bwd P sts Ks ds Ss vs -> symm (head 0 Ss) /\ psd (head 0 Ss).
Proof.
case=> [|s sts' K d Ks' ds' Sv v Ss' vs' oks sS pS WK Wd B'] /=.
  by case: okT => sX pX; split; [apply: symm_cong | apply: psd_cong].
by split; [apply: S'_symm | apply: (S'_psd oks pS WK)].
Qed.
Lemma bwd_cons (s : vstage R n m) sts Ks ds Ss vs : bwd P (s :: sts) Ks ds Ss vs ->
  exists K d Ks' ds' Sv v Ss' vs', [/\ Ks = K :: Ks', ds = d :: ds', Ss = S' s Sv K :: Sv :: Ss' & vs = v' s Sv v K :: v :: vs'] /\
   [/\ stage_ok s, symm Sv, psd Sv, W s Sv *m K = G s Sv & W s Sv *m d = e0 s Sv v] /\ bwd P sts Ks' ds' (Sv :: Ss') (v :: vs').
Proof.
move=> B; inversion B as [|s1 sts1 K d Ks1 ds1 Sv v Ss1 vs1 oks sS pS WK Wd B1]; subst.
by exists K, d, Ks1, ds1, Sv, v, Ss1, vs1.
Qed.

(** the closed loop satisfies the stationarity relation of the element *)
Lemma step_rel (s : vstage R n m) e Sv v K d x : stage_ok s -> symm Sv -> 
  W s Sv *m K = G s Sv -> W s Sv *m d = e0 s Sv v -> stage_elem s = Some e ->
  let x1 := next s x (- K *m x + d) in rel e x (S' s Sv K *m x - v' s Sv v K) x1 (Sv *m x1 - v).
Proof.
move=> oks sS WK Wd Es; have [e' [Es' _ He]] := stage_elemP oks.
move: Es'; rewrite Es => -[ee]; subst e'.
by apply/He; eexists; exact: (ric_kkt oks sS WK Wd x).
Qed.

Lemma fb_loop sts Ks ds Ss vs : bwd P sts Ks ds Ss vs ->
  forall es f x us xs, omap_seq (fun s : vstage R n m => stage_elem s) sts = Some es ->
  elem_ok f -> rel f 0 0 x (head 0 Ss *m x - head 0 vs) -> seq_fwd sts Ks ds x = Some (us, xs) ->
  exists rs, scanl_o (@combine_abcej R n) f es = Some (f :: rs) /\ fb_extract Ks ds Ss vs (f :: rs) = Some (us, x :: xs).
Proof.
elim=> [|s sts' K d Ks' ds' Sv v Ss' vs' oks sS pS WK Wd B IH] es f x us xs /=.
  case=> <- of_ r [<- <-]; exists [::]; split => //=.
  have [sT pT] := bwd_inv (bwd0 P).
  by have := solve_fb of_ sT pT r; rewrite mulmx0 add0r => ->.
have [e [E oe He]] := stage_elemP oks; rewrite E /=.
case: (omap_seq _ _) IH => [es'|//] IH [<-] of_ r.
have r2 := step_rel x oks sS WK Wd E.
case E2: (seq_fwd _ _ _ _) => [[us' xs']|//] [<- <-].
have Ecb := combineE of_ oe.
have [rs [Er1 Er2]] := IH es' (comb2 f e) (next s x (- K *m x + d)) us' xs' erefl (comb_ok of_ oe)
   (proj2 (comb_rel of_ oe _ _ _ _) (ex_intro _ _ (ex_intro _ _ (conj r r2)))) E2.
exists (comb2 f e :: rs); split; first by rewrite /= Ecb Er1.
have sS' : symm (S' s Sv K) by apply: S'_symm.
have pS' : psd (S' s Sv K) by apply: (S'_psd oks pS WK).
have := solve_fb of_ sS' pS' r; rewrite mulmx0 add0r => -> /=.
by move: Er2; case: (rs) => [|r1 rs1] /= ->.
Qed.

Lemma fb2_loopE sts Ks ds Ss vs : bwd P sts Ks ds Ss vs ->
  forall es f x0 l0 x us xs, omap_seq (fun s : vstage R n m => stage_elem s) sts = Some es ->
  elem_ok f -> rel f x0 l0 x (head 0 Ss *m x - head 0 vs) -> seq_fwd sts Ks ds x = Some (us, xs) ->
  exists rs, scanl_o (@combine_abcej R n) f es = Some (f :: rs) /\ fb2_loop x0 Ks ds (behead Ss) (behead vs) rs x = Some (us, x :: xs).
Proof.
elim=> [|s sts' K d Ks' ds' Sv v Ss' vs' oks sS pS WK Wd B IH] es f x0 l0 x us xs /=.
  by case=> <- of_ r [<- <-]; exists [::].
have [e [E oe He]] := stage_elemP oks; rewrite E /=.
case: (omap_seq _ _) IH => [es'|//] IH [<-] of_ r.
have r2 := step_rel x oks sS WK Wd E.
case E2: (seq_fwd _ _ _ _) => [[us' xs']|//] [<- <-].
have Ecb := combineE of_ oe.
have rc := proj2 (comb_rel of_ oe _ _ _ _) (ex_intro _ _ (ex_intro _ _ (conj r r2))).
have [rs [Er1 Er2]] := IH es' (comb2 f e) x0 l0 (next s x (- K *m x + d)) us' xs' erefl (comb_ok of_ oe) rc E2.
exists (comb2 f e :: rs); split; first by rewrite /= Ecb Er1.
by rewrite /= (solve_fb (comb_ok of_ oe) sS pS rc) /= Er2.
Qed.

Theorem fwdbwd_eq x0 Ks ds Ss vs : all_stages (fun s => stage_ok s) (stages P) -> stages P <> [::] ->
  seqBackwardPass P = Some (Ks, ds, Ss, vs) ->
  [/\ parFwdBwdPass P x0 Ks ds Ss vs = seqForwardPass P x0 Ks ds,
      parFwdBwdPass2 P x0 Ks ds Ss vs = seqForwardPass P x0 Ks ds & seqForwardPass P x0 Ks ds <> None].
Proof.
move=> oks ne.
have [Sv [v [Ks' [ds' [Ss' [vs' [E B sS pS]]]]]]] := bwd_ex okT oks.
rewrite /seqBackwardPass -/(Sterm P) -/(vterm P) E => -[<- <- <- <-] {Ks ds Ss vs}.
have [es [Ees [Fes sz]]] := elems_ok oks.
have [c H] := bwd_opt okT B.
have [us [xs [E2 _ _ _ _]]] := H x0.
rewrite /seqForwardPass E2; split => //.
- have o0 : elem_ok (Elem 0 x0 0 0 0 : elem R n) by split; try exact: symm0; exact: psd0.
  have r0 : rel (Elem 0 x0 0 0 0 : elem R n) 0 0 x0 (Sv *m x0 - v).
    by rewrite /rel /= !mulmx0 trmx0 !mul0mx add0r !subr0 addr0.
  have [rs [Er1 Er2]] := fb_loop B Ees o0 r0 E2.
  rewrite /parFwdBwdPass /parFwdBwdPass_init Ees /=.
  have -> : (if stages P is [::] then None else Some (Elem 0 x0 0 0 0 :: es)) = Some (Elem 0 x0 0 0 0 :: es) by case: (stages P) ne.
  rewrite /= /par_fwdbwd_pass_scan (scan_scanl (@elem_ok R n)) // ?Er1 //.
    exact: combine_closed.
  exact: combine_assoc.
- rewrite /parFwdBwdPass2 /parFwdBwdPass2_init Ees /=.
  move: ne B Ees Fes E2 sz; case: (stages P) => [//|s sts] _ B Ees Fes E2 sz.
  have [K [d [Ks1 [ds1 [S1 [v1 [Ss1 [vs1 [[eK ed eS ev] [[ok1 sS1 pS1 WK Wd] B1]]]]]]]]]] := bwd_cons B.
  have [e1 [E1 oe _]] := stage_elemP ok1.
  move: Ees => /=; rewrite E1 /=; case Ees: (omap_seq _ _) => [es'|//] [ees]; subst es.
  have FF : List.Forall (@elem_ok R n) es' by inversion Fes.
  have -> : par_fwdbwd_pass_scan (e1 :: es') = scanl_o (@combine_abcej R n) e1 es'.
    by apply: (scan_scanl (@elem_ok R n)) => //; [exact: combine_closed | exact: combine_assoc].
  have r := step_rel x0 ok1 sS1 WK Wd E1.
  move: E2; rewrite eK ed /=; case E2: (seq_fwd _ _ _ _) => [[us' xs']|//] [<- <-].
  have [rs [Er1 Er2]] := fb2_loopE B1 Ees oe r E2.
  rewrite Er1 /= /parFwdBwdPass2_extract eS ev /=.
  by rewrite (solve_fb oe sS1 pS1 r) /= Er2.
Qed.
End P.
End Par.
