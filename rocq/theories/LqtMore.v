(** Parallel forward pass, elimination of cross terms, LQR, doubling. *)
From Coq Require Import Ring Field.
From mathcomp Require Import all_ssreflect all_algebra.
From Verif Require Import ScanModel ScanSpec ScanProofs ScanUse MxBase LqtModel LqtSpec LqtCore LqtElem LqtProofs LqtPar.
Import Order.TTheory GRing.Theory Num.Theory.
Set Implicit Arguments. Unset Strict Implicit. Unset Printing Implicit Defensive.
Local Open Scope ring_scope.

Section More.
Variable R : realFieldType.
Variables n m : nat.
Add Ring Rr : (mc_ring R).
Add Field Rf : (mc_field R).
Ltac sfield := rsn R; field; exact: two_neq0.

(** ** forward pass *)
Notation fcop := (fun x y : 'M[R]_n * 'cV[R]_n => Some (combine_fc x y)).
Lemma fc_closed : closed_on (fun _ => True) fcop.
Proof. by move=> x y _ _; eexists. Qed.
Lemma fc_assoc : assoc_on (fun _ => True) fcop.
Proof.
move=> [A a] [B b] [C c] xy yz _ _ _ [<-] [<-]; rewrite /combine_fc /=; congr Some; congr pair.
  by rewrite !mulmxA.
by mxabel.
Qed.
Lemma forall_T T (l : seq T) : List.Forall (fun _ => True) l.
Proof. by elim: l => [|x l IH]; constructor. Qed.
Lemma fc_scan x l : par_forward_pass_scan (x :: l) = scanl_o fcop x l.
Proof. by apply: (scan_scanl (fun _ => True)) => //; [exact: fc_closed | exact: fc_assoc | exact: forall_T]. Qed.

Lemma fc_scanl (sts : seq (vstage R n m)) Ks ds x :
  match par_fwd_elems sts Ks ds with
  | None => seq_fwd sts Ks ds x = None
  | Some es => exists us xs, [/\ seq_fwd sts Ks ds x = Some (us, xs),
      scanl_o fcop (0, x) es = Some [seq (0, y) | y <- x :: xs] &
      par_fwd_extract Ks ds [seq (0 : 'M[R]_n, y) | y <- xs] x = Some (us, xs)]
  end.
Proof.
elim: Ks sts ds x => [|K Ks IH] [|s sts] [|d ds] x //=; try by exists [::], [::].
have {IH} := IH sts ds (sF s *m x + scc s + sL s *m (- K *m x + d)).
case: (par_fwd_elems _ _ _) => [es|] /=; last by move=> ->.
case=> us [xs [-> E2 E3]]; eexists; eexists; split; first by [].
- rewrite /combine_fc /= mulmx0.
  have -> : (sF s - sL s *m K) *m x + (scc s + sL s *m d) = sF s *m x + scc s + sL s *m (- K *m x + d) by mxabel.
  by rewrite E2.
- by rewrite /= E3.
Qed.

Theorem par_forward_eq (P : lqt R n m) x0 Ks ds : Ks <> [::] -> parForwardPass P x0 Ks ds = seqForwardPass P x0 Ks ds.
Proof.
case: Ks => [//|K Ks] _; rewrite /parForwardPass /seqForwardPass /parForwardPass_init.
case: (stages P) ds => [|s sts] [|d ds] //=.
have := fc_scanl sts Ks ds (sF s *m x0 + scc s + sL s *m (- K *m x0 + d)).
case: (par_fwd_elems _ _ _) => [es|] /=; last by move=> ->.
case=> us [xs [-> E2 E3]] /=; rewrite fc_scan.
have -> : (sF s - sL s *m K) *m x0 + scc s + sL s *m d = sF s *m x0 + scc s + sL s *m (- K *m x0 + d) by mxabel.
by rewrite E2 /= /parForwardPass_extract /= E3.
Qed.

Theorem par_forward_empty (P : lqt R n m) x0 ds :
  parForwardPass P x0 [::] ds = None /\ seqForwardPass P x0 [::] ds = Some ([::], [:: x0]).
Proof. by rewrite /seqForwardPass; case: (stages P). Qed.

(** ** elimination of cross terms *)
Section Trans.
Variable p : nat.
Variable s : stage R n m p.
Hypothesis ok : stage_ok s.
Hypothesis Z1 : sZ s = 1%:M.
Let uU : sU s \in unitmx. Proof. exact: pd_unit (U_pd ok). Qed.
Definition tst : stage R n m p :=
  Stage (sF s - sL s *m invmx (sU s) *m (sM s)^T *m sH s) (sL s) (sX s - sM s *m invmx (sU s) *m (sM s)^T) (sU s)
    (scc s + sL s *m invmx (sU s) *m (sM s)^T *m sr s + sL s *m ss s) (sH s) (sr s) 1%:M 0 0.
Lemma trans_stageE : trans_stage s = Some tst.
Proof. by rewrite /trans_stage solve_unit //= mulmx1. Qed.
Lemma trans_backE Kd : trans_back s Kd =
  Some (Kd.1 + invmx (sU s) *m (sM s)^T *m sH s, Kd.2 + invmx (sU s) *m (sM s)^T *m sr s + ss s).
Proof. by rewrite /trans_back solve_unit //= mulmx1. Qed.
Lemma tst_ok : stage_ok tst.
Proof.
case: ok => sX' sU' jp pU; split => //=.
- apply: symmB => //.
  by have := symm_cong (sM s)^T (symm_inv sU'); rewrite trmxK.
- move=> e w; rewrite mul0mx dot0r mul0rn addr0; apply: addr_ge0; last by apply: pd_psd; exact: U_pd.
  have := jp e (- (invmx (sU s) *m (sM s)^T *m e)); rewrite qfN.
  have -> : qf (sU s) (invmx (sU s) *m (sM s)^T *m e) = dot e (sM s *m invmx (sU s) *m (sM s)^T *m e).
    by rewrite qf_dot -!mulmxA mulKVmx // [RHS]dotMr [RHS]dotC.
  have -> : dot e (sM s *m - (invmx (sU s) *m (sM s)^T *m e)) = - dot e (sM s *m invmx (sU s) *m (sM s)^T *m e).
    by rewrite mulmxN dotNr !mulmxA.
  have -> : qf (sX s - sM s *m invmx (sU s) *m (sM s)^T) e = qf (sX s) e - dot e (sM s *m invmx (sU s) *m (sM s)^T *m e).
    by rewrite !qf_dot mulmxBl dotBr.
  by congr (_ <= _); rsn R; ring.
- by move=> u u0; rewrite mul1mx; apply: (U_pd ok).
Qed.
Variables (Sv : 'M[R]_n) (v : 'cV[R]_n) (K : 'M[R]_(m, n)) (d : 'cV[R]_m).
Hypothesis sS : symm Sv.
Hypothesis WK : W tst Sv *m K = G tst Sv.
Hypothesis Wd : W tst Sv *m d = e0 tst Sv v.
Let K1 := K + invmx (sU s) *m (sM s)^T *m sH s.
Let d1 := d + invmx (sU s) *m (sM s)^T *m sr s + ss s.
Let sUV (x : 'cV[R]_m) : sU s *m (invmx (sU s) *m x) = x. Proof. exact: mulKVmx. Qed.
Lemma trans_gain : W s Sv *m K1 = G s Sv /\ W s Sv *m d1 = e0 s Sv v.
Proof.
have E p' (A : 'M[R]_(m, p')) : sU s *m invmx (sU s) *m A = A by rewrite mulmxV // mul1mx.
have eU : sU s *m invmx (sU s) = 1%:M by rewrite mulmxV.
move: WK Wd; rewrite /K1 /d1 /W /G /e0 /= Z1 !(trmx1, trmx0, mul1mx, mulmx1, mulmx0, mul0mx).
move: (invmx (sU s)) eU E => V eU E e1 e2; split.
- apply: (lincomb e1); mxexp; rewrite ?mulmxA ?E; abel.
- apply: (lincomb e2); mxexp; rewrite ?mulmxA ?E; abel.
Qed.
Lemma trans_val : S' s Sv K1 = S' tst Sv K /\ v' s Sv v K1 = v' tst Sv v K.
Proof.
have sU' : (sU s)^T = sU s by case: ok.
have sV : (invmx (sU s))^T = invmx (sU s) by rewrite trmx_inv sU'.
have eU : sU s *m invmx (sU s) = 1%:M by rewrite mulmxV.
have eV : invmx (sU s) *m sU s = 1%:M by rewrite mulVmx.
move: WK Wd; rewrite /K1 /S' /v' /W /G /e0 /= Z1 !(trmx1, trmx0, mul1mx, mulmx1, mulmx0, mul0mx).
move: (invmx (sU s)) sV eU eV => V sV eU eV e1 e2.
have cU q (A : 'M[R]_(q, m)) : A *m V *m sU s = A by rewrite -mulmxA eV mulmx1.
have cV q (A : 'M[R]_(q, m)) : A *m sU s *m V = A by rewrite -mulmxA eU mulmx1.
split.
- have := congr1 (mulmx ((sH s)^T *m sM s *m V)) e1 => e.
  apply: (lincomb (esym e)); mxexp; rewrite ?trmxK ?sV ?mulmxA ?cU ?cV; abel.
- have := congr1 (fun A => A^T *m (V *m (sM s)^T *m sr s + ss s)) e1 => e.
  apply: (lincomb (esym e)); mxexp; rewrite ?trmxK ?sV ?sU' ?sS ?mulmxA ?cU ?cV; abel.
Qed.
End Trans.

Lemma bwd_fold (P : lqt R n m) sts Ks ds Ss vs : bwd P sts Ks ds Ss vs ->
  foldr (@seq_bwd_body R n m) (Some (Sterm P, vterm P, ([::], [::], [:: Sterm P], [:: vterm P]))) sts
  = Some (head 0 Ss, head 0 vs, (Ks, ds, Ss, vs)).
Proof.
elim=> [//|s sts' K d Ks' ds' Sv v Ss' vs' oks sS pS WK Wd B /= ->].
by rewrite /= ((gainP oks v sS pS K d).2 (conj WK Wd)).
Qed.

Definition tstv (s : vstage R n m) : vstage R n m := VStage (tst s).

Lemma trans_list (P P' : lqt R n m) sts : Sterm P' = Sterm P -> vterm P' = vterm P ->
  all_stages (fun s => stage_ok s) sts -> all_stages (fun s => sZ s = 1%:M) sts ->
  forall Ks ds Ss vs, bwd P' (map tstv sts) Ks ds Ss vs ->
  exists K1s d1s, trans_back_list sts Ks ds = Some (K1s, d1s) /\ bwd P sts K1s d1s Ss vs.
Proof.
move=> eS ev; elim: sts => [_ _|s sts IH [oks okss] [Z1 Z1s]] Ks ds Ss vs B.
  by inversion B; exists [::], [::]; split => //; rewrite eS ev; constructor.
have [K [d [Ks1 [ds1 [S1 [v1 [Ss1 [vs1 [[-> -> -> ->] [[ok1 sS1 pS1 WK Wd] B1]]]]]]]]]] := bwd_cons B.
have [K1s [d1s [E1 B2]]] := IH okss Z1s _ _ _ _ B1.
have [WK2 Wd2] := trans_gain oks Z1 WK Wd.
have [E2 E3] := trans_val oks Z1 sS1 WK Wd.
rewrite /= trans_backE // E1 /=; eexists; eexists; split; first by [].
by rewrite -E2 -E3; apply: bwdS.
Qed.

Theorem transformed_eq (P : lqt R n m) : problem_ok P -> stages P <> [::] ->
  all_stages (fun s => sZ s = 1%:M) (stages P) ->
  (exists p, all_stages (fun s => vp s = p) (stages P)) ->
  seqTransformedBackwardPass P = seqBackwardPass P /\ seqBackwardPass P <> None.
Proof.
case=> sX pX oks ne Z1 [p dp].
have [Sv [v [Ks [ds [Ss [vs [E B sS pS]]]]]]] := bwd_ex (conj sX pX) oks.
set P' := Lqt (map tstv (stages P)) (XT P) (HT P) (rT P).
have oks' : all_stages (fun s => stage_ok s) (map tstv (stages P)).
  elim: (stages P) oks => [//|s sts IH] [o1 o2] /=; split; [exact: tst_ok | exact: IH].
have [Sv' [v' [Ks' [ds' [Ss' [vs' [E' B' _ _]]]]]]] := @bwd_ex R n m P' (conj sX pX) _ oks'.
have [K1s [d1s [Eb B2]]] := @trans_list P P' (stages P) erefl erefl oks Z1 _ _ _ _ B'.
have := bwd_fold B2; rewrite E => -[eS ev eK ed eSS eSv evv evs]; subst.
have Eo : omap_seq (fun s : vstage R n m => let? t := trans_stage s in Some (VStage t)) (stages P) = Some (map tstv (stages P)).
  elim: (stages P) oks {E B E' B' oks' B2 Eb P' ne Z1 dp} => [//|s sts IH] [o1 o2] /=.
  by rewrite trans_stageE //= IH.
have Ea s0 : vp s0 = p -> all (fun s : vstage R n m => vp s == vp s0) (map tstv (stages P)).
  move=> e0; elim: (stages P) dp => [//|s sts IH] [d1 d2] /=; by rewrite IH // andbT d1 e0.
split; last by rewrite /seqBackwardPass -/(Sterm P) -/(vterm P) E.
rewrite /seqTransformedBackwardPass /seqBackwardPass -/(Sterm P) -/(vterm P) E /=.
rewrite Eo /=.
have -> : (if stages P is s0 :: _ then
   if all (fun s : vstage R n m => vp s == vp s0) (map tstv (stages P)) then
      let? '(Ks, ds, Ss, vs) := seqBackwardPass P' in
      let? '(Ks', ds') := trans_back_list (stages P) Ks ds in
      Some (Ks', ds', Ss, vs) else None else None) =
   let? '(Ks, ds, Ss, vs) := seqBackwardPass P' in
      let? '(Ks', ds') := trans_back_list (stages P) Ks ds in Some (Ks', ds', Ss, vs).
  case Es: (stages P) ne => [//|s0 l0] _; rewrite -{1}Es Ea //.
  by move: dp; rewrite Es => -[].
rewrite /seqBackwardPass -/(Sterm P') -/(vterm P') E' /=.
by rewrite Eb.
Qed.

(** ** LQR *)
Section LQR.
Variable q : lqr R n m.
Local Notation lqr_stage := (LqtSpec.lqr_stage q).
Local Notation lqt_of_lqr := (LqtSpec.lqt_of_lqr q).

Lemma lqr_gainE Sv : gain lqr_stage Sv 0 = let? K := lqr_gain q Sv in Some (K, 0).
Proof.
rewrite /gain /lqr_gain /= !(trmx1, trmx0, mul1mx, mulmx1, mulmx0, mul0mx, add0r, addr0, subr0, oppr0).
by rewrite /solve_pos mulmx0; case: cholb.
Qed.
Lemma lqr_body Sv Ks ds Ss vs : seq_bwd_body (VStage lqr_stage) (Some (Sv, 0, (Ks, ds, Ss, vs))) =
  let? K := lqr_gain q Sv in let Sv' := lqr_ric q Sv K in Some (Sv', 0, (K :: Ks, 0 :: ds, Sv' :: Ss, 0 :: vs)).
Proof.
rewrite /seq_bwd_body /= lqr_gainE /=; case: (lqr_gain q Sv) => [K|//] /=.
rewrite /lqr_ric !(trmx1, trmx0, mul1mx, mulmx1, mulmx0, mul0mx, add0r, addr0, subr0, oppr0) .
have -> : lX q + (lF q)^T *m Sv *m (lF q - lL q *m K) = (lF q)^T *m Sv *m (lF q - lL q *m K) + lX q by rewrite addrC.
by [].
Qed.
Lemma lqr_loopE T Sv Ks Ss i : foldr (@seq_bwd_body R n m) (Some (Sv, 0, (Ks, nseq i 0, Sv :: Ss, nseq i.+1 0))) (nseq T (VStage lqr_stage))
  = let? '(Ks', Ss') := lqr_seq_loop q T Sv Ks (Sv :: Ss) in Some (head 0 Ss', 0, (Ks', nseq (T + i) 0, Ss', nseq (T + i).+1 0)).
Proof.
elim: T Sv Ks Ss i => [//|T IH] Sv Ks Ss i.
have -> : nseq T.+1 (VStage lqr_stage) = rcons (nseq T (VStage lqr_stage)) (VStage lqr_stage) by elim: T {IH} => //= T <-.
rewrite foldr_rcons lqr_body /=; case: (lqr_gain q Sv) => [K|] /=; last by elim: T {IH} => //= T ->.
by rewrite (IH _ _ _ i.+1) addnS.
Qed.
(** the LQT pass on the embedded problem *)
Lemma lqr_seqE T : seqBackwardPass (lqt_of_lqr T) =
  let? '(Ks, Ss) := lqr_seqBackwardPass q T in Some (Ks, nseq T 0, Ss, nseq T.+1 0).
Proof.
rewrite /seqBackwardPass /lqr_seqBackwardPass /= !(trmx1, mul1mx, mulmx1, mulmx0).
rewrite (lqr_loopE T (lXT q) [::] [::] 0) addn0.
by case: (lqr_seq_loop _ _ _ _ _) => [[Ks Ss]|].
Qed.

Lemma lqr_fwdE T Ks x : size Ks = T -> seq_fwd (nseq T (VStage lqr_stage)) Ks (nseq T 0) x = Some (lqr_fwd q Ks x).
Proof.
elim: T Ks x => [|T IH] [|K Ks] x //= [sz].
rewrite !addr0 IH //=.
by case: (lqr_fwd _ _ _).
Qed.

Local Notation lqr_cost := (LqtSpec.lqr_cost q).
Lemma lqr_costE us x T : size us = T -> total_cost (lqt_of_lqr T) x us = lqr_cost us x.
Proof.
rewrite /total_cost /=.
have : forall P : lqt R n m, (forall x, final_cost P x = qf (lXT q) x / 2%:R) -> size us = T ->
   cost_to_go P (nseq T (VStage lqr_stage)) x us = lqr_cost us x.
  move=> P EP; elim: T us x => [|T IH] [|u us] x //= [sz].
  rewrite IH // /stage_cost /next /= mul0mx dot0r addr0 !mul1mx !subr0 !addr0 //.
by apply=> y; rewrite /final_cost /= mul1mx subr0.
Qed.

Lemma lqr_fc_scanl Ks x : let: (us, xs) := lqr_fwd q Ks x in
  scanl_o fcop (0, x) [seq (lF q - lL q *m K, 0) | K <- Ks] = Some [seq (0, y) | y <- x :: xs] /\
  lqr_fwd_extract Ks [seq (0 : 'M[R]_n, y) | y <- xs] x = Some (us, xs).
Proof.
elim: Ks x => [|K Ks IH] x //=.
have := IH (lF q *m x + lL q *m (- K *m x)); case: (lqr_fwd _ _ _) => us xs [E1 E2] /=.
rewrite /combine_fc /= mulmx0.
have -> : (lF q - lL q *m K) *m x + 0 = lF q *m x + lL q *m (- K *m x) by mxabel.
by rewrite E1 E2.
Qed.
Theorem lqr_par_forward_eq x0 Ks : Ks <> [::] -> lqr_parForwardPass q x0 Ks = Some (lqr_seqForwardPass q x0 Ks).
Proof.
case: Ks => [//|K Ks] _; rewrite /lqr_parForwardPass /lqr_seqForwardPass /= fc_scan.
have := lqr_fc_scanl Ks (lF q *m x0 + lL q *m (- K *m x0)); case: (lqr_fwd _ _ _) => us xs [E1 E2] /=.
have -> : (lF q - lL q *m K) *m x0 = lF q *m x0 + lL q *m (- K *m x0) by mxabel.
by rewrite E1 /= E2.
Qed.

Hypothesis ok : lqr_ok q.
Lemma lqr_stage_ok : stage_ok lqr_stage.
Proof.
case: ok => [[sX pX] [sU pU] _]; split => //=; last by move=> u u0; rewrite mul1mx; apply: pU.
by move=> e w; rewrite mul0mx dot0r mul0rn addr0 addr_ge0 //; apply: pd_psd.
Qed.
Lemma lqr_problem_ok T : problem_ok (lqt_of_lqr T).
Proof.
case: (ok) => [_ _ [sT pT]]; split => //=.
by elim: T => //= T IH; split => //; exact: lqr_stage_ok.
Qed.

Lemma lqr_cost_ge0 us x : 0 <= lqr_cost us x.
Proof.
case: ok => [[_ pX] [_ /pd_psd pU] [_ pT]].
elim: us x => [|u us IH] x /=; first by rewrite divr_ge0 ?ler0n.
by rewrite !addr_ge0 // divr_ge0 ?ler0n.
Qed.

Theorem lqr_optimal T x0 : exists Ks Ss us xs,
  [/\ lqr_seqBackwardPass q T = Some (Ks, Ss), lqr_seqForwardPass q x0 Ks = (us, xs), size us = T,
      lqr_cost us x0 = qf (head 0 Ss) x0 / 2%:R &
      forall us', size us' = T -> us' <> us -> lqr_cost us x0 < lqr_cost us' x0].
Proof.
have pk := lqr_problem_ok T.
have [Ks [ds [Ss [vs [us [xs [E1 E2 [sz un] Ex Ec]]]]]]] := seq_optimal x0 pk.
have [[sK _ _ _] V] := seq_values pk E1.
have [sT pT _] := pk.
move: E1; rewrite lqr_seqE; case E1: lqr_seqBackwardPass => [[Ks' Ss']|//] [eK ed eS ev]; subst Ks' Ss' ds vs.
rewrite /= size_nseq in sK sz un.
move: E2; rewrite /seqForwardPass /= lqr_fwdE //; case E2: (lqr_fwd _ _ _) => [us1 xs1] /= [e1 e2]; subst us1.
exists Ks, Ss, us, xs; split => //.
- by rewrite /lqr_seqForwardPass E2 e2.
- have [c Hc] := V 0%N (leq0n _).
  have [[us0 [sz0 c0]] _] := Hc 0.
  have L (x : 'cV[R]_n) us' : size us' = T -> quad (nth 0 Ss 0) (nth 0 (nseq T.+1 0) 0) x + c <= lqr_cost us' x.
    move=> sz'; have [_ +] := Hc x; rewrite -(lqr_costE x sz') /total_cost drop0; apply.
    by rewrite subn0 /= size_nseq.
  have a0 : c = 0.
    have q0 : quad (nth 0 Ss 0) (nth 0 (nseq T.+1 0) 0) 0 = 0 by rewrite /quad qf0 dot0r mul0r subr0.
    rewrite q0 add0r in c0; apply/eqP; rewrite eq_le; apply/andP; split.
      have := L 0 (nseq T 0) (size_nseq _ _); rewrite q0 add0r => le; apply: (le_trans le).
      have -> // : lqr_cost (nseq T 0) 0 = 0.
      elim: (T) => [|T' IH] /=; first by rewrite qf0 mul0r.
      by rewrite !qf0 !mul0r !mulmx0 !add0r.
    rewrite -c0 drop0 -/(total_cost (lqt_of_lqr T) 0 us0) lqr_costE; last by rewrite sz0 subn0 /= size_nseq.
    exact: lqr_cost_ge0.
  have [[us1 [sz1 c1]] _] := Hc x0.
  rewrite a0 addr0 drop0 subn0 /= size_nseq in sz1 c1.
  have -> : qf (head 0 Ss) x0 / 2%:R = quad (nth 0 Ss 0) (nth 0 (nseq T.+1 0) 0) x0.
    by rewrite /quad -nth0 /= dot0l subr0.
  have -> : us = us1; last by rewrite -(lqr_costE x0 sz1).
  apply/eqP/negPn/negP => ne; have lt := un us1 sz1 (fun e => negP ne (introT eqP (esym e))).
  have := L x0 us sz; rewrite a0 addr0 -(lqr_costE x0 sz).
  by rewrite -[quad _ _ _]c1 leNgt lt.
- by move=> us' sz' ne; rewrite -!(lqr_costE x0 (T := T)) //; apply: un.
Qed.

Let uU : lU q \in unitmx. Proof. by case: ok => _ [_ /pd_unit]. Qed.
Lemma lqr_elemE : stage_elem lqr_stage = lqr_elem q.
Proof.
rewrite /stage_elem /lqr_elem /= !(trmx1, trmx0, mul1mx, mulmx1, mulmx0, mul0mx).
rewrite !solve_unit ?unitmx1 //= !(mulmx0, mulmx1).
by case: solve_pos => [c|//] /=; rewrite !(mulmx0, addr0, subr0, mul0mx, mul1mx).
Qed.
Lemma map_eJ (Ss : seq 'M[R]_n) T : size Ss = T -> [seq eJ e | e <- zipv Ss (nseq T 0)] = Ss.
Proof. by elim: Ss T => [|Sv Ss IH] [|T] //= [sz]; rewrite IH. Qed.
Lemma lqr_gains (Ss : seq 'M[R]_n) T Ks ds Ss' vs' : size Ss = T ->
  par_bwd_extract (nseq T (VStage lqr_stage)) (zipv Ss (nseq T 0)) = Some (Ks, ds, Ss', vs') ->
  omap_seq (fun e => lqr_gain q (eJ e)) (zipv Ss (nseq T 0)) = Some Ks.
Proof.
elim: Ss T Ks ds Ss' vs' => [|Sv Ss IH] [|T] Ks ds Ss' vs' //=; first by move=> _ [<-].
case=> sz.
rewrite lqr_gainE; case: (lqr_gain q Sv) => [K|//] /=.
case E: (par_bwd_extract _ _) => [[[[Ks1 ds1] Ss1] vs1]|//] /= [<- _ _ _].
by rewrite (IH _ _ _ _ _ sz E).
Qed.
Lemma omap_nseq T e : lqr_elem q = Some e ->
  omap_seq (fun s : vstage R n m => stage_elem s) (nseq T (VStage lqr_stage)) = Some (nseq T e).
Proof. by move=> E; elim: T => //= T ->; rewrite lqr_elemE E. Qed.

Theorem lqr_par_backward_eq T : lqr_parBackwardPass q T = lqr_seqBackwardPass q T /\ lqr_seqBackwardPass q T <> None.
Proof.
have [sT pT oks] := lqr_problem_ok T.
have [Sv [v [Ks [ds [Ss [vs [E B sS pS]]]]]]] := bwd_ex (conj sT pT) oks.
have := lqr_seqE T; rewrite /seqBackwardPass -/(Sterm _) -/(vterm _) E /=.
case E1: lqr_seqBackwardPass => [[Ks' Ss']|//] [eK ed eS ev evs]; subst Ks' ds Ss' v vs; split => //.
have [e [Ee oe _]] := stage_elemP lqr_stage_ok; rewrite lqr_elemE in Ee.
have sc := bwd_scanr B (omap_nseq T Ee).
have T1 : Sterm (lqt_of_lqr T) = lXT q by rewrite /Sterm /= trmx1 mul1mx mulmx1.
have T2 : vterm (lqt_of_lqr T) = 0 by rewrite /vterm /= mulmx0.
rewrite T1 T2 in sc.
rewrite /lqr_parBackwardPass /lqr_parBackwardPass_init Ee /= /par_backward_pass_scan (scan_scanr (@elem_ok R n)).
- rewrite sc /=.
  have [sK sd sSs _] := bwd_sizes B; rewrite /= size_nseq in sSs; case: sSs => sSs.
  by rewrite (lqr_gains sSs (extract_loop B)) /= map_eJ.
- exact: combine_closed.
- exact: combine_assoc.
- by case: (nseq T e).
- apply: forall_rcons; first by elim: (T) => [|T' IH]; constructor.
  by apply: vel_ok; case: ok => _ _ [].
Qed.

Lemma lqr_seq_sizes T Ks Ss : lqr_seqBackwardPass q T = Some (Ks, Ss) -> size Ks = T /\ size Ss = T.+1.
Proof.
move=> E; have [] := @seq_values R n m (lqt_of_lqr T) Ks (nseq T 0) Ss (nseq T.+1 0) (lqr_problem_ok T).
  by rewrite lqr_seqE E.
by rewrite /= size_nseq; case.
Qed.

(** ** doubling *)
Definition ric1 (Sv : 'M[R]_n) : 'M[R]_n :=
  (lF q)^T *m Sv *m (lF q - lL q *m (invmx (lU q + (lL q)^T *m Sv *m lL q) *m ((lL q)^T *m Sv *m lF q))) + lX q.
Definition pows (N : nat) (f : elem R n) : Prop :=
  elem_ok f /\ forall Sv, symm Sv -> psd Sv ->
    [/\ symm (iter N ric1 Sv), psd (iter N ric1 Sv) & combine_abcej f (vel Sv 0) = Some (vel (iter N ric1 Sv) 0)].
Lemma pows_comb a b f g : pows a f -> pows b g -> exists fg, combine_abcej f g = Some fg /\ pows (a + b) fg.
Proof.
move=> [of_ pf] [og pg].
exists (comb2 f g); split; first exact: combineE.
split; first exact: comb_ok.
move=> Sv sS pS; have [sb pb Eb] := pg Sv sS pS; have [sa pa Ea] := pf _ sb pb.
rewrite iterD; split => //; rewrite -Ea.
by apply: (combine_assoc of_ og (vel_ok 0 sS pS) _ Eb); apply: combineE.
Qed.
Lemma lqr_gain_some Sv : symm Sv -> psd Sv -> lqr_gain q Sv = Some (invmx (lU q + (lL q)^T *m Sv *m lL q) *m ((lL q)^T *m Sv *m lF q)).
Proof.
move=> sS pS; case: ok => _ [sU pU] _; apply: solve_posE.
  by apply: symmD => //; apply: symm_cong.
by apply: pd_psdD => //; apply: psd_cong.
Qed.
Lemma pows1 e : lqr_elem q = Some e -> pows 1 e.
Proof.
move=> Ee; have [e' [Ee' oe _]] := stage_elemP lqr_stage_ok; move: (Ee'); rewrite lqr_elemE Ee => -[ee]; subst e'.
split=> // Sv sS pS /=.
have g : gain lqr_stage Sv 0 = Some (invmx (lU q + (lL q)^T *m Sv *m lL q) *m ((lL q)^T *m Sv *m lF q), 0).
  by rewrite lqr_gainE lqr_gain_some.
have [WK Wd] := (gainP lqr_stage_ok 0 sS pS _ _).1 g.
have := comb_vel lqr_stage_ok sS pS WK Wd Ee' oe.
have := lqr_body Sv [::] [::] [::] [::]; rewrite /seq_bwd_body /= g lqr_gain_some //= => -[eS ev _ _].
rewrite /S' /v' eS ev => Ec; rewrite /ric1 -/(lqr_ric q Sv _); split => //.
- have := S'_symm lqr_stage_ok sS WK; by rewrite /S' eS.
- have := S'_psd lqr_stage_ok pS WK; by rewrite /S' eS.
Qed.
Lemma double_pows k N e : pows N e -> exists f, double_loop k e = Some f /\ pows (2 ^ k * N) f.
Proof.
elim: k N e => [|k IH] N e p /=; first by exists e; rewrite mul1n.
have [f [-> pf]] := pows_comb p p; have [g [Eg pg]] := IH _ _ pf; exists g; split => //.
by move: pg; rewrite addnn -mul2n mulnA -expnSr.
Qed.
Lemma pows_J N f : pows N f -> eJ f = iter N ric1 0.
Proof.
case=> [[sC pC sJ pJ]] /(_ 0 (symm0 _ _) (@psd0 R n)) [_ _].
rewrite /combine_abcej /vel /= !mulmx0 !mul0mx addr0 !solve_unit ?unitmx1 //= => -[_ _ _ _].
by rewrite !(mulmx0, mul0mx) add0r.
Qed.

Lemma lqr_iterS k K Sv : symm Sv -> psd Sv ->
  lqr_iter_loop q k.+1 K Sv = lqr_iter_loop q k (lqr_gain q Sv) (ric1 Sv).
Proof. by move=> sS pS; rewrite /= lqr_gain_some. Qed.
Lemma lqr_iterE k K Sv : symm Sv -> psd Sv ->
  lqr_iter_loop q k.+1 K Sv = Some (lqr_gain q (iter k ric1 Sv), iter k.+1 ric1 Sv).
Proof.
move=> sS pS; have [e [Ee oe _]] := stage_elemP lqr_stage_ok; rewrite lqr_elemE in Ee.
elim: k K Sv sS pS => [|k IH] K Sv sS pS; rewrite lqr_iterS //.
have [_ H] := pows1 Ee; have [s1 p1 _] := H Sv sS pS.
by rewrite IH // -!iterSr.
Qed.
Lemma ric1_0 : ric1 0 = lX q.
Proof. by rewrite /ric1 !(mulmx0, mul0mx) add0r. Qed.

Theorem lqr_double_eq k : exists K Sv Kl, 
  [/\ lqrDouble q k = Some (K, Sv),
      (exists Sl, lqrIter q (2 ^ k) = Some (Some K, Sl)) & lqrIter q (2 ^ k).-1 = Some (Kl, Sv)].
Proof.
have [e [Ee oe _]] := stage_elemP lqr_stage_ok; rewrite lqr_elemE in Ee.
have Ed : lqr_double_elem q = Some e.
  move: Ee; rewrite /lqr_elem /lqr_double_elem; case: (ok) => _ [sU pU] _.
  by rewrite solve_posE // solve_unit.
have [f [Ef pf]] := double_pows k (pows1 Ee).
have [_ H] := pf; have [s1 p1 _] := H 0 (symm0 _ _) (@psd0 R n); rewrite muln1 in pf s1 p1.
rewrite /lqrDouble Ed /= Ef /= (pows_J pf) lqr_gain_some //=.
have [sX pX] : symm (lX q) /\ psd (lX q) by case: ok.
have e2 : (2 ^ k = (2 ^ k).-1.+1)%N by rewrite prednK // expn_gt0.
set K := invmx _ *m _.
exists K, (iter (2 ^ k) ric1 0), (if (2 ^ k).-1 is N.+1 then lqr_gain q (iter N ric1 (lX q)) else None); split => //.
- exists (iter (2 ^ k) ric1 (lX q)); rewrite /lqrIter {1}e2 lqr_iterE // -e2.
  by rewrite -ric1_0 -iterSr -e2 lqr_gain_some // -/K.
- rewrite [in RHS]e2 iterSr ric1_0 /lqrIter; case: (2 ^ k).-1 => [//|N].
  by rewrite lqr_iterE.
Qed.
End LQR.
End More.
