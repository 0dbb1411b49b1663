(** The sequential passes of LQT: optimality, value functions; the parallel passes agree with them. *)
From Coq Require Import Ring Field.
From mathcomp Require Import all_ssreflect all_algebra.
From Verif Require Import ScanModel ScanSpec ScanProofs ScanUse MxBase LqtModel LqtSpec LqtCore LqtElem.
Import Order.TTheory GRing.Theory Num.Theory.
Set Implicit Arguments. Unset Strict Implicit. Unset Printing Implicit Defensive.
Local Open Scope ring_scope.

Section Proofs.
Variable R : realFieldType.
Variables n m : nat.
Add Ring Rr : (mc_ring R).
Add Field Rf : (mc_field R).
Ltac sfield := rsn R; field; exact: two_neq0.

Section P.
Variable P : lqt R n m.
Definition Sterm : 'M[R]_n := (HT P)^T *m XT P *m HT P.
Definition vterm : 'cV[R]_n := (HT P)^T *m XT P *m rT P.

(** the lists computed by the backward pass, as a relation *)
Inductive bwd : seq (vstage R n m) -> seq 'M[R]_(m, n) -> seq 'cV[R]_m -> seq 'M[R]_n -> seq 'cV[R]_n -> Prop :=
| bwd0 : bwd [::] [::] [::] [:: Sterm] [:: vterm]
| bwdS (s : vstage R n m) sts K d Ks ds Sv v Ss vs of stage_ok s & symm Sv & psd Sv &
    W s Sv *m K = G s Sv & W s Sv *m d = e0 s Sv v & bwd sts Ks ds (Sv :: Ss) (v :: vs) :
  bwd (s :: sts) (K :: Ks) (d :: ds) (S' s Sv K :: Sv :: Ss) (v' s Sv v K :: v :: vs).

Hypothesis okT : symm (XT P) /\ psd (XT P).

Lemma bwd_ex sts : all_stages (fun s => stage_ok s) sts ->
  exists Sv v Ks ds Ss vs, [/\ foldr (@seq_bwd_body R n m)
     (Some (Sterm, vterm, ([::], [::], [:: Sterm], [:: vterm]))) sts = Some (Sv, v, (Ks, ds, Sv :: Ss, v :: vs)),
     bwd sts Ks ds (Sv :: Ss) (v :: vs), symm Sv & psd Sv].
Proof.
elim: sts => [_|s sts IH [oks /IH [Sv [v [Ks [ds [Ss [vs [E B sS pS]]]]]]]]].
  exists Sterm, vterm, [::], [::], [::], [::]; split => //; first exact: bwd0.
    by apply: symm_cong; case: okT.
  by apply: psd_cong; case: okT.
have [K [d g]] := gain_some oks v sS pS.
have [WK Wd] := (gainP oks v sS pS K d).1 g.
exists (S' s Sv K), (v' s Sv v K), (K :: Ks), (d :: ds), (Sv :: Ss), (v :: vs); split.
- by rewrite /= E /= g /=.
- exact: bwdS.
- exact: S'_symm.
- exact: (S'_psd oks pS WK).
Qed.

Lemma bwd_sizes sts Ks ds Ss vs : bwd sts Ks ds Ss vs ->
  [/\ size Ks = size sts, size ds = size sts, size Ss = (size sts).+1 & size vs = (size sts).+1].
Proof. by elim=> [|s sts' K d Ks' ds' Sv v Ss' vs' _ _ _ _ _ _ [/= -> -> -> ->]]. Qed.

Lemma quad_term x : final_cost P x = quad Sterm vterm x + qf (XT P) (rT P) / 2%:R.
Proof.
rewrite /final_cost /quad /Sterm qfM.
have -> : dot vterm x = dot (XT P *m rT P) (HT P *m x) by rewrite /vterm dotMr mulmxA.
rewrite addrC qfD; last by case: okT.
rewrite mulmxN dotNl qfN; sfield.
Qed.

Lemma bwd_opt sts Ks ds Ss vs : bwd sts Ks ds Ss vs ->
  exists c, forall x, exists us xs,
  [/\ seq_fwd sts Ks ds x = Some (us, xs), size us = size sts, traj sts x us = x :: xs,
      cost_to_go P sts x us = quad (head 0 Ss) (head 0 vs) x + c &
      forall us', size us' = size sts -> us' <> us -> quad (head 0 Ss) (head 0 vs) x + c < cost_to_go P sts x us'].
Proof.
elim=> [|s sts' K d Ks' ds' Sv v Ss' vs' oks sS pS WK Wd _ [c /= IH]].
  exists (qf (XT P) (rT P) / 2%:R) => x; exists [::], [::]; split => //=; first exact: quad_term.
  by move=> [].
exists (phi s Sv v 0 d + c) => x.
have [us [xs [E sz tr co un]]] := IH (next s x (- K *m x + d)).
exists (- K *m x + d :: us), (next s x (- K *m x + d) :: xs).
have CS := complete_square oks sS WK Wd x.
have Lo u' us' : size us' = size sts' -> quad Sv v (next s x u') + c <= cost_to_go P sts' (next s x u') us'.
  move=> sz'; have [us2 [xs2 [_ _ _ co2 un2]]] := IH (next s x u').
  have [e|/eqP ne] := eqVneq us' us2; first by rewrite e co2 lexx.
  by apply/ltW/un2.
split=> //=.
- by rewrite E.
- by rewrite sz.
- by rewrite tr.
- rewrite co; have := CS (- K *m x + d); rewrite /phi mulNmx [- (K *m x) + d]addrC subrr qf0 => e.
  by apply: (lincomb e); sfield.
- case=> [//|u' us'] /= [sz'] ne.
  have := CS u'; rewrite {1}/phi => e.
  have e1 : stage_cost s x u' + cost_to_go P sts' (next s x u') us' =
     qf (W s Sv) (u' - (d - K *m x)) / 2%:R + (cost_to_go P sts' (next s x u') us' - (quad Sv v (next s x u') + c))
     + (quad (S' s Sv K) (v' s Sv v K) x + (phi s Sv v 0 d + c)).
    by apply: (lincomb e); sfield.
  rewrite e1 ltr_addr.
  have [eu|neu] := eqVneq u' (d - K *m x).
    rewrite eu subrr qf0 mul0r add0r subr_gt0.
    have -> : d - K *m x = - K *m x + d by rewrite mulNmx addrC.
    apply: un => // eus; apply: ne; rewrite eu eus; congr (_ :: _).
    by rewrite mulNmx addrC.
  rewrite ltr_paddr ?subr_ge0 ?Lo // divr_gt0 ?ltr0n //.
  by apply: (W_pd oks); rewrite // subr_eq0.
Qed.
End P.

(** ** LQT.cost and seqSimulation *)
Lemma sim_traj (sts : seq (vstage R n m)) us x : size us = size sts -> exists xs, seq_sim sts us x = Some xs /\ traj sts x us = x :: xs.
Proof.
elim: sts us x => [|s sts IH] [|u us] x //=; first by exists [::].
by case=> sz; have [xs [E t]] := IH us (next s x u) sz; exists (next s x u :: xs); rewrite E t.
Qed.
Lemma half_sc p (e : 'cV[R]_p) (A : 'M[R]_p) : sc (2%:R^-1 *: e^T *m A *m e) = qf A e / 2%:R.
Proof. by rewrite -!scalemxAl scZ -/(qf A e) mulrC. Qed.
Lemma cost_loopE (P : lqt R n m) sts us x res : size us = size sts ->
  cost_loop sts us (traj sts x us) res = Some (res - final_cost P (last x (traj sts x us)) + cost_to_go P sts x us).
Proof.
elim: sts us x res => [|s sts IH] [|u us] x res //=; first by rewrite addrNK.
case=> sz; rewrite IH //; congr Some.
have -> : last x (traj sts (next s x u) us) = last (next s x u) (traj sts (next s x u) us) by case: sts us {IH sz} => [|? ?] [].
rewrite !half_sc /stage_cost.
have -> : sc ((sH s *m x - sr s)^T *m sM s *m (sZ s *m u - ss s)) = dot (sH s *m x - sr s) (sM s *m (sZ s *m u - ss s)).
  by rewrite /dot mulmxA.
by rewrite -/(next s x u); rsn R; ring.
Qed.
Lemma lqt_costE (P : lqt R n m) us x : size us = size (stages P) ->
  lqt_cost P us (traj (stages P) x us) = Some (total_cost P x us).
Proof.
move=> sz; have E : exists t, traj (stages P) x us = x :: t by case: (stages P) us sz => [|s sts] [|u us] //= _; eexists.
case: E => t E; rewrite E /lqt_cost half_sc -/(final_cost P (last x t)) -E (cost_loopE P) // E /= subrr add0r //.
Qed.

Theorem seq_optimal (P : lqt R n m) x0 : problem_ok P ->
  exists Ks ds Ss vs us xs,
  [/\ seqBackwardPass P = Some (Ks, ds, Ss, vs), seqForwardPass P x0 Ks ds = Some (us, xs),
      unique_minimiser P x0 us, xs = traj (stages P) x0 us & lqt_cost P us xs = Some (total_cost P x0 us)].
Proof.
case=> sX pX oks.
have [Sv [v [Ks [ds [Ss [vs [E B sS pS]]]]]]] := bwd_ex (conj sX pX) oks.
have [c H] := bwd_opt (conj sX pX) B.
have [us [xs [E2 sz tr co un]]] := H x0.
exists Ks, ds, (Sv :: Ss), (v :: vs), us, (x0 :: xs); split.
- by rewrite /seqBackwardPass -/(Sterm P) -/(vterm P) E.
- by rewrite /seqForwardPass E2.
- by split => // us' sz' ne; rewrite /total_cost co; apply: un.
- by rewrite tr.
- by rewrite -tr lqt_costE.
Qed.

Lemma bwd_drop P sts Ks ds Ss vs k : bwd P sts Ks ds Ss vs -> (k <= size sts)%N ->
  bwd P (drop k sts) (drop k Ks) (drop k ds) (drop k Ss) (drop k vs).
Proof.
move=> B; elim: k sts Ks ds Ss vs B => [|k IH] sts Ks ds Ss vs B; first by rewrite !drop0.
case: B => [|s sts' K d Ks' ds' Sv v Ss' vs' ? ? ? ? ? B] //= lt; exact: IH B lt.
Qed.

Theorem seq_values (P : lqt R n m) Ks ds Ss vs : problem_ok P ->
  seqBackwardPass P = Some (Ks, ds, Ss, vs) ->
  [/\ size Ks = size (stages P), size ds = size (stages P), size Ss = (size (stages P)).+1 & size vs = (size (stages P)).+1] /\
  forall k, (k <= size (stages P))%N ->
    exists c, forall x, least_cost_from P k x (quad (nth 0 Ss k) (nth 0 vs k) x + c).
Proof.
case=> sX pX oks.
have [Sv [v [Ks' [ds' [Ss' [vs' [E B sS pS]]]]]]] := bwd_ex (conj sX pX) oks.
rewrite /seqBackwardPass -/(Sterm P) -/(vterm P) E => -[<- <- <- <-].
split; first exact: bwd_sizes B.
move=> k le; have Bk := bwd_drop B le.
have [c H] := bwd_opt (conj sX pX) Bk; exists c => x.
have [us [xs [E2 sz tr co un]]] := H x.
rewrite -!nth0 !nth_drop addn0 in co un.
split.
  by exists us; rewrite sz size_drop co.
move=> us' sz'; have [->|/eqP ne] := eqVneq us' us; first by rewrite co lexx.
by apply/ltW/un => //; rewrite size_drop.
Qed.

Theorem sim_and_cost (P : lqt R n m) x0 us : size us = size (stages P) ->
  seqSimulation P x0 us = Some (traj (stages P) x0 us) /\
  lqt_cost P us (traj (stages P) x0 us) = Some (total_cost P x0 us).
Proof.
move=> sz; split; last exact: lqt_costE.
by rewrite /seqSimulation; have [xs [-> ->]] := sim_traj x0 sz.
Qed.
End Proofs.
