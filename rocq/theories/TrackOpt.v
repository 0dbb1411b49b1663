(** Optimality and convergence for the tracker with constant data. *)
From Coq Require Import Reals.
From mathcomp Require Import all_ssreflect all_algebra zify.
From Verif Require Import RealF MxBase LqtModel LqtCore LinComb Rk4Model ClqtModel ClqtSpec ClqrModel ClqrSpec ClqrProofs RealExpSpec RealExp ClqrOptSpec ClqrOpt RkConv FwdConv ParConvC ParTraj FbTraj.
From Verif Require Import ClqtFwd2 TrackSpec TrackExt TrackExt2 TrackPar TrackOptSpec.
Import Order.TTheory GRing.Theory Num.Theory.
Set Implicit Arguments. Unset Strict Implicit. Unset Printing Implicit Defensive.
Local Open Scope ring_scope.

Section Opt.
Variables n m p pT : nat.
Variable P : clqt Rf n m p pT.
Hypothesis cP : constant P.
Hypothesis wP : weights_ok P.
Hypothesis pX : psd (kX P 0).
Hypothesis pT' : psd (kXT P).
Hypothesis T0 : 0 <= kT P.
Local Notation q := (extended P).
Local Notation T := (kT P).

Lemma q_ok : [/\ symm (qU q) /\ pd (qU q), symm (qX q) /\ psd (qX q), symm (qXT q) /\ psd (qXT q) & 0 <= qT q].
Proof.
case: wP => sX sT sU pU; split=> //; split; try exact: psd_cong.
  by rewrite /symm /= !trmx_mul trmxK sX mulmxA.
by rewrite /symm /= !trmx_mul trmxK sT mulmxA.
Qed.
Lemma qX_extend x : qf (qX q) (extend x) = qf (kX P 0) (kH P 0 *m x - kr P 0).
Proof. by rewrite /= qfM /extend mul_row_col mulmx1. Qed.
Lemma qXT_extend x : qf (qXT q) (extend x) = qf (kXT P) (kHT P *m x - krT P).
Proof. by rewrite /= qfM /extend mul_row_col mulmx1. Qed.
Lemma rhs_extend x u : qF q *m extend x + qL q *m u = col_mx (kF P 0 *m x + kc P 0 + kL P 0 *m u) 0.
Proof. by rewrite /= /extend mul_block_col mul_col_mx !mul0mx mulmx1 !addr0 add_col_mx addr0. Qed.
Lemma mcont_extend (x : R -> 'cV[Rf]_n) (t : Rf) : mcont x t -> mcont (fun t => extend (x t)) t.
Proof.
move=> c i j; case: (split_ordP i) => k ->.
  by apply: (cont_ext _ (c k j)) => s; rewrite /extend col_mxEu.
by apply: (cont_ext (f := fun=> (1%:M : 'M[Rf]_1) k j)) => [s|]; [rewrite /extend col_mxEd|exact: continuity_pt_const].
Qed.
Lemma mderiv_extend (x : R -> 'cV[Rf]_n) (t : Rf) d : mderiv x t d -> mderiv (fun t => extend (x t)) t (col_mx d 0).
Proof.
move=> c i j; case: (split_ordP i) => k ->.
  by rewrite col_mxEu; apply: (dlim_ext _ (c k j)) => s; rewrite /extend col_mxEu.
rewrite col_mxEd mxE; apply: (dlim_ext (f := fun=> (1%:M : 'M[Rf]_1) k j)) => [s|]; [by rewrite /extend col_mxEd|exact: derivable_pt_lim_const].
Qed.
Lemma mcont_usub (y : R -> 'cV[Rf]_(n + 1)) (t : Rf) : mcont y t -> mcont (fun t => usubmx (y t)) t.
Proof. by move=> c i j; apply: (cont_ext _ (c (lshift 1 i) j)) => s; rewrite mxE. Qed.
Lemma mcont_dsub (y : R -> 'cV[Rf]_(n + 1)) (t : Rf) : mcont y t -> mcont (fun t => dsubmx (y t)) t.
Proof. by move=> c i j; apply: (cont_ext _ (c (rshift n i) j)) => s; rewrite mxE. Qed.

Lemma steered_driven x u c ts t0 : steered P x u c ts t0 -> driven q (fun t => extend (x t)) u c ts t0.
Proof.
move=> [h1 h2]; split=> [t ht|t ht nt].
  by have [hx hc] := h1 t ht; split=> //; exact: mcont_extend.
have [hx hc] := h2 t ht nt; rewrite rhs_extend qX_extend; move: hx hc; case: (cP t) => -[-> ->] [-> ->] -> -> -> hx hc.
by split=> //; exact: mderiv_extend.
Qed.
Lemma driven_steered y u c t0 x0 : t0 <= T -> driven q y u c [::] t0 -> y t0 = extend x0 ->
  let x := fun t => usubmx (y t) in [/\ steered P x u c [::] t0, x t0 = x0 & forall t : Rf, t0 <= t <= T -> y t = extend (x t)].
Proof.
move=> tT [h1 h2] y0 x.
have E (t : Rf) : t0 <= t <= T -> y t = extend (x t).
  move=> /andP [a b]; rewrite -[LHS]vsubmxK /extend; congr col_mx.
  have -> : (1%:M : 'M[Rf]_1) = dsubmx (y t0) by rewrite y0 /extend col_mxKd.
  apply: (const_on (v := fun t => dsubmx (y t)) a) => s /andP [s1 s2].
    by apply: mcont_dsub; case: (h1 s) => //; rewrite s1 (le_trans s2 b).
  have [|d _] := h2 s _ isT; first by rewrite s1 (lt_le_trans s2 b).
  have -> : 0 = dsubmx (qF q *m y s + qL q *m u s).
    by rewrite /= -[y s]vsubmxK mul_block_col mul_col_mx !mul0mx add_col_mx !addr0 col_mxKd.
  exact: mderiv_dsub.
split=> //; last by rewrite /x y0 /extend col_mxKu.
split=> [t ht|t ht nt].
  by have [hy hc] := h1 t ht; split=> //; exact: mcont_usub.
have [hy hc] := h2 t ht nt.
have Et : y t = extend (x t) by case/andP: ht => a b; apply: E; rewrite !ltW.
move: hc; rewrite Et qX_extend; case: (cP t) => -[-> ->] [-> ->] -> -> -> hc; split=> //.
have -> : kF P 0 *m x t + kc P 0 + kL P 0 *m u t = usubmx (qF q *m y t + qL q *m u t) by rewrite Et rhs_extend col_mxKu.
exact: mderiv_usub.
Qed.
Lemma cost_extend x c t0 : cost_to_go q (fun t => extend (x t)) c t0 = tracking_cost P x c t0.
Proof. by rewrite /cost_to_go qXT_extend. Qed.

Lemma optimal_ext y u c x0 : driven q y u c [::] 0 -> y 0 = extend x0 ->
  (forall y' u' c' ts, driven q y' u' c' ts 0 -> y' 0 = extend x0 -> cost_to_go q y c 0 <= cost_to_go q y' c' 0) ->
  optimal_tracking P (fun t => usubmx (y t)) u x0.
Proof.
move=> d y0 opt; have [st x00 E] := driven_steered T0 d y0; exists c; split=> // x' u' c' ts st' x0'.
have := opt _ _ _ _ (steered_driven st'); rewrite x0' => /(_ erefl); rewrite cost_extend; apply: le_trans.
by rewrite /cost_to_go /tracking_cost -qXT_extend -E ?T0 ?lexx.
Qed.

Lemma within_u (e : Rf) k l (A B : 'M[Rf]_(k + 1, l)) : within e A B -> within e (usubmx A) (usubmx B).
Proof. by move=> h i j; rewrite !mxE; exact: h. Qed.
Lemma within_split (e : Rf) r xs us (y : R -> 'cV[Rf]_(n + 1)) (u : R -> 'cV[Rf]_m) N (t : nat -> Rf) : @split_states Rf n m r = (us, xs) -> size r.1 = N -> size r.2 = N.+1 ->
  (forall i, (i <= N)%N -> within e (nth 0 r.2 i) (y (t i))) -> (forall i, (i < N)%N -> within e (nth 0 r.1 i) (u (t i))) ->
  [/\ size us = N /\ size xs = N.+1, forall i, (i <= N)%N -> within e (nth 0 xs i) (usubmx (y (t i))) &
    forall i, (i < N)%N -> within e (nth 0 us i) (u (t i))].
Proof.
move=> [<- <-] s1 s2 hx hu; rewrite size_map; split=> // i hi.
by rewrite (nth_map 0) ?s2 //; apply: within_u; exact: hx.
Qed.

(** ** trajectories *)
Theorem track_trajectory x0 : exists x u, optimal_tracking P x u x0 /\
  forall zoh, exists (D : Rf) N0, forall steps, (N0 <= steps)%N -> (0 < steps)%N ->
    let t i := i%:R * (T / steps%:R) in exists Ks ds Ss vs us xs,
    [/\ clqt_seqBackwardPass P steps None None None None = Some (Ks, ds, Ss, vs),
        clqt_seqForwardPass P x0 Ks ds None None zoh = Some (us, xs), size us = steps /\ size xs = steps.+1,
        forall i, (i <= steps)%N -> within (D / steps%:R) (nth 0 xs i) (x (t i)) &
        forall i, (i < steps)%N -> within (D / steps%:R) (nth 0 us i) (u (t i))].
Proof.
have [[sU pU] [sX psX] [sT psT] hT] := q_ok.
have [y [u [c [d y0 opt H]]]] := trajectory_converges sU pU sX psX sT psT hT (extend x0).
exists (fun t => usubmx (y t)), u; split; first exact: optimal_ext d y0 opt.
move=> zoh; have [||D [N0 h]] := H Rk4 Rk4 zoh => //; exists D, N0 => steps n0 s0 t.
have [Ks [Ss [us [xs [hb hf [z1 z2] hx hu]]]]] := h _ n0 s0.
exists (map lsubmx Ks), (map (fun K => - rsubmx K) Ks), (map ulsubmx Ss), (map (fun S => - ursubmx S) Ss), us, (map usubmx xs).
have [zz hx' hu'] := within_split (erefl (split_states (us, xs))) z1 z2 hx hu.
by split=> //; [rewrite (seq_backward_ext expmR) // hb|rewrite (seq_forward_ext expmR) // hf].
Qed.
Theorem track_par_trajectory x0 : exists x u, optimal_tracking P x u x0 /\
  forall blocks zoh, (0 < blocks)%N -> exists (D : Rf) N0, forall steps, (N0 <= steps)%N -> (0 < steps)%N ->
    let t i := i%:R * (T / (blocks * steps)%:R) in exists Ks ds Ss vs us xs,
    [/\ clqt_parBackwardPass P blocks steps None None false = Some (Ks, ds, Ss, vs),
        clqt_seqForwardPass P x0 Ks ds None None zoh = Some (us, xs) /\
          (zoh = false -> clqt_parForwardPass P x0 Ks ds blocks steps None None true false = Some (us, xs)),
        size us = (blocks * steps)%N /\ size xs = (blocks * steps).+1,
        forall i, (i <= blocks * steps)%N -> within (D / (blocks * steps)%:R) (nth 0 xs i) (x (t i)) &
        forall i, (i < blocks * steps)%N -> within (D / (blocks * steps)%:R) (nth 0 us i) (u (t i))].
Proof.
have [[sU pU] [sX psX] [sT psT] hT] := q_ok.
have [y [u [c [d y0 opt H]]]] := par_trajectory sU pU sX psX sT psT hT (extend x0).
exists (fun t => usubmx (y t)), u; split; first exact: optimal_ext d y0 opt.
move=> blocks zoh b0; have [||D [N0 h]] := H blocks Rk4 zoh => //; exists D, N0 => steps n0 s0 t.
have [Ks [Ss [us [xs [hb [hf hp] [z1 z2] hx hu]]]]] := h _ n0 s0.
exists (map lsubmx Ks), (map (fun K => - rsubmx K) Ks), (map ulsubmx Ss), (map (fun S => - ursubmx S) Ss), us, (map usubmx xs).
have [zz hx' hu'] := within_split (erefl (split_states (us, xs))) z1 z2 hx hu.
split=> //; first by rewrite (par_backward_ext expmR) // hb.
split; first by rewrite (seq_forward_ext expmR) // hf.
by move=> z; rewrite (par_forward_ext expmR) // hp.
Qed.
Theorem track_fb_trajectory x0 : exists x u, optimal_tracking P x u x0 /\
  forall blocks (par : bool), (0 < blocks)%N -> exists (D : Rf) N0, forall steps, (N0 <= steps)%N -> (0 < steps)%N ->
    let t i := i%:R * (T / (blocks * steps)%:R) in exists Ks ds Ss vs l us xs,
    [/\ (if par then clqt_parBackwardPass P blocks steps None None false else clqt_seqBackwardPass P (blocks * steps) None None None None) = Some (Ks, ds, Ss, vs),
        clqt_seqFwdBwdPass P x0 (blocks * steps) None None None None None = Some l /\ combineForwardBackward Ks ds Ss vs l = Some (us, xs),
        size us = (blocks * steps)%N /\ size xs = (blocks * steps).+1,
        forall i, (i <= blocks * steps)%N -> within (D / (blocks * steps)%:R ^+ 4) (nth 0 xs i) (x (t i)) &
        forall i, (i < blocks * steps)%N -> within (D / (blocks * steps)%:R ^+ 4) (nth 0 us i) (u (t i))].
Proof.
have [[sU pU] [sX psX] [sT psT] hT] := q_ok.
have [y [u [c [d y0 opt H]]]] := seq_fb_trajectory sU pU sX psX sT psT hT (extend x0).
exists (fun t => usubmx (y t)), u; split; first exact: optimal_ext d y0 opt.
move=> blocks par b0; have [||D [N0 h]] := H blocks (if par then None else Some Rk4) => //; first by case: (par).
exists D, N0 => steps n0 s0 t.
have [Ks [Ss [l [us [xs [hb [hf hc] [z1 z2] hx hu]]]]]] := h _ n0 s0.
have [zz hx' hu'] := within_split (erefl (split_states (us, xs))) z1 z2 hx hu.
have := seq_fwdbwd_ext cP wP x0 (blocks * steps) None None Ks Ss; rewrite hf obindS hc.
case E: (clqt_seqFwdBwdPass _ _ _ _ _ _ _ _) => [l'|] // hl.
exists (map lsubmx Ks), (map (fun K => - rsubmx K) Ks), (map ulsubmx Ss), (map (fun S => - ursubmx S) Ss), l', us, (map usubmx xs).
split=> //; case: par hb {h} => hb; first by rewrite (par_backward_ext expmR) // hb.
by rewrite (seq_backward_ext expmR) // hb.
Qed.
Theorem track_parfb_trajectory x0 : exists x u, optimal_tracking P x u x0 /\
  forall blocks (par : bool), (0 < blocks)%N -> exists (D : Rf) N0, forall steps, (N0 <= steps)%N -> (0 < steps)%N ->
    let t i := i%:R * (T / (blocks * steps)%:R) in exists Ks ds Ss vs us xs,
    [/\ (if par then clqt_parBackwardPass P blocks steps None None false else clqt_seqBackwardPass P (blocks * steps) None None None None) = Some (Ks, ds, Ss, vs),
        clqt_parFwdBwdPass P x0 Ks ds Ss vs blocks steps None None true = Some (us, xs),
        size us = (blocks * steps)%N /\ size xs = (blocks * steps).+1,
        forall i, (i <= blocks * steps)%N -> within (D / steps%:R ^+ 4) (nth 0 xs i) (x (t i)) &
        forall i, (i < blocks * steps)%N -> within (D / steps%:R ^+ 4) (nth 0 us i) (u (t i))].
Proof.
have [[sU pU] [sX psX] [sT psT] hT] := q_ok.
have [y [u [c [d y0 opt H]]]] := par_fb_trajectory sU pU sX psX sT psT hT (extend x0).
exists (fun t => usubmx (y t)), u; split; first exact: optimal_ext d y0 opt.
move=> blocks par b0; have [||D [N0 h]] := H blocks (if par then None else Some Rk4) => //; first by case: (par).
exists D, N0 => steps n0 s0 t.
have [Ks [Ss [us [xs [hb hc [z1 z2] hx hu]]]]] := h _ n0 s0.
have [zz hx' hu'] := within_split (erefl (split_states (us, xs))) z1 z2 hx hu.
exists (map lsubmx Ks), (map (fun K => - rsubmx K) Ks), (map ulsubmx Ss), (map (fun S => - ursubmx S) Ss), us, (map usubmx xs).
split=> //; last by rewrite par_fwdbwd_ext // hc.
by case: par hb {h} => hb; [rewrite (par_backward_ext expmR) // hb|rewrite (seq_backward_ext expmR) // hb].
Qed.

(** ** value functions *)
Lemma exact_symm steps Ks Ss : clqr_seqBackwardPass expmR q steps None None Exact = Some (Ks, Ss) -> forall i, symm (nth 0 Ss i).
Proof.
have [_ [_ _] [sT _] _] := q_ok.
rewrite /clqr_seqBackwardPass; case: (qdt_or _ _ _) => // dt; rewrite obindS; case: (qULT q) => // ul; rewrite obindS.
have Z : symm (0 : 'M[Rf]_(n + 1)) by rewrite /symm trmx0.
have H k CD acc r : qbwd_exact ul (expmR (- dt *: qham q (qL q *m ul))) k CD acc = Some r -> (forall i, symm (nth 0 acc.2 i)) -> forall i, symm (nth 0 r.2 i).
  elim: k CD acc => [|k IH] CD acc; first by move=> [<-].
  rewrite /qbwd_exact -/qbwd_exact; case: (solve _ _) => // Q'; rewrite obindS => /IH h ha; apply: h => -[|i] //=.
  by rewrite /symm /symz linearZ /= trD trmxK addrC.
by move=> /H h; apply: h => -[|i] //=; rewrite nth_nil.
Qed.
Lemma value_extend (S : 'M[Rf]_(n + 1)) x : symm S -> qf S (extend x) / 2%:R = value (ulsubmx S) (- ursubmx S) (drsubmx S 0 0 / 2%:R) x.
Proof.
move=> sS; rewrite /value -[S in LHS]submxK /qf /extend tr_col_mx trmx1 mul_row_block mul_row_col !mul1mx !mulmx1 !mulmxDl !scD.
have -> : dlsubmx S = (ursubmx S)^T by rewrite trmx_ursub sS.
have -> : sc (x^T *m ursubmx S) = sc ((ursubmx S)^T *m x) by rewrite -[LHS]scT trmx_mul trmxK.
rewrite /dot trN mulNmx scN opprK -[drsubmx S 0 0]/(sc (drsubmx S)).
move: (sc (drsubmx S)) (sc ((ursubmx S)^T *m x)) (sc (x^T *m ulsubmx S *m x)) => e b a.
have eb : b = b / 2%:R + b / 2%:R by rewrite -mulrDl -[b + b]mulr2n -[_ *+ 2]mulr_natr mulfK // pnatr_eq0.
by rewrite [b in RHS]eb !mulrDl !addrA.
Qed.
Lemma policy_ext steps Ks Ss : (0 < steps)%N -> clqr_seqBackwardPass expmR q steps None None Exact = Some (Ks, Ss) ->
  optimal_policy P (fun j => j%:R * (T / steps%:R)) steps (map lsubmx Ks) (map (fun K => - rsubmx K) Ks)
    (map ulsubmx Ss) (map (fun S => - ursubmx S) Ss) (map (fun S : 'M[Rf]_(n + 1) => drsubmx S 0 0 / 2%:R) Ss).
Proof.
move=> s0 E; have [[sU pU] [sX psX] [sT psT] hT] := q_ok.
have [Ks' [Ss' [E' zK zS H]]] := exact_optimal sU pU sX psX sT psT s0 hT.
move: E'; rewrite E => -[EK ES]; rewrite -EK in zK H; rewrite -ES in zS H.
move=> i le V; have [low att _] := H i le; pose t j : Rf := j%:R * (T / steps%:R).
rewrite -/(t i); change (i%:R * (qT q / steps%:R)) with (t i) in low, att.
have tle j : (j <= steps)%N -> t j <= T.
  move=> js; rewrite /t mulrCA; apply: ler_pimulr => //; rewrite ler_pdivr_mulr ?ltr0n // mul1r ler_nat; exact: js.
have tT : t i <= T.
  exact: tle.
have VE x : qf (nth 0 Ss i) (extend x) / 2%:R = V x.
  by rewrite /V !(nth_map 0) ?zS // value_extend //; exact: exact_symm E _.
split=> [x u c ts st|x0].
  by rewrite -VE -cost_extend; exact: low (steered_driven st).
have [y [u [c [d y0 _ hc hu]]]] := att (extend x0); have [st x00 Ey] := driven_steered tT d y0.
exists (fun t => usubmx (y t)), u, c; split=> //.
  by rewrite -VE -hc /cost_to_go /tracking_cost -qXT_extend -Ey ?tT ?lexx.
move=> j /andP [ij js]; rewrite hu ?ij // !(nth_map 0) ?zK //.
have -> : y (t j) = extend (usubmx (y (t j))).
  by apply: Ey; rewrite tle ?(ltnW js) // andbT ler_wpmul2r ?ler_nat // divr_ge0 ?ler0n.
by rewrite -{1}[nth 0 Ks j]hsubmxK opp_row_mx /extend mul_row_col mulmx1 col_mxKu.
Qed.
Lemma within_pass (e : Rf) N (Ks Ks' : seq 'M[Rf]_(m, n + 1)) (Ss Ss' : seq 'M[Rf]_(n + 1)) :
  size Ks = N -> size Ks' = N -> size Ss = N.+1 -> size Ss' = N.+1 ->
  (forall i, (i <= N)%N -> within e (nth 0 Ss i) (nth 0 Ss' i)) -> (forall i, (i < N)%N -> within e (nth 0 Ks i) (nth 0 Ks' i)) ->
  (forall i, (i <= N)%N -> within e (nth 0 (map ulsubmx Ss) i) (nth 0 (map ulsubmx Ss') i) /\
     within e (nth 0 (map (fun S => - ursubmx S) Ss) i) (nth 0 (map (fun S => - ursubmx S) Ss') i)) /\
  (forall i, (i < N)%N -> within e (nth 0 (map lsubmx Ks) i) (nth 0 (map lsubmx Ks') i) /\
     within e (nth 0 (map (fun K => - rsubmx K) Ks) i) (nth 0 (map (fun K => - rsubmx K) Ks') i)).
Proof.
move=> z1 z2 z3 z4 hS hK; split=> i hi; rewrite !(nth_map 0) ?z1 ?z2 ?z3 ?z4 //.
  by split=> a b; rewrite !mxE -?opprD ?normrN; exact: hS.
by split=> a b; rewrite !mxE -?opprD ?normrN; exact: hK.
Qed.
(** the exact value functions and gains, and their approximation by both backward passes *)
Theorem track_value : exists (D : Rf) N0, forall steps, (N0 <= steps)%N -> (0 < steps)%N ->
  exists Ks ds Ss vs Ks' ds' Ss' vs' ss',
  [/\ clqt_seqBackwardPass P steps None None None None = Some (Ks, ds, Ss, vs),
      [/\ size Ks = steps, size ds = steps, size Ss = steps.+1 & size vs = steps.+1],
      optimal_policy P (fun j => j%:R * (T / steps%:R)) steps Ks' ds' Ss' vs' ss',
      forall i, (i <= steps)%N -> within (D / steps%:R ^+ 4) (nth 0 Ss i) (nth 0 Ss' i) /\ within (D / steps%:R ^+ 4) (nth 0 vs i) (nth 0 vs' i) &
      forall i, (i < steps)%N -> within (D / steps%:R ^+ 4) (nth 0 Ks i) (nth 0 Ks' i) /\ within (D / steps%:R ^+ 4) (nth 0 ds i) (nth 0 ds' i)].
Proof.
have [[sU pU] [sX psX] [sT psT] hT] := q_ok.
have [D [N0 h]] := reg_rk4_order4 sU pU sX psX sT psT hT; exists D, N0 => steps n0 s0.
have [Ks [Ss [Ks' [Ss' [[E [z1 z3]] E' hS hK]]]]] := h _ n0 s0.
have [K2 [S2 [E2 z2 z4 _]]] := exact_optimal sU pU sX psX sT psT s0 hT.
move: E2; rewrite E' => -[EK ES]; rewrite -EK in z2; rewrite -ES in z4.
have [hS' hK'] := within_pass z1 z2 z3 z4 hS hK.
exists (map lsubmx Ks), (map (fun K => - rsubmx K) Ks), (map ulsubmx Ss), (map (fun S => - ursubmx S) Ss).
exists (map lsubmx Ks'), (map (fun K => - rsubmx K) Ks'), (map ulsubmx Ss'), (map (fun S => - ursubmx S) Ss').
exists (map (fun S : 'M[Rf]_(n + 1) => drsubmx S 0 0 / 2%:R) Ss'); split=> //.
- by rewrite (seq_backward_ext expmR) // E.
- by rewrite !size_map.
exact: policy_ext.
Qed.
Theorem track_par_value blocks : (0 < blocks)%N -> exists (D : Rf) N0, forall steps, (N0 <= steps)%N -> (0 < steps)%N ->
  let N := (blocks * steps)%N in exists Ks ds Ss vs Ks' ds' Ss' vs' ss',
  [/\ clqt_parBackwardPass P blocks steps None None false = Some (Ks, ds, Ss, vs),
      [/\ size Ks = N, size ds = N, size Ss = N.+1 & size vs = N.+1],
      optimal_policy P (fun j => j%:R * (T / N%:R)) N Ks' ds' Ss' vs' ss',
      forall i, (i <= N)%N -> within (D / steps%:R ^+ 4) (nth 0 Ss i) (nth 0 Ss' i) /\ within (D / steps%:R ^+ 4) (nth 0 vs i) (nth 0 vs' i) &
      forall i, (i < N)%N -> within (D / steps%:R ^+ 4) (nth 0 Ks i) (nth 0 Ks' i) /\ within (D / steps%:R ^+ 4) (nth 0 ds i) (nth 0 ds' i)].
Proof.
move=> b0; have [[sU pU] [sX psX] [sT psT] hT] := q_ok.
have [D [N0 h]] := par_rk4_order4 sU pU sX psX sT psT b0 hT; exists D, N0 => steps n0 s0 N.
have [Ks [Ss [Ks' [Ss' [[E [z1 z3]] E' hS hK]]]]] := h _ n0 s0.
have N1 : (0 < N)%N by rewrite muln_gt0 b0.
have [K2 [S2 [E2 z2 z4 _]]] := exact_optimal sU pU sX psX sT psT N1 hT.
move: E2; rewrite E' => -[EK ES]; rewrite -EK in z2; rewrite -ES in z4.
have [hS' hK'] := within_pass z1 z2 z3 z4 hS hK.
exists (map lsubmx Ks), (map (fun K => - rsubmx K) Ks), (map ulsubmx Ss), (map (fun S => - ursubmx S) Ss).
exists (map lsubmx Ks'), (map (fun K => - rsubmx K) Ks'), (map ulsubmx Ss'), (map (fun S => - ursubmx S) Ss').
exists (map (fun S : 'M[Rf]_(n + 1) => drsubmx S 0 0 / 2%:R) Ss'); split=> //.
- by rewrite (par_backward_ext expmR) // E.
- by rewrite !size_map.
exact: policy_ext.
Qed.
End Opt.
