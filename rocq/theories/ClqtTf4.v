(** Value function passes of the TensorFlow continuous-time tracker in parallel. *)
From mathcomp Require Import all_ssreflect all_algebra zify.
From Verif Require Import ScanModel ScanSpec ScanProofs ScanUse TfScan MxBase LqtModel LqtSpec LqtCore LqtElem LqtPar LqtMore LqtTfModel LinComb Rk4Model Rk4Spec Rk4Proofs ClqtModel ClqtPack ClqtFwd2 ClqtVal ClqtTfModel ClqtTf ClqtTf2 ClqtTf3.
Import Order.TTheory GRing.Theory Num.Theory.
Set Implicit Arguments. Unset Strict Implicit. Unset Printing Implicit Defensive.
Local Open Scope ring_scope.

Lemma omap_seq_cat {X Y} (f : X -> option Y) a b :
  omap_seq f (a ++ b) = let? x := omap_seq f a in let? y := omap_seq f b in Some (x ++ y).
Proof.
elim: a => [|x a IH] /=; first by case: (omap_seq f b).
by case: (f x) => //= y; rewrite IH; case: (omap_seq f a) => //= z; case: (omap_seq f b).
Qed.
Lemma omap_seq_Forall {X Y} (f : X -> option Y) (T : Y -> Prop) l r : (forall x y, List.In x l -> f x = Some y -> T y) ->
  omap_seq f l = Some r -> List.Forall T r.
Proof.
elim: l r => [|x l IH] r H /=; first by case=> <-; constructor.
case E: (f x) => [y|] //=; case E2: (omap_seq f l) => [ys|] //= [<-]; constructor.
  by apply: (H x) => //; left.
by apply: IH => // z w h; apply: H; right.
Qed.

Lemma omap_seq_take {X Y} (f : X -> option Y) k l r : omap_seq f l = Some r -> omap_seq f (take k l) = Some (take k r).
Proof.
elim: l k r => [|x l IH] [|k] r /=; try by case=> <-.
  by case: (f x) => //= y; case: (omap_seq f l) => //= ys [<-].
by case: (f x) => //= y; case E: (omap_seq f l) => [ys|] //= [<-] /=; rewrite (IH _ _ E).
Qed.
Lemma take_zip {X Y} k (a : seq X) (b : seq Y) : take k (zip a b) = zip (take k a) (take k b).
Proof. by elim: k a b => [|k IH] [|x a] [|y b] //=; rewrite IH. Qed.

Lemma take_last {X} (x : X) t : rcons (take (size t) (x :: t)) (last x t) = x :: t.
Proof. by elim: t x => [|y t IH] x //; rewrite -[last x (y :: t)]/(last y t) -[in RHS](IH y). Qed.

Section Par.
Variable R : realFieldType.
Variables n m p pT : nat.
Variable P : clqt R n m p pT.
Hypothesis U : forall t, tf_ULT P t = ULT P t.
Local Notation elem := (elem R n).

Lemma par_backward_init_tf forward blocks steps dt t0 : (0 < steps)%N ->
  tf_par_backwardpass_init P forward blocks steps dt t0 (tf_ST P) (tf_vT P) = clqt_parBackwardPass_init P blocks steps dt t0 forward.
Proof.
move=> sp; rewrite /tf_par_backwardpass_init /clqt_parBackwardPass_init /tf_ST /tf_vT /ST /vT !mulmxA /tf_blocks omap_seq_map.
congr obind; apply: omap_seq_ext => k _; exact: block_tf.
Qed.
Lemma par_extract_loop_tf dt t0 steps k (es : seq elem) : par_extract_loop P dt t0 steps k es =
  let? rs := omap_seq (fun z : nat * elem => tf_seq_backwardpass P steps dt (t0 + z.1%:R * steps%:R * dt) (eJ z.2) (eeta z.2)) (zip (iota k (size es)) es) in
  Some (flatten [seq r.1.2 | r <- rs], flatten [seq r.2 | r <- rs], flatten [seq behead r.1.1.1 | r <- rs], flatten [seq behead r.1.1.2 | r <- rs]).
Proof.
elim: es k => [|e es IH] k; first by [].
rewrite -[LHS]/(let? '(bKs, bds, bSs, bvs) := clqt_seqBackwardPass P steps (Some dt) (Some (t0 + k%:R * dt * steps%:R)) (Some (eJ e)) (Some (eeta e)) in
      let? '(Ks, ds, Ss, vs) := par_extract_loop P dt t0 steps k.+1 es in
      Some (bKs ++ Ks, bds ++ ds, behead bSs ++ Ss, behead bvs ++ vs)).
rewrite -[zip (iota k (size (e :: es))) _]/((k, e) :: zip (iota k.+1 (size es)) es).
rewrite -[omap_seq _ (_ :: _)]/(let? y := tf_seq_backwardpass P steps dt (t0 + k%:R * steps%:R * dt) (eJ e) (eeta e) in let? ys := omap_seq _ _ in Some (y :: ys)).
rewrite seq_backward_tf // mulrAC.
case: (clqt_seqBackwardPass _ _ _ _ _ _) => [[[[Ks ds] Ss] vs]|]; last by [].
rewrite -[omap swap_bwd _]/(Some (Ss, vs, Ks, ds)) !obindS IH; case: (omap_seq _ _) => [rs|]; last by [].
by [].
Qed.
Lemma par_extract_tf (es : seq elem) steps dt t0 :
  tf_par_backwardpass_extract P es steps dt t0 = omap swap_bwd (clqt_parBackwardPass_extract P es steps dt t0).
Proof.
case: es => [|e es]; first by [].
rewrite /tf_par_backwardpass_extract /clqt_parBackwardPass_extract par_extract_loop_tf /tf_blocks.
case: es => [|e1 es]; first by [].
rewrite {2}(as_map e1 (e1 :: es)) zip_map2 omap_seq_map.
have -> : zip (iota 0 (size (e1 :: es))) (e1 :: es) = [seq (i, nth e1 (e1 :: es) i) | i <- iota 0 (size (e1 :: es))].
  by rewrite {2}(as_map e1 (e1 :: es)) -[X in zip X _]map_id zip_map2.
rewrite [in RHS]omap_seq_map; by case: (omap_seq _ _).
Qed.

(** elements with positive semidefinite C and J *)
Definition blocks_psd blocks steps dt t0 forward := forall k e, (k < blocks)%N -> block_elem P dt t0 steps forward k = Some e -> psd (eC e) /\ psd (eJ e).
Lemma blocks_ok blocks steps dt t0 forward es : blocks_psd blocks steps dt t0 forward ->
  omap_seq (block_elem P dt t0 steps forward) (iota 0 blocks) = Some es -> List.Forall (@elem_ok R n) es.
Proof.
move=> H; apply: omap_seq_Forall => k e /in_mem_iota h E; have [p1 p2] := H k e h E.
by have [s1 s2] := block_symm E; split.
Qed.

Theorem par_backward_tf blocks steps dt t0 forward mp : (0 < steps)%N -> (blocks + 1 < 2 * mp)%N ->
  symm (kXT P) -> psd (kXT P) -> blocks_psd blocks steps dt t0 forward ->
  tf_par_backwardpass P blocks steps dt t0 (tf_ST P) (tf_vT P) forward mp =
  omap swap_bwd (clqt_parBackwardPass P blocks steps (Some dt) (Some t0) forward).
Proof.
move=> sp lim sX pX ok; rewrite /tf_par_backwardpass /clqt_parBackwardPass par_backward_init_tf //.
rewrite -[dt_or _ _ _]/(Some dt) obindS -[or_else _ _]/t0 /clqt_parBackwardPass_init.
case E: (omap_seq _ _) => [es|]; last by [].
have se := omap_seq_size E; rewrite size_iota in se.
rewrite !obindS.
have F : List.Forall (@elem_ok R n) (rcons es (Elem 0 0 0 (vT P) (ST P))).
  apply: forall_rcons; first exact: blocks_ok E.
  by apply: vel_ok; [exact: symm_cong | exact: psd_cong].
have ne : rcons es (Elem 0 0 0 (vT P) (ST P)) <> [::] by case: (es).
rewrite /par_backward_pass_scan (scan_scanr (@elem_ok R n) _ (@combine_closed R n) (@combine_assoc R n)) //.
rewrite (tfp_scan_rev_mp (@elem_ok R n) _ (@combine_closed R n) (@combine_assoc R n)) //; first last.
- by rewrite -[length _]/(size _) size_rcons se; lia.
- by move: lim; case: (mp) => //; lia.
by case: (scanr_o _ _) => [es'|]; last by []; rewrite 2!obindS par_extract_tf.
Qed.

(** combination *)
Definition cx (z : 'M[R]_n * 'cV[R]_n * ('M[R]_n * 'cV[R]_n * 'M[R]_n)) : option 'cV[R]_n :=
  let: (Q, v, (_, b, C)) := z in solve (1%:M + C *m Q) (b + C *m v).
Lemma combine_zip (Ks : seq 'M[R]_(m, n)) ds Ss vs es : size vs = size Ss -> size es = size Ss -> size ds = size Ks -> (size Ks <= size Ss)%N ->
  combineForwardBackward Ks ds Ss vs es = let? xs := omap_seq cx (zip (zip Ss vs) es) in
    Some ([seq - (z.1.1 *m z.1.2) + z.2 | z <- zip (zip Ks xs) ds], xs).
Proof.
elim: Ss Ks ds vs es => [|Q Ss IH] Ks ds [|v vs] [|[[A b] C] es] //.
  by case: Ks ds => [|? ?] [|? ?].
move=> [sv] [se] sd le; rewrite -[omap_seq _ _]/(let? y := solve (1%:M + C *m Q) (b + C *m v) in let? ys := omap_seq cx (zip (zip Ss vs) es) in Some (y :: ys)) /=.
case: (solve _ _) => [x|] //=.
case: Ks ds sd le => [|K Ks] [|d ds] // sd le.
  by rewrite IH //; case: (omap_seq _ _) => [[|? ?]|].
rewrite IH //; last by case: sd.
by case: (omap_seq _ _) => [xs|] //=; rewrite mulNmx.
Qed.
Lemma zip_take {X Y} (a : seq X) (b : seq Y) k : (size a <= k)%N -> zip a (take k b) = zip a b.
Proof. by elim: a b k => [|x a IH] [|y b] [|k] //= h; rewrite IH. Qed.
Theorem combine_tf (Ks : seq 'M[R]_(m, n)) ds Ss vs es N : size Ss = N.+1 -> size vs = N.+1 -> size es = N.+1 -> size ds = N -> size Ks = N ->
  tf_combine_fwdbwd Ks ds Ss vs es = omap swap (combineForwardBackward Ks ds Ss vs es).
Proof.
move=> sS sv se sd sK; rewrite combine_zip ?sS ?sv ?se ?sd ?sK //.
rewrite /tf_combine_fwdbwd sS sv se sd sK !eqxx /= -/cx.
case E: (omap_seq _ _) => [xs|] //=; congr (Some (_, _)).
by rewrite zip_take // sK (omap_seq_size E) !size_zip sS sv se !minnn.
Qed.

(** parallel forward value function pass *)
Lemma par_fwdbwd_init_tf forward blocks steps x0 dt t0 : (0 < steps)%N ->
  tf_par_fwdbwdpass_init P forward blocks steps x0 dt t0 = clqt_parFwdBwdPass_init P x0 blocks steps dt t0 forward.
Proof.
move=> sp; rewrite /tf_par_fwdbwdpass_init /clqt_parFwdBwdPass_init /tf_par_backwardpass_init /tf_blocks omap_seq_map.
rewrite (@omap_seq_ext _ _ _ (block_elem P dt t0 steps forward)); last by move=> k _; exact: block_tf.
case: (omap_seq _ _) => [es|]; last by [].
by rewrite !obindS size_rcons -cats1 take_size_cat.
Qed.
Lemma abc_loop_size dt t0 steps k e l : abc_loop P dt t0 steps k e = Some l -> size l = steps.+1.
Proof. by rewrite abc_loop_tf //; case E: (tf_scan _ _ _) => [r|] //= [<-] /=; rewrite (tf_scan_size E) size_map size_iota. Qed.

Definition abcblk dt t0 steps (z : nat * elem) := abc_loop P dt (t0 + z.1%:R * steps%:R * dt) steps 0 (eA z.2, eb z.2, eC z.2).
Lemma zip_drop {X Y} k (a : seq X) (b : seq Y) : drop k (zip a b) = zip (drop k a) (drop k b).
Proof. by elim: k a b => [|k IH] [|x a] [|y b] //=; rewrite ?IH //; case: (drop _ _). Qed.

Lemma fb_loop_tf dt t0 steps (Ks : seq 'M[R]_(m, n)) ds Ss vs k e es us xs :
  (0 < steps)%N -> (0 < size es)%N -> size Ks = ((k + size es) * steps)%N -> size ds = size Ks -> size Ss = (size Ks).+1 -> size vs = (size Ks).+1 ->
  par_fb_loop P dt t0 steps k Ks ds Ss vs (e :: es) = Some (us, xs) ->
  exists rs, [/\ omap_seq (abcblk dt t0 steps) (zip (iota k (size es)) (belast e es)) = Some rs,
    rs <> [::], (forall r, List.In r rs -> size r = steps.+1),
    omap_seq cx (zip (zip (drop (k * steps) Ss) (drop (k * steps) vs))
      (rcons (flatten [seq take (size r).-1 r | r <- rs]) (last (0, 0, 0) (last [::] rs)))) = Some xs &
    us = [seq - (z.1.1 *m z.1.2) + z.2 | z <- zip (zip (drop (k * steps) Ks) xs) (drop (k * steps) ds)]].
Proof.
move=> sp; elim: es k e us xs => [//|e1 es IH] k e us xs _ sK sd sS sv.
have kle : ((k + 1) * steps <= size Ks)%N by rewrite sK [size (_ :: _)]/=; nia.
rewrite -[par_fb_loop _ _ _ _ _ _ _ _ _ _]/(let? l := abcblk dt t0 steps (k, e) in
      let? '(bus, bxs) := combineForwardBackward (slice (k * steps) ((k + 1) * steps) Ks) (slice (k * steps) ((k + 1) * steps) ds)
                             (slice (k * steps) ((k + 1) * steps + 1) Ss) (slice (k * steps) ((k + 1) * steps + 1) vs) l in
      if es is [::] then
        if bxs is x :: t then Some (bus, rcons (take (size bus) bxs) (last x t)) else None
      else let? '(us, xs) := par_fb_loop P dt t0 steps k.+1 Ks ds Ss vs (e1 :: es) in Some (bus ++ us, take (size bus) bxs ++ xs)).
rewrite -[zip (iota k (size (e1 :: es))) _]/((k, e) :: zip (iota k.+1 (size es)) (belast e1 es)).
rewrite -[omap_seq (abcblk _ _ _) (_ :: _)]/(let? y := abcblk dt t0 steps (k, e) in let? ys := omap_seq (abcblk dt t0 steps) (zip (iota k.+1 (size es)) (belast e1 es)) in Some (y :: ys)).
case El: (abcblk dt t0 steps (k, e)) => [l|]; last by [].
have sl : size l = steps.+1 by move: El; rewrite /abcblk => /abc_loop_size.
have z1 : size (slice (k * steps) ((k + 1) * steps) Ks) = steps by rewrite slice_size //; nia.
have z2 : size (slice (k * steps) ((k + 1) * steps) ds) = steps by rewrite slice_size ?sd //; nia.
have z3 : size (slice (k * steps) ((k + 1) * steps + 1) Ss) = steps.+1 by rewrite slice_size ?sS //; nia.
have z4 : size (slice (k * steps) ((k + 1) * steps + 1) vs) = steps.+1 by rewrite slice_size ?sv //; nia.
rewrite obindS combine_zip ?z1 ?z2 ?z3 ?z4 ?sl //.
case Ex: (omap_seq cx _) => [bxs|]; last by [].
have sb : size bxs = steps.+1 by rewrite (omap_seq_size Ex) !size_zip z3 z4 sl !minnn.
rewrite !obindS.
set bus := [seq _ | z <- zip (zip (slice _ _ Ks) bxs) _].
have sbu : size bus = steps by rewrite size_map !size_zip z1 z2 sb; lia.
have dS : drop (k * steps) Ss = take steps (slice (k * steps) ((k + 1) * steps + 1) Ss) ++ drop (k.+1 * steps) Ss.
  rewrite -[LHS](cat_take_drop steps) drop_drop /slice take_take; last by nia.
  by congr (_ ++ drop _ _); nia.
have dv : drop (k * steps) vs = take steps (slice (k * steps) ((k + 1) * steps + 1) vs) ++ drop (k.+1 * steps) vs.
  rewrite -[LHS](cat_take_drop steps) drop_drop /slice take_take; last by nia.
  by congr (_ ++ drop _ _); nia.
have dK : drop (k * steps) Ks = slice (k * steps) ((k + 1) * steps) Ks ++ drop (k.+1 * steps) Ks.
  by rewrite -[LHS](cat_take_drop steps) drop_drop /slice; congr (take _ _ ++ drop _ _); nia.
have dd : drop (k * steps) ds = slice (k * steps) ((k + 1) * steps) ds ++ drop (k.+1 * steps) ds.
  by rewrite -[LHS](cat_take_drop steps) drop_drop /slice; congr (take _ _ ++ drop _ _); nia.
have t1 : size (take steps (slice (k * steps) ((k + 1) * steps + 1) Ss)) = steps by rewrite size_takel ?z3.
have t2 : size (take steps (slice (k * steps) ((k + 1) * steps + 1) vs)) = steps by rewrite size_takel ?z4.
case: es IH sK => [|e2 es] IH sK.
  case: bxs Ex sb @bus sbu => [//|x t] Ex sb bus sbu [<- <-].
  exists [:: l]; split => //=.
  - by move=> r [<-|].
  - rewrite cats0 sl /=.
    have -> : rcons (take steps l) (last (0, 0, 0) l) = l.
      case/lastP: l sl {El Ex} => [//|l y]; rewrite size_rcons => -[<-].
      by rewrite last_rcons -[rcons l y]cats1 take_size_cat // cats1.
    have s1 : slice (k * steps) ((k + 1) * steps + 1) Ss = drop (k * steps) Ss.
      rewrite /slice take_oversize // size_drop sS sK /=; nia.
    have s2 : slice (k * steps) ((k + 1) * steps + 1) vs = drop (k * steps) vs.
      rewrite /slice take_oversize // size_drop sv sK /=; nia.
    rewrite -s1 -s2 Ex; congr Some.
    have -> : size bus = size t by rewrite sbu; move: sb => /= [].
    exact: esym (take_last _ _).
  - have k1 : drop (k.+1 * steps) Ks = [::] by rewrite drop_oversize // sK /=; nia.
    have d1 : drop (k.+1 * steps) ds = [::] by rewrite drop_oversize // sd sK /=; nia.
    have -> : rcons (take (size bus) (x :: t)) (last x t) = x :: t.
      have -> : size bus = size t by rewrite sbu; move: sb => /= [].
      exact: take_last.
    by rewrite dK dd k1 d1 !cats0.
case Eb: (par_fb_loop _ _ _ _ _ _ _ _ _ _) => [[us' xs']|]; last by [].
rewrite obindS => -[<- <-].
have [//||||||rs [-> ne szs E1 ->]] := IH k.+1 e1 us' xs'; try by [].
  by rewrite sK [size (e1 :: e2 :: es)]/= [size (e2 :: es)]/= ; nia.
rewrite !obindS; exists (l :: rs); split => //.
- by move=> r [<-|/szs].
- rewrite sbu dS dv zip_cat; last by rewrite t1 t2.
  have -> : last [::] (l :: rs) = last [::] rs by case: (rs) ne.
  rewrite map_cons -[flatten (_ :: _)]/(take (size l).-1 l ++ flatten _) rcons_cat zip_cat; last first.
    by rewrite size_zip t1 t2 minnn size_takel ?sl.
  by rewrite omap_seq_cat E1 sl -(take_zip steps (slice _ _ Ss) (slice _ _ vs)) -(take_zip steps _ l) (omap_seq_take _ Ex).
- rewrite sbu dK dd.
  rewrite zip_cat; last by rewrite z1 size_takel // sb.
  rewrite zip_cat; last by rewrite size_zip z1 z2 size_takel ?minnn ?sb.
  by rewrite map_cat; congr (_ ++ _); rewrite /bus zip_take ?z1.
Qed.

Theorem par_fwdbwd_tf x0 Ks ds Ss vs blocks steps dt t0 forward mp us xs : (0 < steps)%N -> (0 < blocks)%N -> (blocks + 1 < 2 * mp)%N ->
  size ds = size Ks -> size vs = size Ss -> blocks_psd blocks steps dt t0 forward ->
  clqt_parFwdBwdPass P x0 Ks ds Ss vs blocks steps (Some dt) (Some t0) forward = Some (us, xs) ->
  tf_par_fwdbwdpass P blocks steps x0 Ss vs Ks ds dt t0 forward mp = Some (xs, us).
Proof.
move=> sp bp lim sd sv ok; rewrite /tf_par_fwdbwdpass /clqt_parFwdBwdPass par_fwdbwd_init_tf //.
rewrite -[dt_or _ _ _]/(Some dt) obindS -[or_else _ _]/t0 /clqt_parFwdBwdPass_init.
case E: (omap_seq _ _) => [es|]; last by [].
have se := omap_seq_size E; rewrite size_iota in se.
have F := blocks_ok ok E.
have F0 : elem_ok (Elem 0 x0 0 0 0) by split; [exact: symm0 | exact: psd0 | exact: symm0 | exact: psd0].
rewrite 2!obindS /par_fwdbwd_pass_scan (scan_scanl (@elem_ok R n) _ (@combine_closed R n) (@combine_assoc R n)) //.
rewrite obindS -[@lqt_par_comb_V R n]/(@combine_abcej R n) (tfp_scan_mp (@elem_ok R n) _ (@combine_closed R n) (@combine_assoc R n)) //; first last.
- by rewrite -[length _]/(size _) se; lia.
- by move: lim; case: (mp) => //; lia.
case Es: (scanl_o _ _ _) => [[|e r]|]; [by case: (es) Es => // ? ? /=; case: (combine_abcej _ _) => //= ?; case: (scanl_o _ _ _) | | by []].
have sr : size r = blocks.
  by have [/= L _] := scanl_o_spec _ _ _ _ Es; rewrite -se; move: L => []; rewrite -!/(size _).
rewrite 2!obindS /clqt_parFwdBwdPass_extract -[(size (e :: r)).-1]/(size r) sr.
case: eqP => // sK; rewrite -[if ~~ true then _ else _]/(if _ then _ else _).
case: ifP => //; case: eqP => //= sS; case: eqP => //= nS _ EL.
have sS' : size Ss = (size Ks).+1 by rewrite -sK sS; case: (size Ss) nS.
have [|||||rs [E1 ne szs E2 E3]] := fb_loop_tf sp _ _ _ _ _ EL; try by rewrite ?sr ?add0n ?sv.
rewrite /tf_par_fwdbwdpass_extract.
have -> : omap_seq (fun z => tf_seq_fwdbwdpass P steps dt z.1 (eA z.2, eb z.2, eC z.2)) (zip (tf_blocks t0 dt (size r) steps) (belast e r)) = Some rs.
  rewrite -E1 sr /tf_blocks (as_map e (belast e r)) size_belast sr zip_map2 omap_seq_map.
  rewrite -[X in zip X _]map_id zip_map2 omap_seq_map; apply: omap_seq_ext => k _.
  by rewrite /abcblk /= abc_loop_tf.
have srs := omap_seq_size E1; rewrite size_zip size_iota size_belast minnn in srs.
rewrite obindS; case: rs {E1} ne szs E2 srs => [//|r1 rs] _ szs E2 srs.
have sl : size (last r1 rs) = steps.+1 by apply: szs; elim: (rs) (r1) => [|a b IH] c; [left | right; exact: IH].
case El: (last r1 rs) sl => [//|x l] sl.
move: E2; rewrite -[last [::] (r1 :: rs)]/(last r1 rs) El -[last _ (x :: l)]/(last x l) !mul0n !drop0 => E2.
set T := rcons _ _ in E2 *.
have sT : size T = size Ss.
  rewrite /T size_rcons sS' -sK -sr; congr S.
  have sb : forall L : seq (seq ('M[R]_n * 'cV[R]_n * 'M[R]_n)), (forall r, List.In r L -> size r = steps.+1) -> size (flatten [seq take (size r).-1 r | r <- L]) = (size L * steps)%N.
    elim=> [//|a L IH] H; rewrite map_cons -[flatten (_ :: _)]/(take (size a).-1 a ++ flatten _) size_cat IH; last by move=> b hb; apply: H; right.
    by rewrite size_takel (H a (or_introl erefl)).
  by rewrite (sb (r1 :: rs) szs) srs.
rewrite (combine_tf (N := size Ks)) ?sT ?sv ?sS' //.
rewrite combine_zip ?sT ?sv ?sS' // E2 obindS E3 !mul0n !drop0.
by [].
Qed.
End Par.
