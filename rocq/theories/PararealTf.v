(** The TensorFlow parareal passes are the NumPy ones. *)
From mathcomp Require Import all_ssreflect all_algebra zify.
From Verif Require Import ScanModel TfScan MxBase LqtModel LqtTfModel LqtCore Rk4Model Rk4Spec Rk4Proofs ClqtModel ClqtTfModel ClqtFwd2 ClqtTf2 ClqtTf3 ClqtTf4 ClqtHjb PararealModel PararealCore PararealBwd PararealFwd.
Import Order.TTheory GRing.Theory Num.Theory.
Set Implicit Arguments. Unset Strict Implicit. Unset Printing Implicit Defensive.
Local Open Scope ring_scope.

Section Loops.
Lemma tf_scan_cat {X Y} (body : X -> Y -> option X) x l1 l2 : tf_scan body x (l1 ++ l2) =
  let? r1 := tf_scan body x l1 in let? r2 := tf_scan body (last x r1) l2 in Some (r1 ++ r2).
Proof.
  elim: l1 x => [|y l1 IH] x; first by rewrite cat0s [tf_scan _ _ [::]]/= obindS /=; case: (tf_scan _ _ _).
  rewrite cat_cons !tf_scan_cons; case: (body x y) => [x'|] //; rewrite 2!obindS IH.
  by case: (tf_scan _ x' l1) => [r1|] //; rewrite !obindS /=; case: (tf_scan _ _ _).
Qed.
Lemma tf_scan_rev_cons {X Y} (body : X -> Y -> option X) x y l : tf_scan_rev body x (y :: l) =
  let? r := tf_scan_rev body x l in let? x' := body (head x r) y in Some (x' :: r).
Proof.
  rewrite /tf_scan_rev rev_cons -cats1 tf_scan_cat; case: (tf_scan _ _ (rev l)) => [r|] //; rewrite obindS [omap _ (Some r)]/= obindS.
  have -> : head x (rev r) = last x r by case/lastP: r => [|r z] //; rewrite rev_rcons last_rcons.
  by rewrite tf_scan_cons; case: (body _ _) => [x'|] //=; rewrite rev_cat.
Qed.
Lemma tf_iterE {X} i (f : X -> option X) s : tf_iter i.+1 f s = iter_o i.+1 f s.
Proof.
  rewrite /tf_iter; move: 0%N => a; elim: i a s => [|i IH] a s.
    by rewrite /=; case: (f s).
  rewrite -[iota a i.+2]/(a :: iota a.+1 i.+1) tf_scan_cons -[iter_o i.+2 f s]/(let? s' := f s in iter_o i.+1 f s').
  case: (f s) => [s'|] //; rewrite 2!obindS -(IH a.+1).
  have := @tf_scan_size _ _ (fun s0 _ => f s0) s' (iota a.+1 i.+1).
  by case: (tf_scan _ _ _) => [[|y r]|] // /(_ _ erefl).
Qed.
Lemma iter_o_ext {X} (I : X -> Prop) i (f g : X -> option X) s :
  (forall s, I s -> f s = g s /\ (forall s', g s = Some s' -> I s')) -> I s -> iter_o i f s = iter_o i g s.
Proof.
  move=> H; elim: i s => // i IH s Is /=; have [-> Hn] := H s Is.
  by case: (g s) Hn => [s'|] // Hn; rewrite 2!obindS; apply: IH; apply: Hn.
Qed.
Lemma dense_bw_map (V : zmodType) (fine : nat -> V -> option V) k c cs :
  dense_bw fine k (c :: cs) = let? fs := omap_seq (fun z => fine z.1 z.2) (zip (iota k (size cs)) cs) in Some (rcons fs (last c cs)).
Proof.
  elim: cs k c => // c' cs IH k c.
  rewrite -[dense_bw _ _ _]/(let? f := fine k c' in let? fs := dense_bw fine k.+1 (c' :: cs) in Some (f :: fs)) IH /=.
  by case: (fine k c') => [f|] //=; case: (omap_seq _ _).
Qed.
Lemma dense_fw_map (V : zmodType) (fine : nat -> V -> option V) k c cs :
  dense_fw fine k (c :: cs) = omap_seq (fun z => fine z.1 z.2) (zip (iota k (size cs)) (belast c cs)).
Proof.
  elim: cs k c => // c' cs IH k c.
  by rewrite -[dense_fw _ _ _]/(let? f := fine k c in let? fs := dense_fw fine k.+1 (c' :: cs) in Some (f :: fs)) IH /=.
Qed.
Lemma but_last_cons {X} (c : X) cs : but_last (c :: cs) = belast c cs.
Proof. by rewrite /but_last /=; elim: cs c => //= c' cs IH c; rewrite IH. Qed.
Lemma final_cons {X} (c : X) cs : final (c :: cs) = Some (last c cs). Proof. by []. Qed.
Lemma zip_mapl {X Y Z} (h : X -> Y) (l : seq X) (l' : seq Z) : zip (map h l) l' = map (fun z => (h z.1, z.2)) (zip l l').
Proof. by elim: l l' => [|x l IH] [|z l'] //=; rewrite IH. Qed.
Lemma coarse_bw_scan (R : Type) (V : zmodType) (coarse : nat -> V -> option V) (ts : nat -> R) (body : V * V -> R * V * V -> option (V * V)) k f Fs g Gs :
  (forall k c f g, body c (ts k, f, g) = let? y := coarse k c.1 in Some (y + f - g, y)) -> size Gs = size Fs ->
  coarse_bw coarse k (f :: Fs) (g :: Gs) =
  let xl := last f Fs in
  let? r := tf_scan_rev body (xl, xl) (zip (zip [seq ts j | j <- iota k (size Fs)] (belast f Fs)) (belast g Gs)) in
  Some (rcons (map fst r) xl, rcons (map snd r) xl).
Proof.
  move=> Hb; elim: Fs k f g Gs => [|f' Fs IH] k f g [|g' Gs] // [sz].
  rewrite -[coarse_bw _ _ _ _]/(let? '(cs, gs) := coarse_bw coarse k.+1 (f' :: Fs) (g' :: Gs) in
              if cs is x :: _ then let? y := coarse k x in Some (y + f - g :: cs, y :: gs) else None).
  rewrite IH //.
  have -> : zip (zip [seq ts j | j <- iota k (size (f' :: Fs))] (belast f (f' :: Fs))) (belast g (g' :: Gs)) =
            (ts k, f, g) :: zip (zip [seq ts j | j <- iota k.+1 (size Fs)] (belast f' Fs)) (belast g' Gs) by [].
  cbv zeta; rewrite tf_scan_rev_cons -[last f _]/(last f' Fs); set xl := last f' Fs.
  case: (tf_scan_rev _ _ _) => [r|] //; rewrite !obindS.
  by case: r => [|[c y] r]; rewrite Hb /=; case: (coarse _ _).
Qed.
Lemma coarse_fw_scan (V : zmodType) (I : Type) (coarse : nat -> V -> option V) (inp : nat -> V -> V -> I) (body : V * V -> I -> option (V * V)) k x y Fs Gs l :
  (forall j c f g, (k <= j < k + size Fs)%N -> body c (inp j f g) = let? y := coarse j c.1 in Some (y + f - g, y)) -> size Gs = size Fs ->
  size l = size Fs -> (forall i f g d, (i < size Fs)%N -> nth d l i = inp (k + i)%N (nth f Fs i) (nth g Gs i)) ->
  coarse_fw coarse k x Fs Gs =
  let? r := tf_scan body (x, y) l in Some (map fst r, map snd r).
Proof.
  elim: Fs k x y Gs l => [|f Fs IH] k x y [|g Gs] [|z l] // Hb [sz] [sl] Hn.
  rewrite tf_scan_cons.
  have -> : z = inp k f g by move: (Hn 0%N f g z isT); rewrite /= addn0.
  rewrite Hb; last by rewrite leqnn /= addnS ltnS leq_addr.
  rewrite [coarse_fw _ _ _ _ _]/=; case: (coarse k x) => [y'|] //; rewrite !obindS (IH _ _ y' Gs l) //.
  - by case: (tf_scan _ _ _).
  - by move=> j c f0 g0 /andP[kj js]; apply: Hb; rewrite (ltnW kj) /= addnS -addSn.
  - by move=> i f0 g0 d si; rewrite addSnnS -(Hn i.+1 f0 g0 d).
Qed.
Lemma dense_bw_size (V : zmodType) (fine : nat -> V -> option V) k cs fs : dense_bw fine k cs = Some fs -> size fs = size cs.
Proof.
  case: cs => // c cs; rewrite dense_bw_map; case E: (omap_seq _ _) => [r|] // [<-].
  by rewrite size_rcons (omap_seq_size E) size2_zip ?size_iota //= size_iota.
Qed.
Lemma dense_fw_size (V : zmodType) (fine : nat -> V -> option V) k c cs fs : dense_fw fine k (c :: cs) = Some fs -> size fs = size cs.
Proof. by rewrite dense_fw_map => E; rewrite (omap_seq_size E) size2_zip ?size_iota ?size_belast. Qed.
Lemma coarse_bw_size (V : zmodType) (coarse : nat -> V -> option V) k Fs Gs cs gs : coarse_bw coarse k Fs Gs = Some (cs, gs) -> size cs = size Fs /\ size gs = size Fs.
Proof.
  elim: Fs k Gs cs gs => // f [|f' Fs] IH k Gs cs gs; first by move=> [<- <-].
  case: Gs => // g Gs.
  rewrite -[coarse_bw _ _ _ _]/(let? '(cs, gs) := coarse_bw coarse k.+1 (f' :: Fs) Gs in
              if cs is x :: _ then let? y := coarse k x in Some (y + f - g :: cs, y :: gs) else None).
  case E: (coarse_bw _ _ _ _) => [[[|x cs1] gs1]|] //; rewrite obindS; case: (coarse k x) => [y|] // [<- <-].
  by have [E1 E2] := IH _ _ _ _ E; split; [rewrite -[LHS]/((size (x :: cs1)).+1) E1 | rewrite -[LHS]/((size gs1).+1) E2].
Qed.
Lemma coarse_fw_size (V : zmodType) (coarse : nat -> V -> option V) k x Fs Gs cs gs : coarse_fw coarse k x Fs Gs = Some (cs, gs) -> size cs = size Fs /\ size gs = size Fs.
Proof.
  elim: Fs k x Gs cs gs => [|f Fs IH] k x Gs cs gs; first by case: Gs => [|g Gs] [<- <-].
  case: Gs => [//|g Gs] /=; case: (coarse k x) => [y|] //=; case E: (coarse_fw _ _ _ _ _) => [[cs1 gs1]|] // [<- <-].
  by have [E1 E2] := IH _ _ _ _ _ E; rewrite /= E1 E2.
Qed.
End Loops.

Section Bwd.
Variable R : realFieldType.
Variables n m p pT : nat.
Variable P : clqt R n m p pT.
Local Notation Sv := [zmodType of ('M[R]_n * 'cV[R]_n)%type].
Hypothesis Upos : forall t, symm (kU P t) /\ pd (kU P t).
Let UE := tf_ULT_pos Upos.
Lemma tf_STE : tf_ST P = ST P. Proof. by rewrite /tf_ST /ST mulmxA. Qed.
Lemma tf_vTE : tf_vT P = vT P. Proof. by rewrite /tf_vT /vT mulmxA. Qed.
Lemma tf_init_bw B : (0 < B)%N -> tf_init_backwardpass P B = initBackwardPass P B.
Proof.
  move=> B0; rewrite /tf_init_backwardpass /initBackwardPass (@fw_dcE _ _ _ _ _ P B) // obindS seq_backward_tf // tf_STE tf_vTE.
  have -> : clqt_seqBackwardPass P B (Some (kT P / B%:R)) (Some 0) (Some (ST P)) (Some (vT P)) = clqt_seqBackwardPass P B (Some (kT P / B%:R)) None None None by [].
  by case: (clqt_seqBackwardPass _ _ _ _ _ _) => [[[[Ks ds] Ss] vs]|].
Qed.
Lemma dts B s : kT P / (B * s)%:R = kT P / B%:R / s%:R. Proof. by rewrite natrM invfM mulrA. Qed.
Lemma tf_dense_bw B steps cs : (0 < B)%N -> (0 < steps)%N -> size cs = B.+1 -> tf_dense_backwardpass P steps cs = denseBackwardPass P steps cs.
Proof.
  move=> B0 s0; case: cs => // c cs [sz].
  rewrite /tf_dense_backwardpass /denseBackwardPass final_cons obindS [(size _).-1]/= sz (fw_dfE P B0 s0) obindS dense_bw_map dts.
  rewrite [behead _]/= /tf_starts zip_mapl omap_seq_map sz; congr obind; last apply: omap_seq_ext => -[k x] _ /=.
  rewrite seq_backward_tf // /block_bw0 /block_bw natrM.
  by case: (clqt_seqBackwardPass _ _ _ _ _ _) => [[[[Ks ds] Ss] vs]|].
Qed.
Lemma tf_coarse_bw B Fs Gs : (0 < B)%N -> size Fs = B.+1 -> size Gs = B.+1 -> tf_coarse_backwardpass P Fs Gs = coarseBackwardPass P Fs Gs.
Proof.
  move=> B0; case: Fs => // f Fs [sF]; case: Gs => // g Gs [sG].
  rewrite /tf_coarse_backwardpass /coarseBackwardPass final_cons obindS [(size (f :: _)).-1]/= [size (g :: _)]/= [size (f :: _)]/= sF sG eqxx fw_dcE // obindS.
  rewrite (@coarse_bw_scan R _ _ (fun k => k%:R * (kT P / B%:R)) (tf_coarse_bw_body P (kT P / B%:R))) ?sG ?sF //.
    by rewrite !but_last_cons.
  move=> k c f' g'; rewrite /tf_coarse_bw_body seq_backward_tf // /block_bw0 /block_bw.
  by case: (clqt_seqBackwardPass _ _ _ _ _ _) => [[[[Ks ds] [|Q Ss]] [|v vs]]|].
Qed.
Lemma block_sizes steps dt t x Ks ds Ss vs : block_bw P steps dt t x = Some (Ks, ds, Ss, vs) ->
  [/\ size Ks = steps, size ds = steps, size Ss = steps.+1 & size vs = steps.+1].
Proof.
  rewrite /block_bw => E; have := seq_backward_tf UE steps dt t x.1 x.2; rewrite E /= /tf_seq_backwardpass.
  case E2: (tf_scan_rev _ _ _) => [r|] //= [<- <- <- <-]; rewrite !size_rcons !size_map (tf_scan_rev_size E2).
  by rewrite /tf_times size_map size_iota.
Qed.
Lemma tf_final_bw B steps cs : (0 < B)%N -> (0 < steps)%N -> size cs = B.+1 ->
  tf_final_backwardpass P steps cs = omap (@swap_bwd R n m) (finalBackwardPass P steps cs).
Proof.
  move=> B0 s0; case: cs => // c cs [sz].
  rewrite /tf_final_backwardpass /finalBackwardPass final_cons obindS [(size _).-1]/= sz (fw_dfE P B0 s0) obindS [behead _]/=.
  rewrite /tf_starts zip_mapl omap_seq_map -{}sz; move: (kT P / _ / _) => dt.
  have -> : forall l, omap_seq (fun z : nat * Sv => tf_seq_backwardpass P steps dt (z.1%:R * steps%:R * dt) z.2.1 z.2.2) l =
       omap_seq (fun z => omap (@swap_bwd R n m) (block_bw P steps dt ((z.1 * steps)%:R * dt) z.2)) l.
    by move=> l; apply: omap_seq_ext => -[k x] _ /=; rewrite seq_backward_tf // /block_bw natrM.
  suff H : forall k c, (let? rs := omap_seq (fun z => omap (@swap_bwd R n m) (block_bw P steps dt ((z.1 * steps)%:R * dt) z.2)) (zip (iota k (size cs)) cs) in
     Some (rcons (flatten [seq but_last r.1.1.1 | r <- rs]) (last c cs).1, rcons (flatten [seq but_last r.1.1.2 | r <- rs]) (last c cs).2,
        flatten [seq r.1.2 | r <- rs], flatten [seq r.2 | r <- rs])) = omap (@swap_bwd R n m) (final_bw P steps dt k (c :: cs)) by exact: H.
  elim: cs {c} => [|c' cs IH] k c; first by [].
  rewrite -[final_bw _ _ _ _ _]/(let? '(bKs, bds, bSs, bvs) := block_bw P steps dt ((k * steps)%:R * dt) c' in
          let? '(Ks, ds, Ss, vs) := final_bw P steps dt k.+1 (c' :: cs) in
          Some (take steps bKs ++ Ks, take steps bds ++ ds, take steps bSs ++ Ss, take steps bvs ++ vs)).
  rewrite -[iota k _]/(k :: iota k.+1 (size cs)) -[zip _ _]/((k, c') :: zip (iota k.+1 (size cs)) cs).
  rewrite -[omap_seq _ (_ :: _)]/(let? y := omap (@swap_bwd R n m) (block_bw P steps dt ((k * steps)%:R * dt) c') in
    let? ys := omap_seq (fun z => omap (@swap_bwd R n m) (block_bw P steps dt ((z.1 * steps)%:R * dt) z.2)) (zip (iota k.+1 (size cs)) cs) in Some (y :: ys)).
  have := @block_sizes steps dt ((k * steps)%:R * dt) c'.
  case: (block_bw _ _ _ _ _) => [[[[bKs bds] bSs] bvs]|] // /(_ _ _ _ _ erefl) [s1 s2 s3 s4].
  rewrite [omap _ (Some _)]/= !obindS -[last c _]/(last c' cs).
  have := IH k.+1 c'.
  case: (omap_seq _ _) => [ys|]; last by rewrite [obind _ None]/=; case: (final_bw _ _ _ _ _).
  rewrite !obindS; case: (final_bw _ _ _ _ _) => [[[[Ks ds] Ss] vs]|] //= [<- <- <- <-].
  by rewrite /but_last s3 s4 /= (take_oversize (s := bKs)) ?s1 // (take_oversize (s := bds)) ?s2 // !rcons_cat.
Qed.
Definition Isz B (s : seq Sv * seq Sv) := size s.1 = B.+1 /\ size s.2 = B.+1.
Theorem para_backward_tf B steps niter : (0 < B)%N -> (0 < steps)%N ->
  tf_para_backwardpass P B steps niter.+1 = omap (@swap_bwd R n m) (para_backwardPass P B steps (Some niter.+1)).
Proof.
  move=> B0 s0; rewrite /tf_para_backwardpass /para_backwardPass tf_init_bw // (initE Upos B0) // 2!obindS tf_iterE.
  have I0 : Isz B (csI P B B 0, csI P B B 0) by split; rewrite size_csI.
  have St : forall s, Isz B s -> (let? Fs := tf_dense_backwardpass P steps s.1 in tf_coarse_backwardpass P Fs s.2) =
     (let? Fs := denseBackwardPass P steps s.1 in coarseBackwardPass P Fs s.2) /\
     (forall s', (let? Fs := denseBackwardPass P steps s.1 in coarseBackwardPass P Fs s.2) = Some s' -> Isz B s').
    move=> [cs gs] [/= s1 s2]; rewrite (tf_dense_bw B0 s0 s1).
    have : forall Fs, denseBackwardPass P steps cs = Some Fs -> size Fs = B.+1.
      by rewrite /denseBackwardPass; case: (div_nats _ _) => [dt|] // Fs /dense_bw_size ->.
    case: (denseBackwardPass _ _ _) => [Fs|] // /(_ _ erefl) sF; rewrite !obindS (tf_coarse_bw B0) //; split=> // -[cs' gs'].
    rewrite /coarseBackwardPass; case: (div_nats _ _) => [dt|] // /coarse_bw_size [E1 E2].
    by split=> /=; rewrite ?E1 ?E2.
  rewrite (iter_o_ext _ St I0) [or_else _ _]/=.
  have : forall i s s', Isz B s -> iter_o i (fun s => let? Fs := denseBackwardPass P steps s.1 in coarseBackwardPass P Fs s.2) s = Some s' -> Isz B s'.
    elim=> [|i IH] s s' Is /=; first by move=> [<-].
    by have [_] := St s Is; case: (obind _ _) => [s1|] // /(_ _ erefl) I1; rewrite obindS; apply: IH.
  move/(_ niter.+1 _ _ I0).
  by case: (iter_o _ _ _) => [[cs gs]|] // /(_ _ erefl) [/= s1 _]; rewrite -(tf_final_bw B0 s0 s1).
Qed.
End Bwd.

Section Fwd.
Variable R : realFieldType.
Variables n m p pT : nat.
Variable P : clqt R n m p pT.
Variables (B steps : nat) (zoh : bool) (Ks : seq 'M[R]_(m, n)) (ds : seq 'cV[R]_m).
Hypothesis B0 : (0 < B)%N.
Hypothesis s0 : (0 < steps)%N.
Hypothesis sK : size Ks = (B * steps)%N.
Hypothesis sd : size ds = (B * steps)%N.
Lemma omap_seq_Some {X Y} (f : X -> option Y) (g : X -> Y) l : (forall x, List.In x l -> f x = Some (g x)) -> omap_seq f l = Some (map g l).
Proof.
  elim: l => // x l IH H; rewrite [omap_seq _ _]/= (H x) ?IH //=; last by left.
  by move=> y yl; apply: H; right.
Qed.
Lemma first_slice {X} (d : X) (l : seq X) : size l = (B * steps)%N ->
  omap_seq first [seq slice (i * steps) ((i + 1) * steps) l | i <- iota 0 B] = Some [seq nth d l (i * steps) | i <- iota 0 B].
Proof.
  move=> sl; rewrite omap_seq_map; apply: omap_seq_Some => i /in_mem_iota /= iB.
  have sz : size (slice (i * steps) ((i + 1) * steps) l) = steps by apply: (slice_in sl); lia.
  have -> : nth d l (i * steps) = nth d (slice (i * steps) ((i + 1) * steps) l) 0.
    by rewrite nth_slice ?addn0 // mulnDl addKn mul1n.
  by case: (slice _ _ _) sz s0 => [|x l'] //= <-.
Qed.
Lemma tf_init_fw x0 : tf_init_forwardpass P B steps x0 Ks ds zoh = initForwardPass P B x0 Ks ds zoh.
Proof.
  rewrite /tf_init_forwardpass /initForwardPass (reshape2E sK) (reshape2E sd) 2!obindS (first_slice 0 sK) (first_slice 0 sd) 2!obindS.
  rewrite (negPf (lt0n_neq0 B0)) sK mulKn // (@stride_nth _ 0 _ B) // (@stride_nth _ 0 _ B) // 2!obindS.
  rewrite seq_forward_tf ?size_map ?size_iota //.
  set Ks' := map _ _; set ds' := map _ _.
  have -> : clqt_seqForwardPass P x0 Ks' ds' None None zoh = clqt_seqForwardPass P x0 Ks' ds' (Some (kT P / B%:R)) (Some 0) zoh.
    by rewrite /clqt_seqForwardPass /= size_map size_iota (negPf (lt0n_neq0 B0)).
  by case: (clqt_seqForwardPass _ _ _ _ _ _ _) => [[us xs]|].
Qed.
Lemma tf_blocks_fw dt c cs : size cs = B -> tf_blocks_forward P steps dt (c :: cs) Ks ds zoh =
  omap_seq (fun z => omap swap (block_fw P Ks ds zoh (z.1 * steps) (z.1.+1 * steps) dt ((z.1 * steps)%:R * dt) z.2)) (zip (iota 0 B) (belast c cs)).
Proof.
  move=> sz; rewrite /tf_blocks_forward [(size _).-1]/= sz (reshape2E sK) (reshape2E sd) 2!obindS but_last_cons.
  rewrite (as_map c (belast c cs)) size_belast sz /tf_starts !zip_map2 !omap_seq_map.
  have -> : zip (iota 0 B) [seq nth c (belast c cs) i | i <- iota 0 B] = [seq (i, nth c (belast c cs) i) | i <- iota 0 B].
    by rewrite -{1}(map_id (iota 0 B)) zip_map2.
  rewrite omap_seq_map; apply: omap_seq_ext => k /in_mem_iota /= kB.
  rewrite seq_forward_tf; last by rewrite (slice_in sd).
    by rewrite /block_fw natrM addn1.
  by rewrite (slice_in sd) // (slice_in sK).
Qed.
Lemma block_fw_len k x us xs dt : (k < B)%N -> block_fw P Ks ds zoh (k * steps) (k.+1 * steps) dt ((k * steps)%:R * dt) x = Some (us, xs) -> size us = steps /\ size xs = steps.+1.
Proof.
  move=> kB; rewrite /block_fw.
  have le : (k.+1 * steps <= B * steps)%N by rewrite leq_mul2r kB orbT.
  have sz : (k.+1 * steps - k * steps = steps)%N by rewrite mulSn addnK.
  have zK : size (slice (k * steps) (k.+1 * steps) Ks) = steps by rewrite slice_size ?sK.
  have zd : size (slice (k * steps) (k.+1 * steps) ds) = steps by rewrite slice_size ?sd.
  rewrite (@fwd_passE _ _ _ _ _ P zoh dt (nth 0 Ks) (nth 0 ds) _ (k * steps)) ?zK ?zd // => [[<- <-]|i si]; last by rewrite !nth_slice ?sz.
  by rewrite size_rcons !size_map size_pl.
Qed.
Lemma block_fw_some k x dt : (k < B)%N -> exists us xs, block_fw P Ks ds zoh (k * steps) (k.+1 * steps) dt ((k * steps)%:R * dt) x = Some (us, xs) /\ (size us = steps /\ size xs = steps.+1).
Proof.
  move=> kB; case E: (block_fw _ _ _ _ _ _ _ _ _) => [[us xs]|]; first by exists us, xs; split=> //; apply: block_fw_len E.
  move: E; rewrite /block_fw.
  have le : (k.+1 * steps <= B * steps)%N by rewrite leq_mul2r kB orbT.
  have sz : (k.+1 * steps - k * steps = steps)%N by rewrite mulSn addnK.
  have zK : size (slice (k * steps) (k.+1 * steps) Ks) = steps by rewrite slice_size ?sK.
  have zd : size (slice (k * steps) (k.+1 * steps) ds) = steps by rewrite slice_size ?sd.
  by rewrite (@fwd_passE _ _ _ _ _ P zoh dt (nth 0 Ks) (nth 0 ds) _ (k * steps)) ?zK ?zd // => i si; rewrite !nth_slice ?sz.
Qed.
Let stv dt := sf P zoh dt (nth 0 Ks) (nth 0 ds).
Definition blkv dt k x := (map (uj (nth 0 Ks) (nth 0 ds)) (pl (stv dt) (k * steps) steps x), rcons [seq z.2 | z <- pl (stv dt) (k * steps) steps x] (en (stv dt) (k * steps) steps x)).
Lemma block_fwV dt k x : (k < B)%N -> block_fw P Ks ds zoh (k * steps) (k.+1 * steps) dt ((k * steps)%:R * dt) x = Some (blkv dt k x).
Proof.
  move=> kB; rewrite /block_fw.
  have le : (k.+1 * steps <= B * steps)%N by rewrite leq_mul2r kB orbT.
  have sz : (k.+1 * steps - k * steps = steps)%N by rewrite mulSn addnK.
  have zK : size (slice (k * steps) (k.+1 * steps) Ks) = steps by rewrite slice_size ?sK.
  have zd : size (slice (k * steps) (k.+1 * steps) ds) = steps by rewrite slice_size ?sd.
  by rewrite (@fwd_passE _ _ _ _ _ P zoh dt (nth 0 Ks) (nth 0 ds) _ (k * steps)) ?zK ?zd // => i si; rewrite !nth_slice ?sz.
Qed.
Lemma tf_dense_fw cs : size cs = B.+1 -> tf_dense_forwardpass P steps cs Ks ds zoh = denseForwardPass P steps cs Ks ds zoh.
Proof.
  case: cs => // c cs [sz]; rewrite /tf_dense_forwardpass /denseForwardPass 2!obindS tf_blocks_fw // [(size _).-1]/= sz dts.
  rewrite fw_dfE // obindS dense_fw_map sz; move: (kT P / _ / _) => dt.
  have sb : size (belast c cs) = B by rewrite size_belast.
  have Hl : forall z, List.In z (zip (iota 0 B) (belast c cs)) -> (z.1 < B)%N.
    move=> z; rewrite (as_map c (belast c cs)) sb -{1}(map_id (iota 0 B)) zip_map2.
    by move/List.in_map_iff => [k [<- /in_mem_iota]].
  rewrite (@omap_seq_Some _ _ _ (fun z => swap (blkv dt z.1 z.2))); last by move=> z /Hl zB; rewrite block_fwV.
  rewrite obindS omap_seq_map (@omap_seq_Some _ _ _ (fun z => en (stv dt) (z.1 * steps) steps z.2)); last first.
    by move=> z /Hl zB; rewrite /block_fwN block_fwV // obindS; exact: final_run.
  rewrite obindS (@omap_seq_Some _ _ _ (fun z => en (stv dt) (z.1 * steps) steps z.2)) // => z zl; exact: final_run.
Qed.
Lemma tf_coarse_fw Fs Gs : size Fs = B.+1 -> size Gs = B.+1 -> tf_coarse_forwardpass P steps Fs Gs Ks ds zoh = coarseForwardPass P Fs Gs Ks ds zoh.
Proof.
  case: Fs => // f Fs [sF]; case: Gs => // g Gs [sG].
  rewrite /tf_coarse_forwardpass /coarseForwardPass 2!obindS (@stride_nth _ 0 _ B) // (@stride_nth _ 0 _ B) // 2!obindS.
  rewrite [(size (f :: _)).-1]/= [size (g :: _)]/= [size (f :: _)]/= sF sG !size_map !size_iota !eqxx [_ || _]/= fw_dcE // obindS sK mulKn // [behead _]/= [behead _]/=.
  set dt := kT P / B%:R; set ci := zip _ _.
  rewrite (@coarse_fw_scan _ _ _ (fun k f g => (k%:R * dt, f, g, nth 0 Ks (k * steps), nth 0 ds (k * steps))) (tf_coarse_fw_body P zoh dt) 0 f f Fs Gs ci) ?sF //.
  - by case: (tf_scan _ _ _).
  - move=> k c f' g'; rewrite add0n => /andP[_ kB]; rewrite /tf_coarse_fw_body seq_forward_tf // /block_fwN /block_fw.
    have le : (k * steps + 1 <= B * steps)%N.
      by apply: leq_trans (_ : k.+1 * steps <= _)%N; [rewrite mulSn addnC leq_add2r | rewrite leq_mul2r kB orbT].
    have H1 : forall X (d : X) l, size l = (B * steps)%N -> slice (k * steps) (k * steps + 1) l = [:: nth d l (k * steps)].
      move=> X d l sl; have : size (slice (k * steps) (k * steps + 1) l) = 1%N by rewrite slice_size ?sl // addKn.
      have := @nth_slice _ d (k * steps) (k * steps + 1) l 0; rewrite addKn addn0 => /(_ isT) <-.
      by case: (slice _ _ _) => [|x [|? ?]].
    rewrite (H1 _ 0 Ks) // (H1 _ 0 ds) //.
    by case: (clqt_seqForwardPass _ _ _ _ _ _ _) => [[us xs]|].
  - by rewrite /ci !size_zip !size_map !size_iota ?sF ?sG !minnn.
  - move=> i f' g' [[[[t xf] xg] xK] xd] iB.
    rewrite /ci /tf_coarse_ts !nth_zip ?size_zip ?size_map ?size_iota ?sF ?sG ?minnn // !(nth_map 0%N) ?size_iota // !nth_iota // !add0n.
    by rewrite (set_nth_default f' xf) ?sF // (set_nth_default g' xg) ?sG.
Qed.
Lemma tf_final_fw cs : size cs = B.+1 -> tf_final_forwardpass P steps cs Ks ds zoh = omap swap (finalForwardPass P steps cs Ks ds zoh).
Proof.
  case: cs => // c cs [sz]; rewrite /tf_final_forwardpass /finalForwardPass tf_blocks_fw // [(size _).-1]/= sz dts.
  rewrite fw_dfE // obindS; move: (kT P / _ / _) => dt.
  have H : forall k c r0, (k + size cs = B)%N -> exists rs,
     omap_seq (fun z => omap swap (block_fw P Ks ds zoh (z.1 * steps) (z.1.+1 * steps) dt ((z.1 * steps)%:R * dt) z.2)) (zip (iota k (size cs)) (belast c cs)) = Some rs /\
     forall o, final r0.1 = Some o ->
     exists xT, final (last r0 rs).1 = Some xT /\ (cs <> [::] -> rs <> [::]) /\
     final_fw P steps dt Ks ds zoh k (Some o) (c :: cs) = Some (flatten [seq r.2 | r <- rs], rcons (flatten [seq but_last r.1 | r <- rs]) xT).
    elim: cs {c sz} => [|c' cs IH] k c r0 sk.
      by exists [::]; split=> // o Eo; exists o.
    have kB : (k < B)%N by rewrite -sk /= addnS ltnS leq_addr.
    have [us [xs [E [su sx]]]] := block_fw_some c dt kB.
    have sk1 : (k.+1 + size cs = B)%N by rewrite -sk /= addSnnS.
    have [rs [Er Hr]] := IH k.+1 c' (xs, us) sk1.
    exists ((xs, us) :: rs); split; first by rewrite /= E /= Er.
    move=> o Eo; case: xs sx E Er Hr => // x xs [sx] E Er Hr.
    have [xT [ExT [_ Ef]]] := Hr (last x xs) erefl.
    exists xT; split; first by [].
    split=> //.
    rewrite -[final_fw _ _ _ _ _ _ _ _ _]/(let? '(bus, bxs) := block_fw P Ks ds zoh (k * steps) (k.+1 * steps) dt ((k * steps)%:R * dt) c in
          if (size bus < steps)%N then None
          else let? '(us, xs) := final_fw P steps dt Ks ds zoh k.+1 (final bxs) (c' :: cs) in
            Some (take steps bus ++ us, take steps bxs ++ xs)).
    rewrite E obindS su ltnn Ef obindS take_oversize ?su // [flatten _]/= [flatten (map _ (_ :: rs))]/= rcons_cat /but_last /= sx.
    by [].
  have cs0 : cs <> [::] by move=> c0; move: B0; rewrite -sz c0.
  have [rs [Er Hr]] := H 0%N c ([:: c], [::]) sz.
  have [xT [ExT [ne Ef]]] := Hr c erefl.
  rewrite -sz Er obindS; have := ne cs0; case: rs Er Hr ExT ne Ef => // r rs _ _ ExT _ Ef _.
  have -> : final_fw P steps dt Ks ds zoh 0 None (c :: cs) = final_fw P steps dt Ks ds zoh 0 (Some c) (c :: cs) by case: (cs) cs0.
  by rewrite Ef final_cons obindS -[last r rs]/(last ([:: c], [::]) (r :: rs)) ExT.
Qed.
Definition IszF (s : seq 'cV[R]_n * seq 'cV[R]_n) := size s.1 = B.+1 /\ size s.2 = B.+1.
Theorem para_forward_tf x0 niter :
  tf_para_forwardpass P B steps niter.+1 x0 Ks ds zoh = omap swap (para_forwardPass P B steps x0 Ks ds zoh (Some niter.+1)).
Proof.
  rewrite /tf_para_forwardpass /para_forwardPass tf_init_fw (fw_initE P B0 s0) // 2!obindS tf_iterE.
  set c0 := (_, _).
  have I0 : IszF c0 by split; rewrite /= size_csF.
  have St : forall s, IszF s -> (let? Fs := tf_dense_forwardpass P steps s.1 Ks ds zoh in tf_coarse_forwardpass P steps Fs s.2 Ks ds zoh) =
     (let? Fs := denseForwardPass P steps s.1 Ks ds zoh in coarseForwardPass P Fs s.2 Ks ds zoh) /\
     (forall s', (let? Fs := denseForwardPass P steps s.1 Ks ds zoh in coarseForwardPass P Fs s.2 Ks ds zoh) = Some s' -> IszF s').
    move=> [cs gs] [/= s1 s2]; rewrite (tf_dense_fw s1).
    have : forall Fs, denseForwardPass P steps cs Ks ds zoh = Some Fs -> size Fs = B.+1.
      rewrite /denseForwardPass; case: (cs) s1 => // c cs1 [s1] Fs; rewrite obindS; case: (div_nats _ _) => [dt|] //.
      by rewrite obindS; case E: (dense_fw _ _ _) => [fs|] // [<-]; rewrite /= (dense_fw_size E) s1.
    case: (denseForwardPass _ _ _ _ _ _) => [Fs|] // /(_ _ erefl) sF; rewrite !obindS tf_coarse_fw //; split=> // -[cs' gs'].
    rewrite /coarseForwardPass; case: (Fs) sF => // f Fs1 [sF]; rewrite obindS; case: (div_nats _ _) => [dt|] //; rewrite obindS.
    by case E: (coarse_fw _ _ _ _ _) => [[a b]|] // [<- <-]; have [E1 E2] := coarse_fw_size E; split; rewrite /= ?E1 ?E2 /= sF.
  rewrite (iter_o_ext _ St I0) [or_else _ _]/=.
  have : forall i s s', IszF s -> iter_o i (fun s => let? Fs := denseForwardPass P steps s.1 Ks ds zoh in coarseForwardPass P Fs s.2 Ks ds zoh) s = Some s' -> IszF s'.
    elim=> [|i IH] s s' Is /=; first by move=> [<-].
    by have [_] := St s Is; case: (obind _ _) => [s1|] // /(_ _ erefl) I1; rewrite obindS; apply: IH.
  move/(_ niter.+1 _ _ I0).
  by case: (iter_o _ _ _) => [[cs gs]|] // /(_ _ erefl) [/= s1 _]; rewrite -(tf_final_fw s1).
Qed.
End Fwd.

Section FwdBwd.
Variable R : realFieldType.
Variables n m p pT : nat.
Variable P : clqt R n m p pT.
Hypothesis Upos : forall t, symm (kU P t) /\ pd (kU P t).
Let UE := tf_ULT_pos Upos.
Local Notation abc := [zmodType of ('M[R]_n * 'cV[R]_n * 'M[R]_n)%type].
Variables (B steps : nat).
Hypothesis B0 : (0 < B)%N.
Hypothesis s0 : (0 < steps)%N.
Lemma tf_init_abc x0 : tf_init_fwdbwdpass P B x0 = initFwdBwdPass P B x0.
Proof. by rewrite /tf_init_fwdbwdpass /initFwdBwdPass fw_dcE // obindS (seq_fwdbwd_tf UE x0). Qed.
Lemma tf_block_abc st dt t (e : abc) : tf_seq_fwdbwdpass P st dt t e = block_abc P st dt t e.
Proof. by case: e => -[A b] C; rewrite (seq_fwdbwd_tf UE 0). Qed.
Lemma tf_blocks_abc dt c (cs : seq abc) : size cs = B ->
  forall X (g : seq abc -> option X), omap_seq (fun z : R * abc => let? es := tf_seq_fwdbwdpass P steps dt z.1 z.2 in g es) (zip (tf_starts B steps dt) (but_last (c :: cs))) =
  omap_seq (fun z : nat * abc => let? es := block_abc P steps dt ((z.1 * steps)%:R * dt) z.2 in g es) (zip (iota 0 B) (belast c cs)).
Proof.
  move=> sz X g; rewrite but_last_cons /tf_starts zip_mapl omap_seq_map; apply: omap_seq_ext => -[k e] _.
  by rewrite tf_block_abc /= natrM.
Qed.
Lemma tf_dense_abc (cs : seq abc) : size cs = B.+1 -> tf_dense_fwdbwdpass P steps cs = denseFwdBwdPass P steps cs.
Proof.
  case: cs => // c cs [sz]; rewrite /tf_dense_fwdbwdpass /denseFwdBwdPass 2!obindS [(size _).-1]/= sz dts tf_blocks_abc //.
  by rewrite fw_dfE // obindS dense_fw_map sz.
Qed.
Lemma tf_coarse_abc (Fs Gs : seq abc) : size Fs = B.+1 -> size Gs = B.+1 -> tf_coarse_fwdbwdpass P Fs Gs = coarseFwdBwdPass P Fs Gs.
Proof.
  case: Fs => // f Fs [sF]; case: Gs => // g Gs [sG].
  rewrite /tf_coarse_fwdbwdpass /coarseFwdBwdPass 2!obindS.
  rewrite [(size (f :: _)).-1]/= [size (g :: _)]/= [size (f :: _)]/= sF sG !eqxx [~~ true]/= fw_dcE // obindS [behead _]/= [behead _]/=.
  set dt := kT P / B%:R; set ci := zip _ _.
  rewrite (@coarse_fw_scan _ _ _ (fun k f g => (k%:R * dt, f, g)) (tf_coarse_abc_body P dt) 0 f f Fs Gs ci) ?sF //.
  - by case: (tf_scan _ _ _).
  - move=> k c f' g' _; rewrite /tf_coarse_abc_body tf_block_abc /block_abcN.
    by case: (block_abc _ _ _ _ _) => [es|].
  - by rewrite /ci !size_zip !size_map !size_iota ?sF ?sG !minnn.
  - move=> i f' g' [[t xf] xg] iB.
    rewrite /ci /tf_coarse_ts !nth_zip ?size_zip ?size_map ?size_iota ?sF ?sG ?minnn // !(nth_map 0%N) ?size_iota // !nth_iota // !add0n.
    by rewrite (set_nth_default f' xf) ?sF // (set_nth_default g' xg) ?sG.
Qed.
Lemma obind_Some {X} (o : option X) : obind Some o = o. Proof. by case: o. Qed.
Lemma tf_final_abc (cs : seq abc) : size cs = B.+1 -> tf_final_fwdbwdpass P steps cs = finalFwdBwdPass P steps cs.
Proof.
  case: cs => // c cs [sz]; rewrite /tf_final_fwdbwdpass /finalFwdBwdPass [(size _).-1]/= sz fw_dfE // obindS.
  move: (kT P / _ / _) => dt.
  have -> : omap_seq (fun z : R * abc => tf_seq_fwdbwdpass P steps dt z.1 z.2) (zip (tf_starts B steps dt) (but_last (c :: cs))) =
     omap_seq (fun z : nat * abc => block_abc P steps dt ((z.1 * steps)%:R * dt) z.2) (zip (iota 0 B) (belast c cs)).
    transitivity (omap_seq (fun z : R * abc => let? es := tf_seq_fwdbwdpass P steps dt z.1 z.2 in Some es) (zip (tf_starts B steps dt) (but_last (c :: cs)))).
      by apply: omap_seq_ext => z _; rewrite obind_Some.
    by rewrite tf_blocks_abc //; apply: omap_seq_ext => z _; rewrite obind_Some.
  have Hs : forall t e l, block_abc P steps dt t e = Some l -> size l = steps.+1.
    by move=> t [[A b] C] l; rewrite /block_abc /clqt_seqFwdBwdPass [dt_or _ _]/= obindS; apply: abc_loop_size.
  have H : forall k (c : abc) (r0 : seq abc) o, (k + size cs = B)%N -> final r0 = Some o ->
     omap_seq (fun z => block_abc P steps dt ((z.1 * steps)%:R * dt) z.2) (zip (iota k (size cs)) (belast c cs)) = None /\ final_abc P steps dt k (Some o) (c :: cs) = None \/
     exists rs, omap_seq (fun z => block_abc P steps dt ((z.1 * steps)%:R * dt) z.2) (zip (iota k (size cs)) (belast c cs)) = Some rs /\
     exists xT, final (last r0 rs) = Some xT /\ (cs <> [::] -> rs <> [::]) /\
     final_abc P steps dt k (Some o) (c :: cs) = Some (rcons (flatten [seq but_last r | r <- rs]) xT).
    elim: cs {c sz} => [|c' cs IH] k c r0 o sk Eo.
      by right; exists [::]; split=> //; exists o.
    have sk1 : (k.+1 + size cs = B)%N by rewrite -sk /= addSnnS.
    rewrite -[final_abc _ _ _ _ _ _]/(let? bes := block_abc P steps dt ((k * steps)%:R * dt) c in
          let? es := final_abc P steps dt k.+1 (final bes) (c' :: cs) in Some (take steps bes ++ es)).
    rewrite -[omap_seq _ _]/(let? y := block_abc P steps dt ((k * steps)%:R * dt) c in
      let? ys := omap_seq (fun z => block_abc P steps dt ((z.1 * steps)%:R * dt) z.2) (zip (iota k.+1 (size cs)) (belast c' cs)) in Some (y :: ys)).
    have := Hs ((k * steps)%:R * dt) c.
    case: (block_abc _ _ _ _ _) => [[|e es]|] // => [/(_ _ erefl) //|/(_ _ erefl) sx|_]; last by left.
    rewrite !obindS final_cons.
    have [[-> ->]|[rs [-> [xT [ExT [_ ->]]]]]] := IH k.+1 c' (e :: es) (last e es) sk1 erefl; first by left.
    right; exists ((e :: es) :: rs); split=> //; exists xT; split=> //; split=> //.
    by rewrite obindS [flatten _]/= rcons_cat /but_last sx.
  have cs0 : cs <> [::] by move=> c0; move: B0; rewrite -sz c0.
  have -> : final_abc P steps dt 0 None (c :: cs) = final_abc P steps dt 0 (Some c) (c :: cs) by case: (cs) cs0.
  have [[Er ->]|[rs [Er [xT [ExT [ne ->]]]]]] := H 0%N c [:: c] c sz erefl; rewrite -[in iota _ B]sz Er ?obindS //; have := ne cs0.
  by case: rs Er ExT {ne} => // r rs _ ExT _; rewrite final_cons obindS -[last r rs]/(last [:: c] (r :: rs)) ExT.
Qed.
Definition IszA (s : seq abc * seq abc) := size s.1 = B.+1 /\ size s.2 = B.+1.
Theorem para_fwdbwd_tf x0 niter :
  tf_para_fwdbwdpass P B steps niter.+1 x0 = para_fwdBwdPass P B steps x0 (Some niter.+1).
Proof.
  rewrite /tf_para_fwdbwdpass /para_fwdBwdPass tf_init_abc (abc_initE B0 Upos) // 2!obindS tf_iterE.
  set c0 := (_, _).
  have I0 : IszA c0 by split; rewrite /= size_csF.
  have St : forall s, IszA s -> (let? Fs := tf_dense_fwdbwdpass P steps s.1 in tf_coarse_fwdbwdpass P Fs s.2) =
     (let? Fs := denseFwdBwdPass P steps s.1 in coarseFwdBwdPass P Fs s.2) /\
     (forall s', (let? Fs := denseFwdBwdPass P steps s.1 in coarseFwdBwdPass P Fs s.2) = Some s' -> IszA s').
    move=> [cs gs] [/= s1 s2]; rewrite (tf_dense_abc s1).
    have : forall Fs, denseFwdBwdPass P steps cs = Some Fs -> size Fs = B.+1.
      rewrite /denseFwdBwdPass; case: (cs) s1 => // c cs1 [s1] Fs; rewrite obindS; case: (div_nats _ _) => [dt|] //.
      by rewrite obindS; case E: (dense_fw _ _ _) => [fs|] // [<-]; rewrite /= (dense_fw_size E) s1.
    case: (denseFwdBwdPass _ _ _) => [Fs|] // /(_ _ erefl) sF; rewrite !obindS tf_coarse_abc //; split=> // -[cs' gs'].
    rewrite /coarseFwdBwdPass; case: (Fs) sF => // f Fs1 [sF]; rewrite obindS; case: (div_nats _ _) => [dt|] //; rewrite obindS.
    by case E: (coarse_fw _ _ _ _ _) => [[a b]|] // [<- <-]; have [E1 E2] := coarse_fw_size E; split; rewrite /= ?E1 ?E2 /= sF.
  rewrite (iter_o_ext _ St I0) [or_else _ _]/=.
  have : forall i s s', IszA s -> iter_o i (fun s => let? Fs := denseFwdBwdPass P steps s.1 in coarseFwdBwdPass P Fs s.2) s = Some s' -> IszA s'.
    elim=> [|i IH] s s' Is /=; first by move=> [<-].
    by have [_] := St s Is; case: (obind _ _) => [s1|] // /(_ _ erefl) I1; rewrite obindS; apply: IH.
  move/(_ niter.+1 _ _ I0).
  by case: (iter_o _ _ _) => [[cs gs]|] // /(_ _ erefl) [/= s1 _]; rewrite -(tf_final_abc s1).
Qed.
End FwdBwd.

(** the two whole solvers: a backward pass followed by a forward pass *)
Section Whole.
Variable R : realFieldType.
Variables n m p pT : nat.
Variable P : clqt R n m p pT.
Hypothesis Upos : forall t, symm (kU P t) /\ pd (kU P t).
Theorem para_backwardforward_tf B steps niter x0 : (0 < B)%N -> (0 < steps)%N -> (B <= niter.+2)%N ->
  exists Ks ds Ss vs us xs,
  [/\ clqt_seqBackwardPass P (B * steps) None None None None = Some (Ks, ds, Ss, vs),
      clqt_seqForwardPass P x0 Ks ds None None false = Some (us, xs)
    & tf_para_backwardforwardpass P B steps niter.+1 x0 = Some (xs, us)].
Proof.
  move=> B0 s0 Bn; rewrite /tf_para_backwardforwardpass para_backward_tf //.
  have [Ks [ds [Ss [vs [Ks' [ds' [Ss' [vs' [-> -> [sK sd _ _]]]]]]]]]] := para_backward_l Upos B0 s0 (Some niter.+1).
  have j0 : ((B - niter.+2) * steps = 0)%N by have /eqP -> : (B - niter.+2 == 0)%N by rewrite subn_eq0.
  cbv zeta; rewrite [or_else _ _]/= j0 !drop0 => -[EK Ed ES Ev]; rewrite -EK -Ed -ES -Ev.
  rewrite -[omap _ _]/(Some (Ss, vs, Ks, ds)) obindS para_forward_tf //.
  have [us [xs [us' [xs' [-> E _ _ /(_ Bn) [Eu Ex]]]]]] := para_forward_l P B0 s0 false x0 sK sd (Some niter.+1).
  by exists Ks, ds, Ss, vs, us, xs; split=> //; rewrite E Eu Ex.
Qed.
Theorem para_backwardbwdfwd_tf B steps niter x0 : (0 < B)%N -> (0 < steps)%N -> (B <= niter.+2)%N ->
  exists Ks ds Ss vs es,
  [/\ clqt_seqBackwardPass P (B * steps) None None None None = Some (Ks, ds, Ss, vs),
      clqt_seqFwdBwdPass P x0 (B * steps) None None None None None = Some es
    & tf_para_backwardbwdfwdpass P B steps niter.+1 x0 = omap swap (combineForwardBackward Ks ds Ss vs es)].
Proof.
  move=> B0 s0 Bn; rewrite /tf_para_backwardbwdfwdpass para_backward_tf // para_fwdbwd_tf //.
  have [Ks [ds [Ss [vs [Ks' [ds' [Ss' [vs' [-> -> [sK sd sS sv]]]]]]]]]] := para_backward_l Upos B0 s0 (Some niter.+1).
  have j0 : ((B - niter.+2) * steps = 0)%N by have /eqP -> : (B - niter.+2 == 0)%N by rewrite subn_eq0.
  cbv zeta; rewrite [or_else _ _]/= j0 !drop0 => -[EK Ed ES Ev]; rewrite -EK -Ed -ES -Ev.
  have [es [es' [-> -> se _ /(_ Bn) <-]]] := para_fwdbwd_l B0 s0 Upos x0 (Some niter.+1).
  exists Ks, ds, Ss, vs, es; split=> //; rewrite -[omap _ (Some _)]/(Some (Ss, vs, Ks, ds)) 2!obindS.
  exact: combine_tf sS sv se sd sK.
Qed.
End Whole.
