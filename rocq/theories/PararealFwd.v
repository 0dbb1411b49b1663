(** The parareal forward and forward-backward passes against the sequential ones. *)
From mathcomp Require Import all_ssreflect all_algebra zify.
From Verif Require Import ScanModel TfScan MxBase LqtModel LqtTfModel LqtCore Rk4Model Rk4Spec Rk4Proofs ClqtModel ClqtTfModel ClqtFwd2 ClqtTf2 ClqtTf3 ClqtHjb PararealModel PararealCore PararealBwd.
Import Order.TTheory GRing.Theory Num.Theory.
Set Implicit Arguments. Unset Strict Implicit. Unset Printing Implicit Defensive.
Local Open Scope ring_scope.

Section Gen.
Variable V : zmodType.
Section Runs.
Variable st : nat -> V -> V.
Fixpoint en (a l : nat) (x : V) : V := if l is l'.+1 then en a.+1 l' (st a x) else x.
Fixpoint pl (a l : nat) (x : V) : seq (nat * V) := if l is l'.+1 then (a, x) :: pl a.+1 l' (st a x) else [::].
Lemma size_pl a l x : size (pl a l x) = l. Proof. by elim: l a x => //= l IH a x; rewrite IH. Qed.
Lemma pl_add a l1 l2 x : pl a (l1 + l2) x = pl a l1 x ++ pl (a + l1) l2 (en a l1 x).
Proof. by elim: l1 a x => [|l1 IH] a x; rewrite ?addn0 //= IH addSnnS. Qed.
Lemma en_add a l1 l2 x : en a (l1 + l2) x = en (a + l1) l2 (en a l1 x).
Proof. by elim: l1 a x => [|l1 IH] a x; rewrite ?addn0 //= IH addSnnS. Qed.
Lemma last_run a l x : last x (behead (rcons [seq z.2 | z <- pl a l x] (en a l x))) = en a l x.
Proof. by case: l => [|l] //=; rewrite last_rcons. Qed.
Lemma final_run a l x : final (rcons [seq z.2 | z <- pl a l x] (en a l x)) = Some (en a l x).
Proof. by case: l => [|l] //=; rewrite last_rcons. Qed.
Lemma run_ne a l x : exists t, rcons [seq z.2 | z <- pl a l x] (en a l x) = x :: t.
Proof. by case: l => [|l]; eexists. Qed.
End Runs.
Variables (stf stc : nat -> V -> V) (B s : nat) (x0 : V).
Let f k x := en stf (k * s) s x.
Let g k x := stc k x.
Definition Efw k := en stf 0 (k * s) x0.
Let E := Efw.
Lemma Efw_fine k : (k < B)%N -> E k.+1 = f k (E k).
Proof. by move=> _; rewrite /E /Efw mulSn addnC en_add. Qed.
Fixpoint csF (l k : nat) (x : V) : seq V := if l is l'.+1 then stc k x :: csF l' k.+1 (stc k x) else [::].
Lemma csFE l k x : rcons [seq z.2 | z <- pl stc k l x] (en stc k l x) = x :: csF l k x.
Proof. by elim: l k x => //= l IH k x; rewrite IH. Qed.
Lemma size_csF l k x : size (csF l k x) = l. Proof. by elim: l k x => //= l IH k x; rewrite IH. Qed.
Lemma inv_fw_init l k x : inv_fw g k x (csF l k x) (csF l k x).
Proof. by elim: l k x => //= l IH k x. Qed.
Lemma ex_fw_init l : ex_fw E 0 0 (x0 :: csF l 0 x0).
Proof.
  split=> //; suff H : forall cs k, ex_fw E 0 k.+1 cs by apply: H.
  by elim=> // c cs IH k; split.
Qed.
Fixpoint fpl (k : nat) (c : V) (cs : seq V) : seq (nat * V) := if cs is c' :: cs' then pl stf (k * s) s c ++ fpl k.+1 c' cs' else [::].
Fixpoint fl (k : nat) (y c : V) (cs : seq V) : V := if cs is c' :: cs' then fl k.+1 (en stf (k * s) s c) c' cs' else y.
Definition pseq k := pl stf (k * s) ((B - k) * s) (E k).
Lemma pseqS k : (k < B)%N -> pseq k = pl stf (k * s) s (E k) ++ pseq k.+1.
Proof. by move=> kB; rewrite /pseq -(subnSK kB) (mulSn (B - k.+1)) pl_add Efw_fine // (mulSn k) (addnC s). Qed.
Lemma size_fpl k c cs : size (fpl k c cs) = (size cs * s)%N.
Proof. by elim: cs k c => //= c' cs IH k c; rewrite size_cat size_pl IH. Qed.
Lemma take_fpl b k y c cs : (k + size cs = B)%N -> ex_fw E b k (c :: cs) ->
  take ((b.+1 - k) * s) (fpl k c cs) = take ((b.+1 - k) * s) (pseq k) /\
  ((B <= b.+1)%N -> (cs = [::] -> y = E k) -> fpl k c cs = pseq k /\ fl k y c cs = E B).
Proof.
  elim: cs k y c => [|c' cs IH] k y c sk.
    move=> [H _]; rewrite addn0 in sk; rewrite /pseq sk subnn; split=> // _ ->  //.
  move=> [H He]; have sk1 : (k.+1 + size cs = B)%N by rewrite -sk addSnnS.
  have kB : (k < B)%N by rewrite -sk1 leq_addr.
  have [Ht Hw] := IH k.+1 (en stf (k * s) s c) c' sk1 He.
  rewrite [fpl k c _]/= [fl k y c _]/= pseqS //; case: (leqP k b) => kb.
    have Ec := H kb; split.
      rewrite subSn // mulSn Ec.
      have E2 : forall x (l : seq (nat * V)), take (s + (b - k) * s) (pl stf (k * s) s x ++ l) = pl stf (k * s) s x ++ take ((b - k) * s) l.
        by move=> x l; rewrite take_cat size_pl ltnNge leq_addr addKn.
      rewrite !E2; congr (_ ++ _); exact: Ht.
    move=> Bb _; have [|-> ->] := Hw Bb _; first by move=> _; rewrite Ec (Efw_fine kB).
    by rewrite Ec.
  split; last by move=> Bb; move: (leq_ltn_trans kb (leq_trans kB Bb)); rewrite ltnn.
  by have -> : (b.+1 - k = 0)%N; [apply/eqP; rewrite subn_eq0 | rewrite mul0n !take0].
Qed.
End Gen.

Section F.
Variable R : realFieldType.
Variables n m p pT : nat.
Variable P : clqt R n m p pT.

Section Fwd.
Variables (zoh : bool).
Definition ctl (K : 'M[R]_(m, n)) (d : 'cV[R]_m) (x : 'cV[R]_n) : 'cV[R]_m := - K *m x + d.
(** one step of the forward pass from place j of a grid with gains [Kf j] and [df j] *)
Definition sf (dt : R) (Kf : nat -> 'M[R]_(m, n)) (df : nat -> 'cV[R]_m) (j : nat) (x : 'cV[R]_n) : 'cV[R]_n :=
  odflt x (rk4_xt (V := matrix_lmodType R n 1) (cl_ode P zoh (Kf j) (df j) (ctl (Kf j) (df j) x)) dt x (j%:R * dt)).
Lemma sfE dt Kf df j x :
  rk4_xt (V := matrix_lmodType R n 1) (cl_ode P zoh (Kf j) (df j) (ctl (Kf j) (df j) x)) dt x (j%:R * dt) = Some (sf dt Kf df j x).
Proof.
  rewrite /sf (@rk4_ext R (matrix_lmodType R n 1) _ (fun y t => Some (if zoh then kF P t *m y + kL P t *m ctl (Kf j) (df j) x + kc P t
    else kF P t *m y + kL P t *m (- Kf j *m y + df j) + kc P t))).
    by rewrite rk4_total.
  by rewrite /cl_ode; case: zoh.
Qed.
Definition uj (Kf : nat -> 'M[R]_(m, n)) (df : nat -> 'cV[R]_m) (z : nat * 'cV[R]_n) := ctl (Kf z.1) (df z.1) z.2.
Lemma fwd_gridE dt Kf df t0 i j Ks ds x : size Ks = size ds -> t0 + i%:R * dt = j%:R * dt ->
  (forall k, (k < size Ks)%N -> nth 0 Ks k = Kf (j + k)%N /\ nth 0 ds k = df (j + k)%N) ->
  fwd_loop P dt t0 zoh Ks ds i x = Some (map (uj Kf df) (pl (sf dt Kf df) j (size Ks) x), behead (rcons [seq z.2 | z <- pl (sf dt Kf df) j (size Ks) x] (en (sf dt Kf df) j (size Ks) x))).
Proof.
  elim: Ks ds i j x => [|K Ks IH] [|d ds] i j x //= [sz] Et H.
  have [/= EK Ed] := H 0%N isT; rewrite addn0 in EK Ed.
  rewrite Et EK Ed -[- Kf j *m x + df j]/(ctl (Kf j) (df j) x) sfE obindS (IH _ _ j.+1) //.
  - by rewrite obindS /uj /=; case: (size Ks).
  - by rewrite -addn1 natrD mulrDl addrA Et -mulrDl -natrD addn1.
  - by move=> k kK; have := H k.+1 kK; rewrite /= addnS.
Qed.
Lemma fwd_passE dt Kf df t0 j Ks ds x : size Ks = size ds -> t0 = j%:R * dt ->
  (forall k, (k < size Ks)%N -> nth 0 Ks k = Kf (j + k)%N /\ nth 0 ds k = df (j + k)%N) ->
  clqt_seqForwardPass P x Ks ds (Some dt) (Some t0) zoh =
  Some (map (uj Kf df) (pl (sf dt Kf df) j (size Ks) x), rcons [seq z.2 | z <- pl (sf dt Kf df) j (size Ks) x] (en (sf dt Kf df) j (size Ks) x)).
Proof.
  move=> sz Et H; rewrite /clqt_seqForwardPass /= (@fwd_gridE dt Kf df _ 0 j) //; last by rewrite mul0r addr0.
  by case: (size Ks).
Qed.
End Fwd.

Lemma stride_nth {X} (d : X) s b (l : seq X) : (0 < s)%N -> size l = (b * s)%N -> stride s l = Some [seq nth d l (k * s) | k <- iota 0 b].
Proof.
  move=> s0 sl; rewrite /stride (negPf (lt0n_neq0 s0)); congr Some.
  suff H : forall a, mask [seq (i %% s == 0)%N | i <- iota (a * s) (size l)] l = [seq nth d l (k * s) | k <- iota 0 b] by apply: (H 0%N).
  elim: b l sl => [|b IH] l sl a; first by case: l sl.
  rewrite -[in LHS](cat_take_drop s l) size_cat iotaD map_cat mask_cat; last by rewrite size_map size_iota.
  have st : size (take s l) = s by rewrite size_takel // sl leq_pmull.
  have sd : size (drop s l) = (b * s)%N by rewrite size_drop sl mulSn addKn.
  have -> : (a * s + size (take s l) = a.+1 * s)%N by rewrite st mulSn addnC.
  rewrite (IH _ sd a.+1) /= mul0n.
  have -> : [seq nth d (drop s l) (k * s) | k <- iota 0 b] = [seq nth d l (k * s) | k <- iota 1 b].
    rewrite (iotaDl 1 0) -map_comp; apply: eq_map => k /=; by rewrite nth_drop add1n mulSn.
  rewrite -cat1s; congr (_ ++ _).
  have s1 : (0 < size l)%N by rewrite sl muln_gt0 s0.
  case: s s0 st {sl sd IH} => // s _ st.
  case: l s1 st => // x l _ [st]; rewrite /= modnMl eqxx; congr (_ :: _).
  have -> : size (take s l) = s by [].
  have -> : [seq (i %% s.+1 == 0)%N | i <- iota (a * s.+1).+1 s] = nseq s false; last exact: mask_false.
  apply: (@eq_from_nth _ true) => [|i]; first by rewrite size_map size_iota size_nseq.
  rewrite size_map size_iota => si; rewrite (nth_map 0%N) ?size_iota // nth_iota // nth_nseq si addSnnS modnMDl modn_small //.
Qed.

Section Main.
Variables B steps : nat.
Hypothesis B0 : (0 < B)%N.
Hypothesis s0 : (0 < steps)%N.
Let dc : R := kT P / B%:R.
Let df : R := kT P / B%:R / steps%:R.

Section Fw.
Variables (zoh : bool) (x0 : 'cV[R]_n) (Ks : seq 'M[R]_(m, n)) (ds : seq 'cV[R]_m).
Hypothesis sK : size Ks = (B * steps)%N.
Hypothesis sd : size ds = (B * steps)%N.
Let Kf j := nth 0 Ks j.
Let dF j := nth 0 ds j.
Let Kc k := nth 0 Ks (k * steps).
Let dC k := nth 0 ds (k * steps).
Let stf := sf zoh df Kf dF.
Let stc := sf zoh dc Kc dC.
Let E := Efw stf steps x0.
Let f k x := en stf (k * steps) steps x.
Lemma fw_initE : initForwardPass P B x0 Ks ds zoh = Some (x0 :: csF stc B 0 x0).
Proof.
  rewrite /initForwardPass (negPf (lt0n_neq0 B0)) sK mulKn // (@stride_nth _ 0 _ B) // (@stride_nth _ 0 _ B) // 2!obindS.
  set Ks' := map _ _; set ds' := map _ _.
  have sK' : size Ks' = B by rewrite size_map size_iota.
  have sd' : size ds' = B by rewrite size_map size_iota.
  have -> : clqt_seqForwardPass P x0 Ks' ds' None None zoh = clqt_seqForwardPass P x0 Ks' ds' (Some dc) (Some 0) zoh.
    by rewrite /clqt_seqForwardPass /= sK' (negPf (lt0n_neq0 B0)).
  rewrite (@fwd_passE zoh dc Kc dC 0 0) ?sK' ?sd' ?mul0r // => [|k kB]; first by rewrite obindS csFE.
  by rewrite !(nth_map 0%N) ?size_iota // nth_iota // add0n.
Qed.
Lemma block_fwE k x : (k < B)%N -> block_fw P Ks ds zoh (k * steps) (k.+1 * steps) df ((k * steps)%:R * df) x =
  Some (map (uj Kf dF) (pl stf (k * steps) steps x), rcons [seq z.2 | z <- pl stf (k * steps) steps x] (f k x)).
Proof.
  move=> kB; rewrite /block_fw.
  have le : (k.+1 * steps <= B * steps)%N by rewrite leq_mul2r kB orbT.
  have sz : (k.+1 * steps - k * steps = steps)%N by rewrite mulSn addnK.
  have zK : size (slice (k * steps) (k.+1 * steps) Ks) = steps by rewrite slice_size ?sK.
  have zd : size (slice (k * steps) (k.+1 * steps) ds) = steps by rewrite slice_size ?sd.
  rewrite (@fwd_passE zoh df Kf dF _ (k * steps)) ?zK ?zd // => i si.
  by rewrite !nth_slice ?sz.
Qed.
Lemma fw_f k x : (k < B)%N -> block_fwN P Ks ds zoh (k * steps) (k.+1 * steps) df ((k * steps)%:R * df) x = Some (f k x).
Proof. by move=> kB; rewrite /block_fwN block_fwE // obindS final_run. Qed.
Lemma fw_g k x : (k < B)%N -> block_fwN P Ks ds zoh (k * steps) (k * steps + 1) dc (k%:R * dc) x = Some (stc k x).
Proof.
  move=> kB; rewrite /block_fwN /block_fw.
  have le : (k * steps + 1 <= B * steps)%N.
    by apply: leq_trans (_ : k.+1 * steps <= _)%N; [rewrite mulSn addnC leq_add2r | rewrite leq_mul2r kB orbT].
  have sz : (k * steps + 1 - k * steps = 1)%N by rewrite addKn.
  have zK : size (slice (k * steps) (k * steps + 1) Ks) = 1%N by rewrite slice_size ?sK.
  have zd : size (slice (k * steps) (k * steps + 1) ds) = 1%N by rewrite slice_size ?sd.
  rewrite (@fwd_passE zoh dc Kc dC _ k) ?zK ?zd // => i; case: i => // _.
  by rewrite !nth_slice ?sz // addn0 addn0.
Qed.
Definition Ifw (i : nat) (s : seq 'cV[R]_n * seq 'cV[R]_n) := exists cs gs, [/\ s = (x0 :: cs, x0 :: gs), size cs = B, inv_fw stc 0 x0 cs gs & ex_fw E i 0 (x0 :: cs)].
Lemma fw_dcE : div_nats (kT P) [:: B] = Some dc. Proof. by rewrite /= (negPf (lt0n_neq0 B0)). Qed.
Lemma fw_dfE : div_nats (kT P) [:: B; steps] = Some df. Proof. by rewrite /= (negPf (lt0n_neq0 B0)) (negPf (lt0n_neq0 s0)). Qed.
Lemma fw_iterE i s : Ifw i s ->
  exists s', (let? Fs := denseForwardPass P steps s.1 Ks ds zoh in coarseForwardPass P Fs s.2 Ks ds zoh) = Some s' /\ Ifw i.+1 s'.
Proof.
  move=> [cs [gs [-> sz Hi He]]]; rewrite [fst _]/= [snd _]/= /denseForwardPass [first _]/= obindS [size _]/= sz fw_dfE obindS.
  rewrite (dense_fwE fw_f) // obindS obindS /coarseForwardPass -[(size (x0 :: dfw f 0 x0 cs)).-1]/(size (dfw f 0 x0 cs)) size_dfw sz [first _]/= obindS fw_dcE obindS sK mulKn // [behead _]/= [behead _]/=.
  have [|cs' [gs' [-> Hi' s' Hx]]] := iter_fw fw_g (@Efw_fine _ stf B steps x0) (b := i) (k := 0) (x := x0) (x' := x0) (cs := cs) (gs := gs) sz Hi He.
    by [].
  by rewrite obindS; exists (x0 :: cs', x0 :: gs'); split=> //; exists cs', gs'; split=> //; rewrite s'.
Qed.
Lemma final_fwE k y c cs : (k + size cs = B)%N -> final_fw P steps df Ks ds zoh k (Some y) (c :: cs) =
  Some (map (uj Kf dF) (fpl stf steps k c cs), rcons [seq z.2 | z <- fpl stf steps k c cs] (fl stf steps k y c cs)).
Proof.
  elim: cs k y c => [|c' cs IH] k y c sk; first by [].
  rewrite -[final_fw _ _ _ _ _ _ _ _ _]/(let? '(bus, bxs) := block_fw P Ks ds zoh (k * steps) (k.+1 * steps) df ((k * steps)%:R * df) c in
          if (size bus < steps)%N then None
          else let? '(us, xs) := final_fw P steps df Ks ds zoh k.+1 (final bxs) (c' :: cs) in
            Some (take steps bus ++ us, take steps bxs ++ xs)).
  rewrite block_fwE; last by rewrite -sk /= addnS ltnS leq_addr.
  rewrite obindS size_map size_pl ltnn final_run IH; last by rewrite -sk addSnnS.
  rewrite obindS [fpl _ _ _ _ _]/= map_cat -cats1 take_oversize ?size_map ?size_pl // take_size_cat ?size_map ?size_pl //.
  by rewrite map_cat rcons_cat.
Qed.
Lemma final_fw0 c cs : (size cs = B)%N -> exists y, final_fw P steps df Ks ds zoh 0 None (c :: cs) = final_fw P steps df Ks ds zoh 0 (Some y) (c :: cs).
Proof. by move: B0; case: cs => [/=|c' cs] B1 sz; [rewrite -sz in B1 | exists 0]. Qed.
Lemma fw_seqE : clqt_seqForwardPass P x0 Ks ds None None zoh =
  Some (map (uj Kf dF) (pseq stf B steps x0 0), rcons [seq z.2 | z <- pseq stf B steps x0 0] (E B)).
Proof.
  have Ed : kT P / (B * steps)%:R = df by rewrite /df natrM invfM mulrA.
  have -> : clqt_seqForwardPass P x0 Ks ds None None zoh = clqt_seqForwardPass P x0 Ks ds (Some df) (Some 0) zoh.
    by rewrite /clqt_seqForwardPass /= sK muln_eq0 (negPf (lt0n_neq0 B0)) (negPf (lt0n_neq0 s0)) /= Ed.
  by rewrite (@fwd_passE zoh df Kf dF 0 0) ?sK ?sd ?mul0r // /pseq mul0n subn0 /Efw mul0n.
Qed.
Theorem para_forward_l niter : let k := or_else niter steps in exists us xs us' xs',
  [/\ para_forwardPass P B steps x0 Ks ds zoh niter = Some (us, xs),
      clqt_seqForwardPass P x0 Ks ds None None zoh = Some (us', xs'),
      size us = (B * steps)%N /\ size xs = (B * steps).+1,
      (let j := (k.+1 * steps)%N in take j us = take j us' /\ take j xs = take j xs') &
      ((B <= k.+1)%N -> us = us' /\ xs = xs')].
Proof.
  move=> k; rewrite fw_seqE /para_forwardPass fw_initE obindS -/k.
  have I0 : Ifw 0 (x0 :: csF stc B 0 x0, x0 :: csF stc B 0 x0).
    by do 2!eexists; split; [reflexivity | rewrite size_csF | apply: inv_fw_init | apply: ex_fw_init].
  have [s [-> [cs [gs [-> sz _ He]]]]] := iter_o_inv k fw_iterE I0.
  rewrite obindS /finalForwardPass [size _]/= sz fw_dfE obindS; rewrite add0n in He.
  have [y ->] := final_fw0 x0 sz; rewrite final_fwE //.
  have [Ht Hw] := take_fpl y (k := 0) sz He; rewrite subn0 in Ht.
  have sp : size (pseq stf B steps x0 0) = (B * steps)%N by rewrite size_pl subn0.
  do 4!eexists; split; [by [] | by [] | by rewrite ?size_rcons !size_map size_fpl sz | |].
    have Hm : forall (X : Type) (h : nat * 'cV[R]_n -> X), take (k.+1 * steps) (map h (fpl stf steps 0 x0 cs)) = take (k.+1 * steps) (map h (pseq stf B steps x0 0)).
      by move=> X h; rewrite -!map_take Ht.
    rewrite Hm; split=> //; case: (leqP B k.+1) => Bk.
      by have [|-> ->] := Hw Bk _; first by move=> c0; move: B0; rewrite -sz c0.
    have lt : (k.+1 * steps <= B * steps)%N by rewrite leq_mul2r ltnW ?orbT.
    by rewrite -!cats1 !takel_cat ?size_map ?size_fpl ?sz ?sp.
  by move=> Bk; have [|-> ->] := Hw Bk _; first by move=> c0; move: B0; rewrite -sz c0.
Qed.
End Fw.

Section Abc.
Hypothesis Upos : forall t, symm (kU P t) /\ pd (kU P t).
Local Notation abc := [zmodType of ('M[R]_n * 'cV[R]_n * 'M[R]_n)%type].
Variable x0 : 'cV[R]_n.
Definition sa (dt : R) (j : nat) (e : abc) : abc := odflt e (abc_step P dt (j%:R * dt) e).
Lemma saE dt j e : abc_step P dt (j%:R * dt) e = Some (sa dt j e).
Proof.
  rewrite /sa /abc_step (@rk4_ext R (matrix_lmodType R n (2 * n + 1)) _ (fun x t => Some (pack_abc (abc_rhs P t (kL P t *m (invmx (kU P t) *m (kL P t)^T)) (unpack_abc x))))).
    by rewrite rk4_total obindS; case: (unpack_abc _) => -[].
  by move=> z s; have [sU pU] := Upos s; rewrite /fwdbwdpass_ode_f ULT_pos.
Qed.
Lemma abc_loopE dt t0 l i j e : t0 + i%:R * dt = j%:R * dt ->
  abc_loop P dt t0 l i e = Some (rcons [seq z.2 | z <- pl (sa dt) j l e] (en (sa dt) j l e)).
Proof.
  elim: l i j e => [|l IH] i j e Et //.
  rewrite -[abc_loop _ _ _ _ _ _]/(let? e' := abc_step P dt (t0 + i%:R * dt) e in let? l := abc_loop P dt t0 l i.+1 e' in Some (e :: l)).
  by rewrite Et saE obindS (IH _ j.+1) // -addn1 natrD mulrDl addrA Et -mulrDl -natrD addn1.
Qed.
Let stf := sa df.
Let stc := sa dc.
Let e0 : abc := (0, x0, 0).
Let E := Efw stf steps e0.
Let f k x := en stf (k * steps) steps x.
Lemma abc_initE : initFwdBwdPass P B x0 = Some (e0 :: csF stc B 0 e0).
Proof. by rewrite /initFwdBwdPass fw_dcE obindS /clqt_seqFwdBwdPass /= (@abc_loopE _ _ _ _ 0) ?add0r // csFE. Qed.
Lemma block_abcE k e : block_abc P steps df ((k * steps)%:R * df) e = Some (rcons [seq z.2 | z <- pl stf (k * steps) steps e] (f k e)).
Proof. by case: e => -[A b] C; rewrite /block_abc /clqt_seqFwdBwdPass /= (@abc_loopE _ _ _ _ (k * steps)) // mul0r addr0. Qed.
Lemma abc_f k e : (k < B)%N -> block_abcN P steps df ((k * steps)%:R * df) e = Some (f k e).
Proof. by move=> _; rewrite /block_abcN block_abcE obindS final_run. Qed.
Lemma abc_g k e : (k < B)%N -> block_abcN P 1 dc (k%:R * dc) e = Some (stc k e).
Proof.
  move=> _; case: e => -[A b] C; rewrite /block_abcN /block_abc /clqt_seqFwdBwdPass [dt_or _ _ _]/= obindS (@abc_loopE _ _ _ _ k) ?mul0r ?addr0 //.
Qed.
Definition Iab (i : nat) (s : seq abc * seq abc) := exists cs gs, [/\ s = (e0 :: cs, e0 :: gs), size cs = B, inv_fw stc 0 e0 cs gs & ex_fw E i 0 (e0 :: cs)].
Lemma abc_iterE i s : Iab i s ->
  exists s', (let? Fs := denseFwdBwdPass P steps s.1 in coarseFwdBwdPass P Fs s.2) = Some s' /\ Iab i.+1 s'.
Proof.
  move=> [cs [gs [-> sz Hi He]]]; rewrite [fst _]/= [snd _]/= /denseFwdBwdPass [first _]/= obindS [size _]/= sz fw_dfE obindS.
  rewrite (dense_fwE abc_f) // obindS obindS /coarseFwdBwdPass -[(size (e0 :: dfw f 0 e0 cs)).-1]/(size (dfw f 0 e0 cs)) size_dfw sz [first _]/= obindS fw_dcE obindS [behead _]/= [behead _]/=.
  have [|cs' [gs' [-> Hi' s' Hx]]] := iter_fw abc_g (@Efw_fine _ stf B steps e0) (b := i) (k := 0) (x := e0) (x' := e0) (cs := cs) (gs := gs) sz Hi He.
    by [].
  by rewrite obindS; exists (e0 :: cs', e0 :: gs'); split=> //; exists cs', gs'; split=> //; rewrite s'.
Qed.
Lemma final_abcE k y c cs : (k + size cs = B)%N -> final_abc P steps df k (Some y) (c :: cs) =
  Some (rcons [seq z.2 | z <- fpl stf steps k c cs] (fl stf steps k y c cs)).
Proof.
  elim: cs k y c => [|c' cs IH] k y c sk; first by [].
  rewrite -[final_abc _ _ _ _ _ _]/(let? bes := block_abc P steps df ((k * steps)%:R * df) c in
          let? es := final_abc P steps df k.+1 (final bes) (c' :: cs) in Some (take steps bes ++ es)).
  rewrite block_abcE obindS final_run IH; last by rewrite -sk addSnnS.
  rewrite obindS [fpl _ _ _ _ _]/= -cats1 take_size_cat ?size_map ?size_pl //.
  by rewrite map_cat rcons_cat.
Qed.
Lemma final_abc0 c cs : (size cs = B)%N -> exists y, final_abc P steps df 0 None (c :: cs) = final_abc P steps df 0 (Some y) (c :: cs).
Proof. by move: B0; case: cs => [/=|c' cs] B1 sz; [rewrite -sz in B1 | exists e0]. Qed.
Lemma abc_seqE : clqt_seqFwdBwdPass P x0 (B * steps) None None None None None =
  Some (rcons [seq z.2 | z <- pseq stf B steps e0 0] (E B)).
Proof.
  have Ed : kT P / (B * steps)%:R = df by rewrite /df natrM invfM mulrA.
  rewrite /clqt_seqFwdBwdPass /= muln_eq0 (negPf (lt0n_neq0 B0)) (negPf (lt0n_neq0 s0)) /= Ed.
  by rewrite (@abc_loopE _ _ _ _ 0) ?add0r // /pseq mul0n subn0 /E /Efw mul0n.
Qed.
Theorem para_fwdbwd_l niter : let k := or_else niter steps in exists es es',
  [/\ para_fwdBwdPass P B steps x0 niter = Some es,
      clqt_seqFwdBwdPass P x0 (B * steps) None None None None None = Some es',
      size es = (B * steps).+1,
      (let j := (k.+1 * steps)%N in take j es = take j es') &
      ((B <= k.+1)%N -> es = es')].
Proof.
  move=> k; rewrite abc_seqE /para_fwdBwdPass abc_initE obindS -/k.
  have I0 : Iab 0 (e0 :: csF stc B 0 e0, e0 :: csF stc B 0 e0).
    by do 2!eexists; split; [reflexivity | rewrite size_csF | apply: inv_fw_init | apply: ex_fw_init].
  have [s [-> [cs [gs [-> sz _ He]]]]] := iter_o_inv k abc_iterE I0.
  rewrite obindS /finalFwdBwdPass [size _]/= sz fw_dfE obindS; rewrite add0n in He.
  have [y ->] := final_abc0 e0 sz; rewrite final_abcE //.
  have [Ht Hw] := take_fpl y (k := 0) sz He; rewrite subn0 in Ht.
  have sp : size (pseq stf B steps e0 0) = (B * steps)%N by rewrite size_pl subn0.
  do 2!eexists; split; [by [] | by [] | by rewrite ?size_rcons !size_map size_fpl sz | |].
    case: (leqP B k.+1) => Bk.
      by have [|-> ->] := Hw Bk _; first by move=> c0; move: B0; rewrite -sz c0.
    have lt : (k.+1 * steps <= B * steps)%N by rewrite leq_mul2r ltnW ?orbT.
    by rewrite -!cats1 !takel_cat ?size_map ?size_fpl ?sz ?sp // -!map_take Ht.
  by move=> Bk; have [|-> ->] := Hw Bk _; first by move=> c0; move: B0; rewrite -sz c0.
Qed.
End Abc.
End Main.
End F.
