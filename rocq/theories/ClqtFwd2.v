(** The parallel forward pass of the continuous-time tracker equals the sequential one. *)
From Coq Require Import Ring Field.
From mathcomp Require Import all_ssreflect all_algebra zify.
From Verif Require Import ScanModel ScanSpec ScanProofs ScanUse MxBase LqtModel LqtCore LqtElem LqtMore LinComb Rk4Model Rk4Spec Rk4Proofs ClqtModel ClqtPack ClqtFwd.
Import Order.TTheory GRing.Theory Num.Theory.
Set Implicit Arguments. Unset Strict Implicit. Unset Printing Implicit Defensive.
Local Open Scope ring_scope.

Local Arguments rk4_xt : simpl never.
Local Arguments rk4_xtp : simpl never.
Local Arguments psi_step : simpl never.

Lemma nthe {X} (x0 : X) (l : seq X) i : (i < size l)%N -> List.nth_error l i = Some (nth x0 l i).
Proof. by elim: l i => [|y l IH] [|i] //= h; apply: IH. Qed.
Lemma nthe_none {X} (l : seq X) i : (size l <= i)%N -> List.nth_error l i = None.
Proof. by elim: l i => [|y l IH] [|i] //= h; apply: IH. Qed.

Lemma for_cons {X} i l (body : nat -> X -> option X) s :
  for_ (i :: l) body s = match body i s with None => None | Some s' => for_ l body s' end.
Proof. by []. Qed.

Lemma for_step {X} i l (body : nat -> X -> option X) s s' : body i s = Some s' -> for_ (i :: l) body s = for_ l body s'.
Proof. by move=> /= ->. Qed.
Lemma obindS {X Y} (f : X -> option Y) x : obind f (Some x) = f x.
Proof. by []. Qed.

Section Fwd.
Variable R : realFieldType.
Variables n m p pT : nat.
Variable P : clqt R n m p pT.
Add Ring Rr : (mc_ring R).
Add Field Rf : (mc_field R).
Variables (Ks : seq 'M[R]_(m, n)) (ds : seq 'cV[R]_m) (dt t0 : R).

(** step number j of the closed loop *)
Definition cs (j : nat) (x : 'cV[R]_n) : 'cV[R]_n := cstep P dt (t0 + j%:R * dt) (nth 0 Ks j) (nth 0 ds j) x.
Fixpoint run (l j : nat) (x : 'cV[R]_n) : 'cV[R]_n := if l is l'.+1 then run l' j.+1 (cs j x) else x.
Lemma run_last l j x : run l.+1 j x = cs (j + l) (run l j x).
Proof. by elim: l j x => [|l IH] j x; [rewrite addn0|rewrite -[LHS]/(run l.+1 j.+1 (cs j x)) IH addSnnS]. Qed.
Lemma run_add a b j x : run (a + b) j x = run b (j + a) (run a j x).
Proof. by elim: a j x => [|a IH] j x; [rewrite addn0|rewrite /= IH addSnnS]. Qed.
Fixpoint ulist (l j : nat) (x : 'cV[R]_n) : seq 'cV[R]_m :=
  if l is l'.+1 then (- nth 0 Ks j *m x + nth 0 ds j) :: ulist l' j.+1 (cs j x) else [::].
Fixpoint xlist (l j : nat) (x : 'cV[R]_n) : seq 'cV[R]_n := if l is l'.+1 then cs j x :: xlist l' j.+1 (cs j x) else [::].
Lemma size_ulist l j x : size (ulist l j x) = l. Proof. by elim: l j x => //= l IH j x; rewrite IH. Qed.
Lemma size_xlist l j x : size (xlist l j x) = l. Proof. by elim: l j x => //= l IH j x; rewrite IH. Qed.
Lemma ulist_add a b j x : ulist (a + b) j x = ulist a j x ++ ulist b (j + a) (run a j x).
Proof. by elim: a j x => [|a IH] j x; [rewrite addn0|rewrite /= IH addSnnS]. Qed.
Lemma xlist_add a b j x : xlist (a + b) j x = xlist a j x ++ xlist b (j + a) (run a j x).
Proof. by elim: a j x => [|a IH] j x; [rewrite addn0|rewrite /= IH addSnnS]. Qed.

(** the sequential loop on a slice of the gains *)
Lemma fwd_loop_cons t0' K Ks' d ds' i x :
  fwd_loop P dt t0' false (K :: Ks') (d :: ds') i x =
  let? '(us, xs) := fwd_loop P dt t0' false Ks' ds' i.+1 (cstep P dt (t0' + i%:R * dt) K d x) in
  Some ((- K *m x + d) :: us, cstep P dt (t0' + i%:R * dt) K d x :: xs).
Proof. by rewrite [LHS]/fwd_loop cstepE. Qed.
Lemma fwd_loopE Ks' ds' t0' i j x :
  (size Ks' <= size ds')%N ->
  (forall k, (k < size Ks')%N -> nth 0 Ks' k = nth 0 Ks (j + k) /\ nth 0 ds' k = nth 0 ds (j + k)) ->
  t0' + i%:R * dt = t0 + j%:R * dt ->
  fwd_loop P dt t0' false Ks' ds' i x = Some (ulist (size Ks') j x, xlist (size Ks') j x).
Proof.
elim: Ks' ds' i j x => [|K Ks' IH] [|d ds'] i j x // sz H ht.
have [k0 d0] := H 0%N isT; rewrite addn0 in k0 d0; rewrite -[nth 0 (K :: Ks') 0]/K -[nth 0 (d :: ds') 0]/d in k0 d0; rewrite fwd_loop_cons.
have -> : cstep P dt (t0' + i%:R * dt) K d x = cs j x by rewrite /cs -k0 -d0 ht.
rewrite (IH _ _ j.+1) //= ?k0 ?d0 //; first by move=> k lt; have := H k.+1 lt; rewrite /= addSnnS.
by rewrite -[i.+1]addn1 -[j.+1]addn1 !natrD !mulrDl !addrA ht.
Qed.
Lemma fwd_loop_none Ks' ds' t0' i x : (size ds' < size Ks')%N -> fwd_loop P dt t0' false Ks' ds' i x = None.
Proof. by elim: Ks' ds' i x => [|K Ks' IH] [|d ds'] i x // sz; rewrite fwd_loop_cons IH. Qed.

(** affine maps *)
Definition act (e : 'M[R]_n * 'cV[R]_n) (z : 'cV[R]_n) := e.1 *m z + e.2.
Lemma act1 z : act (1%:M, 0) z = z. Proof. by rewrite /act mul1mx addr0. Qed.
Lemma act_fc e f z : act (combine_fc e f) z = act f (act e z).
Proof. by case: e f => A b [C d]; rewrite /act /combine_fc /= mulmxDr mulmxA addrA. Qed.
Lemma act0 e : act e 0 = e.2. Proof. by rewrite /act mulmx0 add0r. Qed.
Lemma act_ext e f : (forall z, act e z = act f z) -> e = f.
Proof.
case: e f => A b [C d] H; have bd : b = d by move: (H 0); rewrite !act0.
congr pair => //; apply/matrixP => i j; have := H (delta_mx j 0); rewrite /act /= bd => /addIr.
by move=> /matrixP /(_ i 0); rewrite -!colE !mxE.
Qed.

(** block elements *)
Definition inb k steps := (k * steps + steps <= size Ks)%N && (k * steps + steps <= size ds)%N.
Lemma nat_time (j : nat) : t0 + (j + 1)%:R * dt = t0 + j%:R * dt + dt.
Proof. by rewrite natrD mulrDl mul1r addrA. Qed.
Lemma ksP (a : nat) : (a < size Ks)%N -> List.nth_error Ks a = Some (nth 0 Ks a). Proof. exact: nthe. Qed.
Lemma dsP (a : nat) : (a < size ds)%N -> List.nth_error ds a = Some (nth 0 ds a). Proof. exact: nthe. Qed.

Lemma fw_blockE k steps l i e : inb k steps -> (i + l <= steps)%N ->
  exists e', for_ (iota i l) (fun i e =>
      let? K := List.nth_error Ks (k * steps + i) in let? d := List.nth_error ds (k * steps + i) in
      psi_step (fwpass_fw_ode_f P) dt (t0 + (k * steps + i)%:R * dt) (K, d) e) e = Some e' /\
    forall z, act e' z = run l (k * steps + i) (act e z).
Proof.
move=> /andP [h1 h2]; elim: l i e => [|l IH] i e le; first by exists e.
have lt : (k * steps + i < k * steps + steps)%N by lia.
have [e1 [E1 A1]] : exists e1, psi_step (fwpass_fw_ode_f P) dt (t0 + (k * steps + i)%:R * dt)
    (nth 0 Ks (k * steps + i), nth 0 ds (k * steps + i)) e = Some e1 /\ forall z, act e1 z = cs (k * steps + i) (act e z).
  exact: fw_stepE.
have [|e' [E' A']] := IH i.+1 e1; first by lia.
rewrite -[iota i l.+1]/(i :: iota i.+1 l) (@for_step _ _ _ _ _ e1); last first.
  by rewrite (ksP (leq_trans lt h1)) (dsP (leq_trans lt h2)); cbv [obind Option.bind oapp Option.apply].
rewrite E'.
by exists e'; split => // z; rewrite A' A1 addnS.
Qed.
Lemma bw_blockE k steps l e : inb k steps -> (l <= steps)%N ->
  exists e', for_ (rev (iota 0 l)) (fun i e =>
      let? K := List.nth_error Ks (k * steps + i) in let? d := List.nth_error ds (k * steps + i) in
      psi_step (fwpass_bw_ode_f P) (- dt) (t0 + (k * steps + i + 1)%:R * dt) (K, d) e) e = Some e' /\
    forall z, act e' z = act e (run l (k * steps) z).
Proof.
move=> /andP [h1 h2]; elim: l e => [|l IH] e le; first by exists e.
have lt : (k * steps + l < k * steps + steps)%N by lia.
have [e1 [E1 A1]] : exists e1, psi_step (fwpass_bw_ode_f P) (- dt) (t0 + (k * steps + l + 1)%:R * dt)
    (nth 0 Ks (k * steps + l), nth 0 ds (k * steps + l)) e = Some e1 /\ forall z, act e1 z = act e (cs (k * steps + l) z).
  rewrite nat_time.
  exact: bw_stepE.
have [|e' [E' A']] := IH e1; first by lia.
have ri : rev (iota 0 l.+1) = l :: rev (iota 0 l) by rewrite -{1}[l.+1]addn1 iotaD rev_cat add0n.
rewrite ri (@for_step _ _ _ _ _ e1); last first.
  by rewrite (ksP (leq_trans lt h1)) (dsP (leq_trans lt h2)); cbv [obind Option.bind oapp Option.apply].
rewrite E'.
by exists e'; split => // z; rewrite A' A1 run_last.
Qed.
Lemma block_psiE steps forward k : inb k steps -> exists e, block_psi P dt t0 Ks ds steps forward k = Some e /\
  forall z, act e z = run steps (k * steps) z.
Proof.
move=> h; rewrite /block_psi; case: forward.
  have [//|e [-> A]] := @fw_blockE k steps steps 0 (1%:M, 0) h; exists e; split => // z.
  by rewrite A addn0 act1.
by have [//|e [-> A]] := @bw_blockE k steps steps (1%:M, 0) h; exists e; split => // z; rewrite A act1.
Qed.

Lemma block_none steps forward k : (k * steps + steps <= size Ks)%N -> ~~ (k * steps + steps <= size ds)%N ->
  block_psi P dt t0 Ks ds steps forward k = None.
Proof.
move=> hK hd; rewrite /block_psi.
have H ode (g : nat -> R) h l e : (exists2 i, i \in l & (size ds <= k * steps + i)%N) ->
  for_ l (fun i e => let? K := List.nth_error Ks (k * steps + i) in let? d := List.nth_error ds (k * steps + i) in
      psi_step (m := m) ode h (g i) (K, d) e) e = None.
  elim: l e => [|i l IH] e [j]; first by [].
  rewrite inE for_cons => /orP [/eqP -> hj|jl hj].
    by rewrite (nthe_none hj); case: (List.nth_error Ks _).
  case: (obind _ _) => [e'|]; last by [].
  by apply: IH; exists j.
have ex : exists2 i, i \in iota 0 steps & (size ds <= k * steps + i)%N.
  by exists (size ds - k * steps)%N; rewrite ?mem_iota; lia.
case: forward; first exact: (H _ (fun i => t0 + (k * steps + i)%:R * dt)).
apply: (H _ (fun i => t0 + (k * steps + i + 1)%:R * dt)).
by case: ex => i il hi; exists i; rewrite ?mem_rev.
Qed.

Lemma take_run l j x : take l (x :: xlist l j x) ++ [:: run l j x] = x :: xlist l j x.
Proof. by elim: l j x => // l IH j x; rewrite -[in RHS]/(x :: xlist l.+1 j x) /= IH. Qed.

Lemma nth_slice {X} (x0 : X) a b l i : (i < b - a)%N -> nth x0 (slice a b l) i = nth x0 l (a + i).
Proof. by move=> h; rewrite /slice nth_take // nth_drop. Qed.
Lemma slice_size {X} (a b : nat) (l : seq X) : (b <= size l)%N -> size (slice a b l) = (b - a)%N.
Proof. by move=> h; rewrite /slice size_takel // size_drop leq_sub2r. Qed.

Notation fcop := (fun x y : 'M[R]_n * 'cV[R]_n => Some (combine_fc x y)).
Lemma par_loopE steps B k e :
  (forall i, (i < size B)%N -> inb (k + i) steps /\ forall z, act (nth (0, 0) B i) z = run steps ((k + i) * steps) z) ->
  exists r, [/\ scanl_o fcop e B = Some (e :: r), size r = size B &
  par_fwd_loop P dt t0 false steps k Ks ds (e :: r) =
    Some (ulist (size B * steps) (k * steps) e.2, e.2 :: xlist (size B * steps) (k * steps) e.2)].
Proof.
elim: B k e => [|b B IH] k e H; first by exists [::].
have [ib ab] := H 0%N isT; rewrite addn0 /= in ib ab.
have [i lt|r [E1 sr E2]] := IH k.+1 (combine_fc e b).
  by have := H i.+1 lt; rewrite addnS.
exists (combine_fc e b :: r); split; [by rewrite /= E1 | by rewrite /= sr |].
move/andP: ib => [hK hd].
have sq : clqt_seqForwardPass P e.2 (slice (k * steps) ((k + 1) * steps) Ks) (slice (k * steps) ((k + 1) * steps) ds)
    (Some dt) (Some (t0 + k%:R * steps%:R * dt)) false = Some (ulist steps (k * steps) e.2, e.2 :: xlist steps (k * steps) e.2).
  have e1 : ((k + 1) * steps = k * steps + steps)%N by rewrite mulnDl mul1n.
  have szK : size (slice (k * steps) ((k + 1) * steps) Ks) = steps by rewrite slice_size e1 ?addKn.
  rewrite /clqt_seqForwardPass obindS (@fwd_loopE _ _ _ _ (k * steps)) ?szK //.
  - by rewrite slice_size e1 ?addKn.
  - by move=> i lt; rewrite !nth_slice // e1 addKn.
  - by rewrite mul0r addr0 natrM.
rewrite -[LHS]/(let? '(bus, bxs) := clqt_seqForwardPass P e.2 (slice (k * steps) ((k + 1) * steps) Ks) (slice (k * steps) ((k + 1) * steps) ds)
    (Some dt) (Some (t0 + k%:R * steps%:R * dt)) false in
  let? '(us, xs) := par_fwd_loop P dt t0 false steps k.+1 Ks ds (combine_fc e b :: r) in
  Some (bus ++ us, take (size bus) bxs ++ xs)) sq obindS E2 obindS size_ulist.
have -> : (combine_fc e b).2 = run steps (k * steps) e.2 by rewrite -act0 act_fc act0 ab.
have -> : ((size (b :: B)) * steps = steps + size B * steps)%N by rewrite -mulSn.
rewrite mulSnr ulist_add xlist_add; congr Some; congr pair.
by rewrite -[_ :: xlist _ (_ + _) _]cat1s catA take_run.
Qed.

Lemma omap_seq_some {X Y} (f : X -> option Y) (l : seq X) : (forall x, List.In x l -> f x <> None) ->
  exists r, [/\ omap_seq f l = Some r, size r = size l & forall x0 y0 i, (i < size l)%N -> f (nth x0 l i) = Some (nth y0 r i)].
Proof.
elim: l => [|x l IH] H; first by exists [::].
case: IH => [y yl|r [E1 sz E2]]; first by apply: H; right.
case e: (f x) => [y|]; last by case: (H x) => //; left.
by exists (y :: r); rewrite /= e E1 /= sz; split => // x0 y0 [|i] // lt; exact: E2.
Qed.
Lemma omap_seq_none {X Y} (f : X -> option Y) (l : seq X) x : List.In x l -> f x = None -> omap_seq f l = None.
Proof.
elim: l => //= y l IH [-> -> //|xl fx]; case: (f y) => //= z.
by rewrite IH.
Qed.
End Fwd.

Section Main.
Variable R : realFieldType.
Variables n m p pT : nat.
Variable P : clqt R n m p pT.

Lemma in_mem_iota a l i : List.In i (iota a l) <-> (a <= i < a + l)%N.
Proof.
elim: l a => [|l IH] a /=; first by split=> //; lia.
by rewrite IH; lia.
Qed.

Lemma dt_same dt (blocks steps : nat) :
  dt_or P dt [:: steps; blocks] = dt_or P dt [:: (blocks * steps)%N].
Proof.
case: dt => [//|] /=; case: steps => [|s]; first by rewrite muln0.
case: blocks => [|b] /=; first by [].
by rewrite natrM invfM mulrA mulrAC.
Qed.

Theorem par_forward_eq_l x0 Ks ds blocks steps dt t0 forward : (blocks * steps = size Ks)%N ->
  clqt_parForwardPass P x0 Ks ds blocks steps dt t0 forward false = clqt_seqForwardPass P x0 Ks ds dt t0 false.
Proof.
move=> sz; rewrite /clqt_parForwardPass /clqt_seqForwardPass dt_same sz.
case: (dt_or P dt _) => [h|//]; rewrite !obindS /clqt_parForwardPass_init sz eqxx /=.
set t := or_else t0 0.
have le k : (k < blocks)%N -> (k * steps + steps <= size Ks)%N by move=> lt; rewrite -mulSnr -sz leq_mul2r lt orbT.
case: (leqP (size Ks) (size ds)) => hd.
  have bl k : (k < blocks)%N -> inb Ks ds k steps by move=> lt; rewrite /inb le // (leq_trans (le k lt) hd).
  case: (@omap_seq_some _ _ (block_psi P h t Ks ds steps forward) (iota 0 blocks)) => [k /in_mem_iota /andP [_ lt]|B [-> sB HB]].
    by have [e [->]] := block_psiE P h t forward (bl k lt).
  rewrite 2!obindS fc_scan; rewrite size_iota in sB HB.
  have [i|r [E1 sr E2]] := @par_loopE _ _ _ _ _ P Ks ds h t steps B 0 (1%:M, x0).
    rewrite sB add0n => lt; split; first exact: bl.
    have [e [E A]] := block_psiE P h t forward (bl i lt).
    by have := HB 0%N (0, 0) i lt; rewrite nth_iota // add0n E => -[<-].
  rewrite E1 obindS /clqt_parForwardPass_extract -[(size (_ :: r)).-1]/(size r) sr sB sz eqxx E2 sB sz mul0n.
  by rewrite (@fwd_loopE _ _ _ _ _ P Ks ds h t _ _ _ _ 0).
rewrite (fwd_loop_none P h t 0 x0 hd).
have [b bl] : exists b, blocks = b.+1 by case: (blocks) sz hd => [|b]; [rewrite mul0n => <-|exists b].
rewrite (@omap_seq_none _ _ _ _ b) //; first by apply/in_mem_iota; rewrite bl ltnSn.
apply: block_none; first by rewrite le // bl.
by rewrite -ltnNge -mulSnr -bl sz.
Qed.
Theorem par_forward_size_l x0 Ks ds blocks steps dt t0 forward zoh : (blocks * steps <> size Ks)%N ->
  clqt_parForwardPass P x0 Ks ds blocks steps dt t0 forward zoh = None.
Proof.
by move=> /eqP/negbTE sz; rewrite /clqt_parForwardPass; case: (dt_or _ _ _) => //= h; rewrite /clqt_parForwardPass_init sz.
Qed.
End Main.
