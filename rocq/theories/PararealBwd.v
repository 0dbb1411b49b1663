(** The parareal backward pass against the sequential one. *)
From mathcomp Require Import all_ssreflect all_algebra.
From Verif Require Import ScanModel TfScan MxBase LqtModel LqtTfModel LqtCore Rk4Model Rk4Spec Rk4Proofs ClqtModel ClqtTfModel ClqtFwd2 ClqtTf2 ClqtHjb PararealModel PararealCore.
Import Order.TTheory GRing.Theory Num.Theory.
Set Implicit Arguments. Unset Strict Implicit. Unset Printing Implicit Defensive.
Local Open Scope ring_scope.

Section B.
Variable R : realFieldType.
Variables n m p pT : nat.
Variable P : clqt R n m p pT.
Local Notation Sv := [zmodType of ('M[R]_n * 'cV[R]_n)%type].
Hypothesis Upos : forall t, symm (kU P t) /\ pd (kU P t).
Definition ult (t : R) := invmx (kU P t) *m (kL P t)^T.
Lemma ultE t : ULT P t = Some (ult t). Proof. by rewrite ULT_pos //; case: (Upos t). Qed.

Section Grid.
Variable dt : R.
(** from place j + 1 of the grid to place j *)
Definition sb (j : nat) (x : Sv) : Sv := odflt x (bwd_step P dt 0 j x).
Lemma sbE t0 a k x : t0 = a%:R * dt -> bwd_step P dt t0 k x = Some (sb (a + k) x).
Proof.
  move=> ->; rewrite /sb /bwd_step add0r -addnS natrD mulrDl.
  rewrite (@rk4_ext R (matrix_lmodType R n (n + 1)) _ (fun x t => Some (pack_Sv (riccati_rhs P t (kL P t *m ult t) (unpack_Sv x))))).
    by rewrite rk4_total obindS; case: (unpack_Sv _).
  by move=> z s; rewrite /riccati_ode_f ultE obindS.
Qed.
Definition Kj (z : nat * Sv) : 'M[R]_(m, n) := ult (z.1%:R * dt) *m z.2.1.
Definition dj (z : nat * Sv) : 'cV[R]_m := ult (z.1%:R * dt) *m z.2.2.
Fixpoint st (a l : nat) (x : Sv) : Sv := if l is l'.+1 then st a l' (sb (a + l') x) else x.
Fixpoint el (a l : nat) (x : Sv) : seq (nat * Sv) :=
  if l is l'.+1 then let y := sb (a + l') x in rcons (el a l' y) ((a + l')%N, y) else [::].
Definition mk (e : seq (nat * Sv)) (x : Sv) : bwd_res R n m :=
  (map Kj e, map dj e, rcons [seq z.2.1 | z <- e] x.1, rcons [seq z.2.2 | z <- e] x.2).
Definition app (r s : bwd_res R n m) : bwd_res R n m :=
  let: (a, b, c, d) := r in let: (a', b', c', d') := s in (a ++ a', b ++ b', c ++ c', d ++ d').
Lemma size_el a l x : size (el a l x) = l. Proof. by elim: l x => //= l IH x; rewrite size_rcons IH. Qed.
Lemma el_add a l1 l2 x : el a (l1 + l2) x = el a l1 (st (a + l1) l2 x) ++ el (a + l1) l2 x.
Proof. elim: l2 x => [|l2 IH] x; first by rewrite addn0 cats0. by rewrite addnS /= IH addnA -cats1 -catA cats1. Qed.
Lemma st_add a l1 l2 x : st a (l1 + l2) x = st a l1 (st (a + l1) l2 x).
Proof. by elim: l2 x => [|l2 IH] x; rewrite ?addn0 // addnS /= IH addnA. Qed.
Lemma bwd_loopE t0 a l x Ks ds Ss vs : t0 = a%:R * dt ->
  bwd_loop P dt t0 l x (Ks, ds, Ss, vs) =
  let e := el a l x in Some (map Kj e ++ Ks, map dj e ++ ds, [seq z.2.1 | z <- e] ++ Ss, [seq z.2.2 | z <- e] ++ vs).
Proof.
  move=> Et; elim: l x Ks ds Ss vs => [|l IH] x Ks ds Ss vs //.
  rewrite -[bwd_loop _ _ _ _ _ _]/(let? Sv' := bwd_step P dt t0 l x in let? '(K, d) := bwd_gain P dt t0 l Sv' in
             bwd_loop P dt t0 l Sv' (K :: Ks, d :: ds, Sv'.1 :: Ss, Sv'.2 :: vs)).
  rewrite (sbE _ _ Et) obindS /bwd_gain ultE obindS IH /= -cats1 !map_cat /= -!catA /= /Kj /dj /=.
  by rewrite Et natrD mulrDl.
Qed.
Lemma passE t0 a l x : t0 = a%:R * dt ->
  clqt_seqBackwardPass P l (Some dt) (Some t0) (Some x.1) (Some x.2) = Some (mk (el a l x) x).
Proof. by case: x => Q v Et; rewrite /clqt_seqBackwardPass /= (bwd_loopE _ _ _ _ _ _ Et) /mk /= !cats1 !cats0. Qed.
Lemma block_bwE t0 a l x : t0 = a%:R * dt -> block_bw P l dt t0 x = Some (mk (el a l x) x).
Proof. exact: passE. Qed.
Lemma el_head a l x : el a l.+1 x = (a, st a l.+1 x) :: behead (el a l.+1 x).
Proof.
  elim: l x => [|l IH] x; first by rewrite /= addn0.
  by rewrite -[el a l.+2 x]/(rcons (el a l.+1 (sb (a + l.+1) x)) ((a + l.+1)%N, sb (a + l.+1) x)) IH /=.
Qed.
Lemma block_bw0E t0 a l x : t0 = a%:R * dt -> block_bw0 P l dt t0 x = Some (st a l x).
Proof.
  move=> Et; rewrite /block_bw0 (block_bwE _ _ Et) obindS /mk.
  by case: l => [|l]; [case: x | rewrite el_head /=; case: (st a l (sb (a + l) x))].
Qed.
End Grid.

Section Blocks.
Variables B steps : nat.
Hypothesis B0 : (0 < B)%N.
Hypothesis s0 : (0 < steps)%N.
Let dc : R := kT P / B%:R.
Let df : R := kT P / B%:R / steps%:R.
Let xT : Sv := (ST P, vT P).
Let f k x := st df (k * steps) steps x.
Let g k x := st dc k 1 x.
Definition Ebw (k : nat) : Sv := st df (k * steps) ((B - k) * steps) xT.
Let E := Ebw.
Lemma Ebw_fine k : (k < B)%N -> E k = f k (E k.+1).
Proof. by move=> kB; rewrite /E /Ebw /f -(subnSK kB) (mulSn (B - k.+1)) st_add (mulSn k) (addnC steps). Qed.
Lemma dcE : div_nats (kT P) [:: B] = Some dc. Proof. by rewrite /= (negPf (lt0n_neq0 B0)). Qed.
Lemma dfE : div_nats (kT P) [:: B; steps] = Some df. Proof. by rewrite /= (negPf (lt0n_neq0 B0)) (negPf (lt0n_neq0 s0)). Qed.
(** the boundary values of the initial pass *)
Fixpoint csI (l : nat) (k : nat) : seq Sv := if l is l'.+1 then st dc k l xT :: csI l' k.+1 else [:: xT].
Lemma csIE l k : csI l k = rcons [seq z.2 | z <- el dc k l xT] xT.
Proof.
  elim: l k => [|l IH] k //=; rewrite IH -[rcons (el _ _ _ _) _]/(el dc k l.+1 xT) -[l.+1]/(1 + l)%N el_add /= addn0 addn1.
  congr (_ :: _).
  have -> : st dc k l (sb dc (k + l) xT) = st dc k (1 + l) xT by [].
  by rewrite st_add /= addn0 addn1.
Qed.
Lemma initE : initBackwardPass P B = Some (csI B 0).
Proof.
  rewrite /initBackwardPass dcE obindS.
  have -> : clqt_seqBackwardPass P B (Some dc) None None None = clqt_seqBackwardPass P B (Some dc) (Some 0) (Some xT.1) (Some xT.2) by [].
  rewrite (@passE dc 0 0) ?mul0r // obindS csIE; congr Some.
  by rewrite /mk; elim: (el _ _ _ _) => [|z e IH] //=; rewrite IH; case: (z.2).
Qed.
Lemma inv_init l k : inv_bw g k (csI l k) (csI l k).
Proof.
  elim: l k => [|l IH] k //.
  have -> : csI l.+1 k = st dc k l.+1 xT :: csI l k.+1 by [].
  have : exists t, csI l k.+1 = st dc k.+1 l xT :: t by case: l {IH} => [|l]; eexists.
  move=> [t Et]; move: (IH k.+1); rewrite Et => H; split=> //.
  by rewrite /g -[l.+1]/(1 + l)%N st_add addn1.
Qed.
Lemma size_csI l k : size (csI l k) = l.+1. Proof. by elim: l k => //= l IH k; rewrite IH. Qed.
Lemma ex_init l k : (k + l = B)%N -> ex_bw E B k (csI l k).
Proof.
  elim: l k => [|l IH] k Ekl.
    by split=> // _; rewrite /E /Ebw -Ekl addn0 subnn mul0n.
  split; last by apply: IH; rewrite -Ekl addSnnS.
  by move=> [|Bk]; [case: l {IH Ekl} | move: Bk; rewrite -Ekl leqNgt addnS ltnS leq_addr].
Qed.
Lemma ex_mono b b' k cs : (b <= b')%N -> ex_bw E b k cs -> ex_bw E b' k cs.
Proof.
  by move=> bb; elim: cs k => // c cs IH k [H1 H2]; split; [move=> [H|H]; apply: H1; [left | right; apply: leq_trans H] | apply: IH].
Qed.
Definition Ibw (i : nat) (s : seq Sv * seq Sv) := [/\ size s.1 = B.+1, inv_bw g 0 s.1 s.2 & ex_bw E (B - i) 0 s.1].
Lemma block_f k x : block_bw0 P steps df ((k * steps)%:R * df) x = Some (f k x).
Proof. exact: block_bw0E. Qed.
Lemma block_g k x : block_bw0 P 1 dc (k%:R * dc) x = Some (g k x).
Proof. exact: block_bw0E. Qed.
Lemma iterE i s : Ibw i s -> exists s', (let? Fs := denseBackwardPass P steps s.1 in coarseBackwardPass P Fs s.2) = Some s' /\ Ibw i.+1 s'.
Proof.
  case: s => cs gs [/= s1 Hi He].
  have ne : cs <> [::] by case: cs s1 {Hi He}.
  rewrite /denseBackwardPass s1 dfE obindS (dense_bwE block_f) // obindS /coarseBackwardPass size_dbw s1 dcE obindS.
  have He' : ex_bw E (B - i.+1).+1 0 cs by apply: ex_mono He; rewrite subnS; apply: leqSpred.
  have [cs' [gs' [-> Hi' s' Hx]]] := iter_bw block_g Ebw_fine (b := B - i.+1) (k := 0) (cs := cs) (gs := gs) s1 Hi He'.
  by exists (cs', gs'); split=> //; split=> //=; rewrite s'.
Qed.
Fixpoint fel (k : nat) (cs : seq Sv) : seq (nat * Sv) :=
  if cs is _ :: cs' then if cs' is c' :: _ then el df (k * steps) steps c' ++ fel k.+1 cs' else [::] else [::].
Lemma take_mk l a x (y : 'M[R]_n) : take l (rcons [seq z.2.1 | z <- el df a l x] y) = [seq z.2.1 | z <- el df a l x].
Proof. by rewrite -cats1 take_size_cat // size_map size_el. Qed.
Lemma final_bwE k c cs : final_bw P steps df k (c :: cs) = Some (mk df (fel k (c :: cs)) (last c cs)).
Proof.
  elim: cs k c => [|c' cs IH] k c; first by [].
  rewrite -[final_bw _ _ _ _ _]/(let? '(bKs, bds, bSs, bvs) := block_bw P steps df ((k * steps)%:R * df) c' in
          let? '(Ks, ds, Ss, vs) := final_bw P steps df k.+1 (c' :: cs) in
          Some (take steps bKs ++ Ks, take steps bds ++ ds, take steps bSs ++ Ss, take steps bvs ++ vs)).
  rewrite IH (@block_bwE _ _ (k * steps)) // !obindS /mk -[fel k _]/(el df (k * steps) steps c' ++ fel k.+1 (c' :: cs)).
  rewrite -!cats1 !map_cat -!catA !take_size_cat ?size_map ?size_el // !take_oversize ?size_map ?size_el //.
Qed.
(** block by block, the sequential result *)
Definition eseq (k : nat) := el df (k * steps) ((B - k) * steps) xT.
Lemma eseqS k : (k < B)%N -> eseq k = el df (k * steps) steps (E k.+1) ++ eseq k.+1.
Proof. by move=> kB; rewrite /eseq /E /Ebw -(subnSK kB) (mulSn (B - k.+1)) el_add (mulSn k) (addnC steps). Qed.
Lemma drop_el c (cs : seq Sv) b k : (k + size cs = B)%N -> ex_bw E b.+1 k (c :: cs) ->
  drop ((b - k) * steps) (fel k (c :: cs)) = drop ((b - k) * steps) (eseq k) /\ last c cs = xT.
Proof.
  elim: cs k c => [|c' cs IH] k c sk.
    move=> [H _]; rewrite addn0 in sk; split; first by rewrite /eseq sk subnn.
    by rewrite /= H; [rewrite /E /Ebw sk subnn | left].
  move=> [H He]; have sk1 : (k.+1 + size cs = B)%N by rewrite -sk addSnnS.
  have kB : (k < B)%N by rewrite -sk1 leq_addr.
  have [Hd Hl] := IH k.+1 c' sk1 He; split; last by rewrite -Hl.
  have -> : fel k [:: c, c' & cs] = el df (k * steps) steps c' ++ fel k.+1 (c' :: cs) by [].
  rewrite eseqS //; case: (ltnP k b) => kb.
    rewrite -(subnSK kb) mulSn.
    have E2 : forall x (l : seq (nat * Sv)), drop (steps + (b - k.+1) * steps) (el df (k * steps) steps x ++ l) = drop ((b - k.+1) * steps) l.
      by move=> x l; rewrite addnC -drop_drop drop_size_cat ?size_el.
    by rewrite !E2.
  have b0 : (b - k.+1 = 0)%N by apply/eqP; rewrite subn_eq0; apply: leqW.
  move: Hd; rewrite b0 mul0n !drop0 => ->.
  by rewrite (ex_bw_head He).
Qed.
(** the sequential pass on the fine grid *)
Lemma seqE : clqt_seqBackwardPass P (B * steps) None None None None = Some (mk df (eseq 0) xT).
Proof.
  have Ed : kT P / (B * steps)%:R = df by rewrite /df natrM invfM mulrA.
  have -> : clqt_seqBackwardPass P (B * steps) None None None None = clqt_seqBackwardPass P (B * steps) (Some df) (Some 0) (Some xT.1) (Some xT.2).
    rewrite /clqt_seqBackwardPass /=; case: eqP => [|_]; last by rewrite Ed.
    by move/eqP; rewrite muln_eq0 -leqn0 leqNgt B0 -leqn0 leqNgt s0.
  by rewrite (@passE df 0 0) ?mul0r // /eseq mul0n subn0.
Qed.
Theorem para_backward_l niter : let k := or_else niter steps in exists Ks ds Ss vs Ks' ds' Ss' vs',
  [/\ para_backwardPass P B steps niter = Some (Ks, ds, Ss, vs),
      clqt_seqBackwardPass P (B * steps) None None None None = Some (Ks', ds', Ss', vs'),
      [/\ size Ks = (B * steps)%N, size ds = (B * steps)%N, size Ss = (B * steps).+1 & size vs = (B * steps).+1] &
      let j := ((B - k.+1) * steps)%N in
      [/\ drop j Ks = drop j Ks', drop j ds = drop j ds', drop j Ss = drop j Ss' & drop j vs = drop j vs']].
Proof.
  move=> k; rewrite seqE /para_backwardPass initE obindS -/k.
  have I0 : Ibw 0 (csI B 0, csI B 0).
    by split=> /=; [rewrite size_csI | apply: inv_init | rewrite subn0; apply: ex_init].
  have [[cs gs] [-> [s1 _ He]]] := iter_o_inv k iterE I0.
  rewrite obindS /finalBackwardPass s1 dfE obindS add0n in He *.
  case: cs s1 He => // c cs [s1] He; rewrite final_bwE.
  have He' : ex_bw E (B - k.+1).+1 0 (c :: cs) by apply: ex_mono He; rewrite subnS; apply: leqSpred.
  have [Hd ->] := @drop_el c cs _ 0 s1 He'; rewrite subn0 in Hd.
  have sf : size (fel 0 (c :: cs)) = (B * steps)%N.
    rewrite -s1; suff H : forall l j (c0 : Sv), size (fel j (c0 :: l)) = (size l * steps)%N by [].
    elim=> // c1 l IH j c0.
    by rewrite -[fel _ _]/(el df (j * steps) steps c1 ++ fel j.+1 (c1 :: l)) size_cat IH size_el.
  have se : size (eseq 0) = (B * steps)%N by rewrite size_el subn0.
  have lej : ((B - k.+1) * steps <= B * steps)%N by rewrite leq_mul2r leq_subr orbT.
  do 8!eexists; split; [by [] | by [] | by split; rewrite ?size_rcons size_map sf |].
  have Hm : forall (X : Type) (h : nat * Sv -> X), drop ((B - k.+1) * steps) (map h (fel 0 (c :: cs))) = drop ((B - k.+1) * steps) (map h (eseq 0)).
    by move=> X h; rewrite -!map_drop Hd.
  by split; rewrite ?drop_rcons ?size_map ?sf ?se // Hm.
Qed.
End Blocks.
End B.
