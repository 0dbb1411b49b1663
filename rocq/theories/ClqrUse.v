(** What the regulator's Runge-Kutta passes inherit from the tracker's, and what their steps are. *)
From mathcomp Require Import all_ssreflect all_algebra zify.
From Verif Require Import ScanModel MxBase LqtModel LqtCore LqtElem LqtMore LinComb Rk4Model Rk4Spec Rk4Proofs ClqtModel ClqtPack ClqtFwd ClqtFwd2 ClqtSpec ClqtBwd ClqtVal ClqtTfModel ClqtTf ClqtTf2 ClqtTf3 ClqtTf4 ClqtHjb ClqrModel ClqrSpec ClqrProofs ClqrPar.
Import Order.TTheory GRing.Theory Num.Theory.
Set Implicit Arguments. Unset Strict Implicit. Unset Printing Implicit Defensive.
Local Open Scope ring_scope.
Local Arguments rk4_x : simpl never.

Section Use.
Variable R : realFieldType.
Variable expm : forall n, 'M[R]_n -> 'M[R]_n.
Variables n m : nat.
Variable q : clqr R n m.
Local Notation T := (tracker q).
Local Notation Mn := (matrix_lmodType R n n).

Theorem reg_par_forward x0 Ks blocks steps :
  ((blocks * steps)%N = size Ks ->
     clqr_parForwardPass expm q x0 Ks blocks steps Rk4 Rk4 false = clqr_seqForwardPass expm q x0 Ks None Rk4 false) /\
  ((blocks * steps)%N <> size Ks -> clqr_parForwardPass expm q x0 Ks blocks steps Rk4 Rk4 false = None).
Proof.
rewrite -par_forward_tracker -(seq_forward_tracker _ _ _ _ _ None).
exact: (C43_np_l T x0 Ks (nseq (size Ks) 0) blocks steps None None true).
Qed.

(** ** sequential backward pass *)
Lemma qbwdS ult dt k Q acc : qbwd_rk4 q ult dt k.+1 Q acc =
  let? Q' := rk4_x (V := Mn) (fun Q => Some (qriccati q (qL q *m ult) Q)) (- dt) Q in
  qbwd_rk4 q ult dt k (symz Q') (ult *m symz Q' :: acc.1, symz Q' :: acc.2).
Proof. by []. Qed.
Lemma qbwd_steps ult dt k Q acc Ks Ss : size acc.2 = (size acc.1).+1 -> head 0 acc.2 = Q ->
  qbwd_rk4 q ult dt k Q acc = Some (Ks, Ss) ->
  [/\ size Ks = (k + size acc.1)%N, size Ss = (size Ks).+1, drop k Ks = acc.1, drop k Ss = acc.2 &
  forall i, (i < k)%N -> exists y,
    [/\ rk4_x (V := Mn) (fun Q => Some (qriccati q (qL q *m ult) Q)) (- dt) (nth 0 Ss i.+1) = Some y,
        nth 0 Ss i = symz y & nth 0 Ks i = ult *m nth 0 Ss i]].
Proof.
elim: k Q acc => [|k IH] Q acc sz hd; first by case: acc sz hd => a1 a2 /= sz _ [<- <-]; rewrite !drop0; split.
rewrite qbwdS; case E: (rk4_x (V := Mn) _ (- dt) Q) => [y|]; last by []; rewrite obindS.
move=> /IH /= [|//|sK sS dK dS H]; first by rewrite sz.
have e1 : nth 0 Ks k = ult *m symz y by rewrite -[k]addn0 -nth_drop dK.
have e2 : nth 0 Ss k = symz y by rewrite -[k]addn0 -nth_drop dS.
have e3 : nth 0 Ss k.+1 = Q by rewrite -hd -[k.+1]addn1 -nth_drop dS /=; case: (acc.2).
have st j (l : seq 'M[R]_n) a t : drop j l = a :: t -> drop j.+1 l = t by move=> e; rewrite -add1n -drop_drop e /= drop0.
have st' j (l : seq 'M[R]_(m, n)) a t : drop j l = a :: t -> drop j.+1 l = t by move=> e; rewrite -add1n -drop_drop e /= drop0.
split=> //; [by rewrite sK addSnnS | exact: st' dK | exact: st dS |].
move=> i; rewrite ltnS leq_eqVlt => /orP [/eqP ->|]; last exact: H.
by exists y; rewrite e1 e2 e3.
Qed.
Theorem reg_backward_steps steps dt Q Ks Ss : symm (qU q) -> pd (qU q) ->
  clqr_seqBackwardPass expm q steps dt Q Rk4 = Some (Ks, Ss) ->
  exists h, [/\ (if dt is Some h' then h = h' else h = qT q / steps%:R), size Ks = steps, size Ss = steps.+1,
    nth 0 Ss steps = (if Q is Some Q' then Q' else qXT q) &
  forall i, (i < steps)%N -> exists y,
    [/\ classical_step (V := Mn) (fun S _ => Some (- ((qF q)^T *m S) - S *m qF q + S *m (qL q *m invmx (qU q) *m (qL q)^T) *m S - qX q))
          (- h) (nth 0 Ss i.+1) 0 y,
        nth 0 Ss i = 2%:R^-1 *: (y + y^T) & nth 0 Ks i = invmx (qU q) *m (qL q)^T *m nth 0 Ss i]].
Proof.
move=> sU pU; rewrite /clqr_seqBackwardPass; case Ed: (qdt_or q dt _) => [h|] //=.
have Eu : qULT q = Some (invmx (qU q) *m (qL q)^T) by rewrite /qULT solve_posE.
rewrite Eu obindS => /qbwd_steps [//|//|sK sS dK dS H]; rewrite addn0 in sK.
exists h; split.
- by case: dt Ed => [h'|] /=; [case | case: eqP => // _ [<-]].
- by [].
- by rewrite sS sK.
- by rewrite -[steps in nth _ _ steps]addn0 -nth_drop dS.
move=> i /H [y [Ey eS eK]]; exists y; split=> //.
apply/rk4_classical; rewrite -Ey (form_x _ _ _ 0); apply: rk4_ext => z s.
by rewrite /qriccati mulNmx [qL q *m (_ *m _)]mulmxA.
Qed.
Theorem reg_backward_returns steps dt Q : symm (qU q) -> pd (qU q) -> (0 < steps)%N \/ dt <> None ->
  exists Ks Ss, clqr_seqBackwardPass expm q steps dt Q Rk4 = Some (Ks, Ss) /\
    (symm (if Q is Some Q' then Q' else qXT q) -> forall V, V \in Ss -> symm V).
Proof.
move=> sU pU H.
have [h Eh] : exists h, qdt_or q dt [:: steps] = Some h.
  case: dt H => [h _|[pos|//]]; first by exists h.
  by rewrite /qdt_or /=; case: eqP pos => [->//|_ _]; eexists.
have Eu : qULT q = Some (invmx (qU q) *m (qL q)^T) by rewrite /qULT solve_posE.
rewrite /clqr_seqBackwardPass Eh Eu !obindS; set ult := _ *m _; set Q0 := or_else _ _.
have -> : (if Q is Some Q' then Q' else qXT q) = Q0 by [].
have : symm Q0 -> forall V, V \in [:: Q0] -> symm V by move=> s V; rewrite inE => /eqP ->.
suff G k Q1 Ks Ss : (symm Q0 -> forall V, V \in Ss -> symm V) -> exists Ks' Ss',
    qbwd_rk4 q ult h k Q1 (Ks, Ss) = Some (Ks', Ss') /\ (symm Q0 -> forall V, V \in Ss' -> symm V) by exact: G.
elim: k Q1 Ks Ss {H Eh} => [|k IH] Q1 Ks Ss HS; first by exists Ks, Ss.
rewrite qbwdS (form_x _ _ _ 0) rk4_total; set y := (X in Some X); rewrite obindS.
apply: IH => s V; rewrite inE => /orP [/eqP ->|]; [|exact: HS].
by rewrite /symm /symz linearZ /= linearD /= trmxK addrC.
Qed.
Theorem reg_par_backward blocks steps Ks Ss : symm (qXT q) -> clqr_parBackwardPass expm q blocks steps Rk4 Rk4 = Some (Ks, Ss) ->
  [/\ size Ks = (blocks * steps)%N, size Ss = (blocks * steps).+1, forall V, V \in Ss -> symm V & last 0 Ss = qXT q].
Proof.
move=> sX E; have := par_backward_tracker expm q blocks steps; rewrite E /= /no_affine /= => E'.
have sX' : symm (kXT T) by [].
have [h1 _ h3 _ [h5 h6]] := par_backward_spec sX' E'; split=> //.
have [] := h6; last by rewrite ST_tracker.
move: E; rewrite /clqr_parBackwardPass /clqr_parBackwardPass_init; case D: (div_nats _ _) => [dt|] // _.
by have /= /andP [s0 _] := div_nats_pos D; left.
Qed.
Theorem reg_forward_steps x0 Ks dt zoh us xs : clqr_seqForwardPass expm q x0 Ks dt Rk4 zoh = Some (us, xs) ->
  exists h, [/\ (if dt is Some h' then h = h' else h = qT q / (size Ks)%:R), size us = size Ks, size xs = (size Ks).+1, nth 0 xs 0 = x0 &
  forall i, (i < size Ks)%N ->
    nth 0 us i = - nth 0 Ks i *m nth 0 xs i /\
    classical_step (V := matrix_lmodType R n 1)
      (fun x _ => Some (qF q *m x + qL q *m (if zoh then nth 0 us i else - nth 0 Ks i *m x))) h (nth 0 xs i) 0 (nth 0 xs i.+1)].
Proof.
rewrite -(seq_forward_tracker _ _ _ _ _ None) => /C70_forward_l [h [e1 e2 e3 e4 H]]; exists h; split=> // i lt.
have [-> S] := H i lt; rewrite nth_nseq lt addr0; split=> //.
move/rk4_classical: S => S; apply/rk4_classical; rewrite -S; rewrite -(form_x (V := matrix_lmodType R n 1) (fun x => Some (qF q *m x + qL q *m (if zoh then - nth 0 Ks i *m nth 0 xs i else - nth 0 Ks i *m x))) h (nth 0 xs i) 0).
rewrite (form_x _ _ _ (0 + i%:R * h)); apply: rk4_ext => z s; congr Some; rewrite /= addr0 nth_nseq lt; by case: zoh {S H}; rewrite addr0.
Qed.
Theorem reg_elements x0 Ks blocks steps dt t0 forward : div_nats (qT q) [:: steps; blocks] = Some dt ->
  [/\ clqt_parBackwardPass_init T blocks steps dt t0 forward = clqr_parBackwardPass_init q blocks steps Rk4 forward,
      clqt_parForwardPass_init T x0 Ks (nseq (size Ks) 0) blocks steps dt t0 forward = clqr_parForwardPass_init q x0 Ks blocks steps Rk4 forward
    & clqt_parFwdBwdPass_init T x0 blocks steps dt t0 forward = clqr_parFwdBwdPass_init q x0 blocks steps Rk4 forward].
Proof. by move=> E; split; [exact: par_init_tracker | exact: fwd_init_tracker | exact: fb_init_tracker]. Qed.
(** ** exceptions *)
Theorem reg_raises x0 Ks Ss Q dt A b C blocks steps zoh forward meth meth' :
  [/\ clqr_seqBackwardPass expm q steps dt Q Unknown = None, clqr_seqForwardPass expm q x0 Ks dt Unknown zoh = None &
      meth <> Rk4 ->
      [/\ clqr_seqFwdBwdPass q x0 steps dt A b C meth = None, clqr_parBackwardPass_init q blocks steps meth forward = None,
          clqr_parBackwardPass expm q blocks steps meth meth' = None, clqr_parFwdBwdPass_init q x0 blocks steps meth forward = None &
          clqr_parFwdBwdPass q x0 Ks Ss blocks steps meth meth' = None /\
          ((0 < blocks)%N -> clqr_parForwardPass_init q x0 Ks blocks steps meth forward = None /\
             clqr_parForwardPass expm q x0 Ks blocks steps meth meth' zoh = None)]].
Proof.
split; [by rewrite /clqr_seqBackwardPass; case: (qdt_or _ _ _) => //= h; case: (qULT q) | by rewrite /clqr_seqForwardPass; case: (qdt_or _ _ _) |].
move=> nm.
have i1 : clqr_parBackwardPass_init q blocks steps meth forward = None by case: meth nm.
have i2 : clqr_parFwdBwdPass_init q x0 blocks steps meth true = None by case: meth nm {i1}.
split=> //.
- by rewrite /clqr_seqFwdBwdPass; case: (qdt_or _ _ _) => //= h; case: meth nm {i1 i2}.
- by rewrite /clqr_parBackwardPass; case: meth nm {i1 i2}.
- by case: meth nm {i1 i2}.
split; first by rewrite /clqr_parFwdBwdPass i2.
move=> b0.
have i3 f : clqr_parForwardPass_init q x0 Ks blocks steps meth f = None.
  rewrite /clqr_parForwardPass_init; case: ifP => // _; case: (div_nats _ _) => //= h.
  by case: blocks b0 {i1 i2} => // k _ /=; case: meth nm.
by rewrite /clqr_parForwardPass !i3.
Qed.
End Use.
