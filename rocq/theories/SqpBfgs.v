(** Quasi-Newton updates and the back-tracking iteration: proofs. *)
From Coq Require Import Ring Field.
From mathcomp Require Import all_ssreflect all_algebra.
From Verif Require Import MxBase LqtModel LqtCore NlqtSpec NlqtProofs SqpModel SqpSpec SqpProofs.
Import Order.TTheory GRing.Theory Num.Theory.
Set Implicit Arguments. Unset Strict Implicit. Unset Printing Implicit Defensive.
Local Open Scope ring_scope.

Section Update.
Variable R : realFieldType.
Variable n : nat.
Add Ring Rr : (mc_ring R).
Add Field Rf : (mc_field R).
Implicit Types (B : 'M[R]_n) (s y z a b : 'cV[R]_n).

Lemma outer_mul a b s : a *m b^T *m s = dot b s *: a.
Proof.
rewrite -mulmxA [b^T *m s]mx11_scalar mul_mx_scalar; congr (_ *: _).
Qed.
Lemma outer_qf a z : qf (a *m a^T) z = dot a z ^+ 2.
Proof. by rewrite qf_dot outer_mul dotZr (dotC z) expr2. Qed.
Lemma qf_rank2 B y s (d q : R) z : qf (B + d *: (y *m y^T) - q *: (B *m s *m (B *m s)^T)) z =
  qf B z + d * dot y z ^+ 2 - q * dot (B *m s) z ^+ 2.
Proof. by rewrite !qf_dot mulmxBl mulmxDl -!scalemxAl !outer_mul dotBr dotDr !dotZr !(dotC z) !expr2. Qed.
Lemma rank_two_symm B y s (d q : R) B' : symm B -> rank_two B y (B *m s) d q = Some B' -> symm B'.
Proof.
rewrite /rank_two; case: ifP => // _ sB [<-]; rewrite /symm linearB linearD /= !linearZ /= !trmx_mul !trmxK.
by rewrite [B^T]sB.
Qed.
Lemma rank_two_secant B y s B' : symm B -> rank_two B y (B *m s) (dot s y) (dot s (B *m s)) = Some B' -> B' *m s = y.
Proof.
rewrite /rank_two => sB; case: ifP => // /negbT; rewrite negb_or => /andP [d0 q0] [<-].
rewrite mulmxBl mulmxDl -!scalemxAl !outer_mul (dotC y) (dotC (B *m s)) !scalerA !mulVf // !scale1r.
by rewrite addrC addKr.
Qed.
Lemma rank_two_ok B s y : symm B -> pd B -> 0 < dot s y ->
  exists B', [/\ rank_two B y (B *m s) (dot s y) (dot s (B *m s)) = Some B', symm B', pd B' & B' *m s = y].
Proof.
move=> sB pB sy.
have s0 : s != 0 by apply/negP => /eqP e; rewrite e dot0l ltxx in sy.
have q0 : 0 < dot s (B *m s) by rewrite -qf_dot; exact: pB.
have E : rank_two B y (B *m s) (dot s y) (dot s (B *m s)) =
  Some (B + (dot s y)^-1 *: (y *m y^T) - (dot s (B *m s))^-1 *: (B *m s *m (B *m s)^T)).
  by rewrite /rank_two (gt_eqF sy) (gt_eqF q0).
eexists; split; [exact: E|exact: rank_two_symm E| |exact: rank_two_secant E].
move=> z z0; rewrite qf_rank2.
set q := dot s (B *m s) in q0 *; set w := dot (B *m s) z; pose t := w / q.
have e : qf B z = qf B (z - t *: s) + q^-1 * w ^+ 2.
  rewrite -scaleNr (qfD _ _ sB) qfZ [qf B s]qf_dot -/q dotZr.
  have -> : dot (B *m z) s = w by rewrite /w dotC (symm_dot _ _ sB) dotC.
  rewrite /t; have nz : q <> 0 by move=> e; rewrite e ltxx in q0.
  by move: (qf B z) => a; clear -nz; rsn R; field; exact: nz.
rewrite e (addrAC (qf B _)) addrK.
have [ez|ne] := eqVneq (z - t *: s) 0; last first.
  have := pB _ ne => p1; apply: (lt_le_trans p1).
  by rewrite ler_addl mulr_ge0 ?sqr_ge0 // invr_ge0 ltW.
rewrite ez qf0 add0r; have zt : z = t *: s by apply/eqP; rewrite -subr_eq0 ez.
have t0 : t != 0 by apply: contraNneq z0 => e0; rewrite zt e0 scale0r.
rewrite zt dotZr (dotC y) pmulr_rgt0 ?invr_gt0 //.
by rewrite exprn_even_gt0 // mulf_neq0 // gt_eqF.
Qed.

Theorem basic_spec B s y : symm B -> pd B ->
  exists B', [/\ bfgs_basic_update B s y = Some B', symm B', pd B',
                 0 < dot s y -> B' *m s = y & dot s y <= 0 -> B' = B].
Proof.
move=> sB pB; rewrite /bfgs_basic_update; case: ifP => sy.
  have [B' [E S P F]] := rank_two_ok sB pB sy; exists B'; split=> // le.
  by move: sy; rewrite ltNge le.
by exists B; split.
Qed.
Theorem basic_symm B s y B' : symm B -> bfgs_basic_update B s y = Some B' -> symm B' /\ (0 < dot s y -> B' *m s = y).
Proof.
move=> sB; rewrite /bfgs_basic_update; case: ifP => [sy E|_ [<-]] //.
by split=> [|_]; [exact: rank_two_symm E|exact: rank_two_secant E].
Qed.
Theorem damped_spec B s y : symm B -> pd B -> s != 0 ->
  exists B', [/\ bfgs_damped_update B s y = Some B', symm B', pd B',
                 5%:R^-1 * qf B s <= dot s y -> B' *m s = y & dot s (B' *m s) >= 5%:R^-1 * qf B s].
Proof.
move=> sB pB s0; have q0 := pB s s0.
have eq : dot (B *m s) s = qf B s by rewrite dotC qf_dot.
have f0 : 0 < 5%:R^-1 :> R by rewrite invr_gt0 ltr0n.
rewrite /bfgs_damped_update eq; case: ifP => [le|/negbT] /=.
  have sy : 0 < dot s y by apply: lt_le_trans le; rewrite mulr_gt0.
  have [B' [E S P F]] := rank_two_ok sB pB sy; exists B'.
  by rewrite scale1r subrr scale0r addr0; split=> //; rewrite F.
rewrite -ltNge => lt.
have d0 : 0 < qf B s - dot s y.
  rewrite subr_gt0; apply: (lt_trans lt); rewrite gtr_pmull // invf_lt1 ?ltr0n // ltr1n //.
rewrite (gt_eqF d0) /=; set th := _ / _; set y' := _ + _.
have e : dot s y' = 5%:R^-1 * qf B s.
  rewrite /y' dotDr !dotZr -qf_dot /th.
  have nz : qf B s - dot s y <> 0 by move=> e; rewrite e ltxx in d0.
  have -> : 4%:R / 5%:R = 1 - 5%:R^-1 :> R.
    have n5 : 5%:R != 0 :> R by rewrite pnatr_eq0.
    by apply: (mulIf n5); rewrite divfK // mulrBl mulVf // mul1r -(natrB _ (isT : (1 <= 5)%N)).
  move: (qf B s) (dot s y) (5%:R^-1 : R) nz => a b w nz; clear -nz; rsn R.
  by field; exact: nz.
have sy : 0 < dot s y' by rewrite e mulr_gt0.
have [B' [E S P F]] := rank_two_ok sB pB sy; exists B'; split=> //; by rewrite F e.
Qed.
Theorem damped_symm B s y B' : symm B -> bfgs_damped_update B s y = Some B' -> symm B'.
Proof.
move=> sB; rewrite /bfgs_damped_update; case: (if _ then _ else _) => [th|] //=.
exact: rank_two_symm.
Qed.
Theorem damped_zero B y : bfgs_damped_update B 0 y = None.
Proof. by rewrite /bfgs_damped_update mulmx0 !dot0r !dot0l mulr0 lexx /= /rank_two dot0l eqxx. Qed.
End Update.

Section Iter.
Variable R : realFieldType.
Variables n k : nat.
Variable norm : 'cV[R]_n -> R.
Variable Q : nlp R n k.
Hypothesis ex : exact_derivatives Q.
Hypothesis nm : is_norm norm.
Local Notation half := (2%:R^-1 : R).

Lemma meritE x : merit Q x = merit_fun Q x.
Proof. by rewrite /merit divr1. Qed.
Lemma backtrackP fuel (x p : 'cV[R]_n) (m0 alf : R) bt : exists j,
  [/\ (j <= fuel)%N, backtrack Q fuel x p m0 alf bt = (half ^+ j * alf, (bt + j)%N),
      (forall i, (i < j)%N -> m0 < merit_fun Q (x + (half ^+ i * alf) *: p)) &
      (j < fuel)%N -> merit_fun Q (x + (half ^+ j * alf) *: p) <= m0].
Proof.
elim: fuel alf bt => [|f IH] alf bt /=; rewrite ?meritE; first by exists 0%N; rewrite expr0 mul1r addn0; split.
case: ifP => [lt|/negbT]; last by rewrite -leNgt => le; exists 0%N; rewrite expr0 mul1r addn0; split.
have [j [le E A B]] := IH (half * alf) bt.+1; exists j.+1; rewrite E addSnnS exprSr -mulrA; split=> //.
by case=> [|i] lti; [rewrite expr0 mul1r|rewrite exprSr -mulrA; exact: A].
Qed.

Lemma pd_qp_ok (B : 'M[R]_n) (A : 'M[R]_(k, n)) : symm B -> pd B ->
  (forall l : 'cV[R]_k, A^T *m l = 0 -> l = 0) -> qp_ok B A.
Proof. by move=> sB pB rA; split=> // z _ /eqP; exact: pB. Qed.

Lemma bfgs_stepP mb damped st B : bB st = Some B -> symm B -> pd B ->
  forall st', bfgs_step norm Q mb damped st = Some st' ->
  [/\ exists p lam, lqe_solve B (pdf Q (bx st)) (pdc Q (bx st)) (- pc Q (bx st)) = Some (p, lam) /\ step_ok Q mb st st' p,
      (exists B', [/\ bB st' = Some B', symm B' & pd B']) \/
        [/\ bcrit st' = 0, kkt_point Q (bx st') (blam st'), bx st' = bx st & damped] &
      bcrit st' = norm (pdl Q (bx st') (blam st'))].
Proof.
move=> EB sB pB st'; rewrite /bfgs_step EB /= meritE.
case E: (lqe_solve _ _ _ _) => [[p lam]|] //=.
have [j [lej Ej Aj Bj]] := backtrackP mb (bx st) p (merit_fun Q (bx st)) 1 0%N; rewrite Ej add0n mulr1.
have Aj' i : (i < j)%N -> merit_fun Q (bx st) < merit_fun Q (bx st + half ^+ i *: p) by move/Aj; rewrite mulr1.
rewrite mulr1 in Bj; set alf := if _ then _ else _.
have af : alf != 0 by rewrite /alf; case: ifP => _; rewrite ?oner_eq0 // expf_neq0 // invr_neq0 // pnatr_eq0.
case=> <- /=; split=> //.
  exists p, lam; split=> //; rewrite /step_ok /= /alf; case: eqP => [ej|/eqP ne].
    by right; rewrite scale1r; split=> // i; rewrite -ej; exact: Aj'.
  have lt : (j < mb)%N by rewrite ltn_neqAle ne.
  by left; exists j; split=> //; exact: Bj.
set y := _ - _; case: damped; last by left; have [B' [E' S P _ _]] := basic_spec (alf *: p) y sB pB; exists B'.
have [p0|pn] := eqVneq p 0.
  right; have a1 : alf = 1.
    rewrite /alf; case: eqP => // ne; case: (posnP j) => [->|jp]; first by rewrite expr0.
    by have := Aj' 0%N jp; rewrite p0 scaler0 addr0 ltxx.
  have [e1 e2] := lqe_kkt E; rewrite p0 !mulmx0 add0r in e1 e2.
  rewrite a1 !scale1r (addrC (blam st)) subrK p0 addr0.
  have d0 : pdl Q (bx st) lam = 0 by rewrite (pdlE ex) e1 subrr.
  rewrite d0; split=> //; first by case: (nm 0) => _ [_ ->].
  apply/(kktE ex); split=> //; by apply/eqP; rewrite -oppr_eq0 -e2.
have sn : alf *: p != 0 by rewrite scaler_eq0 negb_or af pn.
by left; have [B' [E' S P _ _]] := damped_spec y sB pB sn; exists B'.
Qed.

Theorem bfgs_invariant tol mb damped x0 i st : 0 <= tol -> reachable norm Q tol mb damped x0 i st ->
  ((exists B, [/\ bB st = Some B, symm B & pd B]) \/ (bcrit st = 0 /\ kkt_point Q (bx st) (blam st))) /\
  ((0 < i)%N -> bcrit st = norm (pdl Q (bx st) (blam st))).
Proof.
move=> t0; elim=> {i st} [|i st st' _ [IH _] lt E].
  split=> //; left; exists 1%:M; split=> //=; first exact: trmx1.
  by move=> x x0'; rewrite qf_dot mul1mx dot_gt0.
case: IH => [[B [EB sB pB]]|[c0 _]]; last by move: lt; rewrite c0 ltNge t0.
by have [_ [?|[? ? _ _]] ?] := bfgs_stepP EB sB pB E; split=> //; [left|right].
Qed.
Theorem bfgs_accepts tol mb damped x0 i st : regular Q -> 0 <= tol -> reachable norm Q tol mb damped x0 i st ->
  tol < bcrit st ->
  exists B st' p, [/\ bB st = Some B, bfgs_step norm Q mb damped st = Some st',
    qp_solution B (pdf Q (bx st)) (pdc Q (bx st)) (- pc Q (bx st)) p & step_ok Q mb st st' p].
Proof.
move=> rg t0 re lt; have [[[B [EB sB pB]]|[c0 _]] _] := bfgs_invariant t0 re; last by move: lt; rewrite c0 ltNge t0.
have ok := pd_qp_ok sB pB (@rg (bx st)).
have [p [lam [E S]]] := lqe_minimiser (pdf Q (bx st)) (- pc Q (bx st)) ok.
have [st' E'] : exists st', bfgs_step norm Q mb damped st = Some st'.
  by rewrite /bfgs_step EB /= E /=; case: (backtrack _ _ _ _ _ _ _) => a b; eexists.
exists B, st', p; split=> //.
by have [[p' [lam' [E2 H]]] _ _] := bfgs_stepP EB sB pB E'; move: E2; rewrite E => - [-> _].
Qed.
(** the equations of a step: position, multiplier and the secant equation of the new approximation *)
Theorem bfgs_step_equations tol mb damped x0 i st st' : 0 <= tol -> reachable norm Q tol mb damped x0 i st ->
  tol < bcrit st -> bfgs_step norm Q mb damped st = Some st' ->
  exists B p mu alf, [/\ bB st = Some B,
    B *m p + pdf Q (bx st) = (pdc Q (bx st))^T *m mu /\ pdc Q (bx st) *m p = - pc Q (bx st),
    bx st' = bx st + alf *: p, blam st' = blam st + alf *: (mu - blam st) &
    let s := bx st' - bx st in let y := pdl Q (bx st') (blam st') - pdl Q (bx st) (blam st') in
    s != 0 -> exists2 B', bB st' = Some B' &
      ((if damped then 5%:R^-1 * qf B s <= dot s y else 0 < dot s y) -> B' *m s = y) /\
      (if ~~ damped then dot s y <= 0 -> B' = B else 5%:R^-1 * qf B s <= dot s (B' *m s))].
Proof.
move=> t0 re lt; have [[[B [EB sB pB]]|[c0 _]] _] := bfgs_invariant t0 re; last by move: lt; rewrite c0 ltNge t0.
rewrite /bfgs_step EB /=; case E: (lqe_solve _ _ _ _) => [[p mu]|] //=.
case: (backtrack _ _ _ _ _ _ _) => alf0 bt; move: (if _ then _ else _) => alf [e].
have e1 : bx st' = bx st + alf *: p by rewrite -e.
have e2 : blam st' = blam st + alf *: (mu - blam st) by rewrite -e.
pose y := pdl Q (bx st') (blam st') - pdl Q (bx st) (blam st').
have e3 : bB st' = if damped then bfgs_damped_update B (alf *: p) y else bfgs_basic_update B (alf *: p) y by rewrite /y -e.
exists B, p, mu, alf; split=> //; first exact: lqe_kkt E.
have -> : bx st' - bx st = alf *: p by rewrite e1 addrAC subrr add0r.
rewrite -/y => {e} sn; case: damped e3 {re} => ->; first by have [B' [E' S P F G]] := damped_spec y sB pB sn; exists B'.
by have [B' [E' S P F G]] := basic_spec (alf *: p) y sB pB; exists B'.
Qed.
Theorem bfgs_total tol mb damped x0 max_iter : regular Q -> 0 <= tol ->
  exists st iter, [/\ bfgs_eq_bt norm Q x0 max_iter tol mb damped = Some (bx st, iter, bcrit st),
    reachable norm Q tol mb damped x0 iter st, (iter <= max_iter)%N & (iter < max_iter)%N -> bcrit st <= tol].
Proof.
move=> rg t0; rewrite /bfgs_eq_bt.
suff H : forall f i st, reachable norm Q tol mb damped x0 i st -> exists st' i',
  [/\ bfgs_loop norm Q f tol mb damped st i = Some (bx st', i', bcrit st'), reachable norm Q tol mb damped x0 i' st',
      (i' <= i + f)%N & (i' < i + f)%N -> bcrit st' <= tol].
  by have := H max_iter 0%N (bfgs_init k x0) (reach0 _ _ _ _ _ _); rewrite add0n.
elim=> [|f IH] i st re /=; first by exists st, i; rewrite addn0 ltnn.
case: ifP => [lt|/negbT]; last by rewrite -leNgt => le; exists st, i; rewrite leq_addr.
have [B [st' [p [_ E _ _]]]] := bfgs_accepts rg t0 re lt; rewrite E /=.
have [st2 [i2 H]] := IH i.+1 st' (reachS re lt E); exists st2, i2.
by rewrite -addSnnS.
Qed.
End Iter.
