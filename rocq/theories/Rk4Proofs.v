From Coq Require Import Ring Field.
From mathcomp Require Import all_ssreflect all_algebra.
From Verif Require Import MxBase LqtModel LqtCore LinComb Rk4Model Rk4Spec.
Import Order.TTheory GRing.Theory Num.Theory.
Set Implicit Arguments. Unset Strict Implicit. Unset Printing Implicit Defensive.
Local Open Scope ring_scope.

(** side conditions of [field]: numerals are positive *)
Ltac num_neq0 R := apply/eqP; apply: (@lt0r_neq0 R);
  repeat first [exact: (@ltr01 R) | apply: (@addr_gt0 R) | apply: (@mulr_gt0 R)].

Section Forms.
Variable R : realFieldType.
Variables V W : lmodType R.
Variable P : Type.
Add Ring Rr : (mc_ring R).
Add Field Rf : (mc_field R).
Ltac sfield := rsn R; field; repeat split; num_neq0 R.

Lemma rk4_sumE (E : lmodType R) x (k1 k2 k3 k4 : E) h :
  rk4_sum x (h *: k1) (h *: k2) (h *: k3) (h *: k4) = x + (h / 6%:R) *: (k1 + 2%:R *: k2 + 2%:R *: k3 + k4).
Proof. rewrite /rk4_sum; lmod0 R E; sfield. Qed.
Lemma halfE (E : lmodType R) h (k : E) : (2%:R^-1 : R) *: (h *: k) = (h / 2%:R) *: k.
Proof. by rewrite scalerA mulrC. Qed.

Lemma rk4_classical (f : V -> R -> option V) h x t y : rk4_xt f h x t = Some y <-> classical_step f h x t y.
Proof.
rewrite /rk4_xt /classical_step; split.
  case e1: (f x t) => [k1|] //=; rewrite halfE; case e2: (f _ _) => [k2|] //=; rewrite halfE; case e3: (f _ _) => [k3|] //=.
  by case e4: (f _ _) => [k4|] //= -[<-]; exists k1, k2, k3, k4; rewrite rk4_sumE.
by case=> k1 [k2] [k3] [k4] [-> /=]; rewrite halfE => -> /=; rewrite halfE => -> /= -> /= ->; rewrite rk4_sumE.
Qed.
Lemma classical_fun (f : V -> R -> option V) h x t y y' : classical_step f h x t y -> classical_step f h x t y' -> y = y'.
Proof. by move=> /rk4_classical a /rk4_classical; rewrite a => -[]. Qed.

Lemma form_x (f : V -> option V) h x t : rk4_x f h x = rk4_xt (fun z _ => f z) h x t.
Proof. by []. Qed.
Lemma form_xp (f : V -> P -> option V) h x t p : rk4_xp f h x p = rk4_xt (fun z _ => f z p) h x t.
Proof. by []. Qed.
Lemma form_xtp (f : V -> R -> P -> option V) h x t p : rk4_xtp f h x t p = rk4_xt (fun z s => f z s p) h x t.
Proof. by []. Qed.
Lemma form_tf (f : V -> R -> P -> option V) h x t p : tf_rk4 f h x t p = rk4_xt (fun z s => f z s p) h x t.
Proof. by rewrite /tf_rk4 /rk4_xt mulrC. Qed.

Theorem C41_forms_l (f1 : V -> option V) (f2 : V -> P -> option V) (f3 : V -> R -> option V)
    (f4 : V -> R -> P -> option V) h x t p y :
  [/\ rk4_x f1 h x = Some y <-> classical_step (fun z _ => f1 z) h x t y,
      rk4_xp f2 h x p = Some y <-> classical_step (fun z _ => f2 z p) h x t y,
      rk4_xt f3 h x t = Some y <-> classical_step f3 h x t y,
      rk4_xtp f4 h x t p = Some y <-> classical_step (fun z s => f4 z s p) h x t y
    & tf_rk4 f4 h x t p = Some y <-> classical_step (fun z s => f4 z s p) h x t y].
Proof.
by split; rewrite ?(form_x _ _ _ t) ?(form_xp _ _ _ t) ?form_xtp ?form_tf; exact: rk4_classical.
Qed.

Lemma rk4_total (f : V -> R -> V) h x t :
  rk4_xt (fun z s => Some (f z s)) h x t =
  Some (let k1 := f x t in let k2 := f (x + (h / 2%:R) *: k1) (t + h / 2%:R) in
        let k3 := f (x + (h / 2%:R) *: k2) (t + h / 2%:R) in let k4 := f (x + h *: k3) (t + h) in
        x + (h / 6%:R) *: (k1 + 2%:R *: k2 + 2%:R *: k3 + k4)).
Proof. by apply/rk4_classical; do 4 eexists; split; reflexivity. Qed.

(** exactness for cubic polynomials in time *)
Theorem C41_cubic_l (c : seq V) h x t : (size c <= 4)%N ->
  rk4_xt (fun _ s => Some (vpoly c s)) h x t = Some (x + vpoly_int c t h).
Proof.
move=> sz; rewrite rk4_total; congr Some; cbv zeta; congr (_ + _).
have pad (g : nat -> R) : \sum_(i < size c) g i *: nth 0 c i = \sum_(i < 4) g i *: nth 0 c i.
  rewrite (big_ord_widen 4 (fun i => g i *: nth 0 c i)) // big_mkcond; apply: eq_bigr => i _.
  by case: ltnP => // le; rewrite nth_default // scaler0.
rewrite /vpoly /vpoly_int !pad (pad (fun i => ((t + h) ^+ i.+1 - t ^+ i.+1) / i.+1%:R)).
rewrite !big_ord_recl !big_ord0 /= !/(bump _ _) /= !add1n !expr0 !expr1 mulr1n.
move: (nth 0 c 0) (nth 0 c 1) (nth 0 c 2) (nth 0 c 3) => a0 a1 a2 a3.
lmod0 R V; sfield.
Qed.

(** linear systems *)
Theorem C41_linear_l (A : V -> V) h x t : linear_map A ->
  rk4_xt (fun z _ => Some (A z)) h x t = Some (exp_upto 4 A h x).
Proof.
move=> lin; rewrite rk4_total; congr Some; cbv zeta.
have AZ a u : A (a *: u) = a *: A u.
  have A0 : A 0 = 0 by have := lin (-1) 0 0; rewrite scaler0 add0r scaleN1r addNr.
  by have := lin a u 0; rewrite A0 !addr0.
have AD u v : A (u + v) = A u + A v by have := lin 1 u v; rewrite !scale1r.
rewrite /exp_upto !big_ord_recl big_ord0 /= /bump /= ?add1n.
rewrite !(AD, AZ).
move: (A (A (A (A x)))) (A (A (A x))) (A (A x)) (A x) => a4 a3 a2 a1.
have -> : (4`! = 4 * 6)%N by []. have -> : (3`! = 6)%N by []. have -> : (2`! = 2)%N by [].
have -> : (1`! = 1)%N by []. have -> : (0`! = 1)%N by [].
rewrite natrM !expr0 !expr1 !mulr1n; lmod0 R V; sfield.
Qed.

(** affine changes of variable *)
Theorem C41_affine_l (T : V -> W) (b : W) (f : V -> R -> option V) (g : W -> R -> option W) h x t :
  linear_map T -> (forall z s, g (T z + b) s = omap T (f z s)) ->
  rk4_xt g h (T x + b) t = omap (fun y => T y + b) (rk4_xt f h x t).
Proof.
move=> lin cov.
have TZ a u : T (a *: u) = a *: T u.
  have T0 : T 0 = 0 by have := lin (-1) 0 0; rewrite scaler0 add0r scaleN1r addNr.
  by have := lin a u 0; rewrite T0 !addr0.
have TD u v : T (u + v) = T u + T v by have := lin 1 u v; rewrite !scale1r.
have sh u v s : g (T u + b + s *: T v) = g (T (u + s *: v) + b) by rewrite TD TZ addrAC.
rewrite /rk4_xt cov; case: (f x t) => [k1|] //=; rewrite !halfE sh cov; case: (f _ _) => [k2|] //=.
rewrite !halfE sh cov; case: (f _ _) => [k3|] //=; rewrite sh cov; case: (f _ _) => [k4|] //=.
by rewrite !rk4_sumE !(TD, TZ) addrAC.
Qed.

(** if the right-hand side raises, so does the step *)
Theorem C41_raises_l (f : V -> R -> option V) h x t : f x t = None -> rk4_xt f h x t = None.
Proof. by move=> e; rewrite /rk4_xt e. Qed.
End Forms.
