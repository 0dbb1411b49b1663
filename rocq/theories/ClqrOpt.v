(** Optimality in continuous time of the regulator with method 'exact', over the real numbers. *)
From Coq Require Import Reals Lra.
From Coq Require Import Ring Field.
From Coquelicot Require Import Derive.
From mathcomp Require Import all_ssreflect all_algebra zify.
From Verif Require Import ClqtFwd2 RealF MxBase LqtModel ClqtModel ClqrModel ClqrSpec ClqrExact RealExpSpec RealExp RealAssm ClqrOptSpec.
Import Order.TTheory GRing.Theory Num.Theory.
Set Implicit Arguments. Unset Strict Implicit. Unset Printing Implicit Defensive.
Local Open Scope ring_scope.
Delimit Scope R_scope with Re.

Ltac abelr := canon Rf; abel0.
(** ** monotone functions *)
Section Mono.
Lemma mono0 (f : R -> R) (a b : Rf) : a < b -> (forall t : Rf, a <= t <= b -> continuity_pt f t) ->
  (forall t : Rf, a < t < b -> exists2 d : Rf, derivable_pt_lim f t d & 0 <= d) -> f a <= f b :> Rf.
Proof.
move=> ab Hc Hd.
have pr1 (c : R) : (a < c < b)%Re -> derivable_pt f c.
  move=> [/RltP h1 /RltP h2]; apply: ex_derive_Reals_0; have [|d Hdd _] := Hd c; first by rewrite h1 h2.
  by exists d; apply/is_derive_Reals.
have pr2 (c : R) : (a < c < b)%Re -> derivable_pt id c by move=> _; exact: derivable_pt_id.
have [c [P E]] := MVT f id a b pr1 pr2 (elimT (RltP _ _) ab)
  (fun c h => Hc c (introT andP (conj (introT (RleP _ _) (proj1 h)) (introT (RleP _ _) (proj2 h)))))
  (fun c _ => derivable_continuous_pt id c (derivable_pt_id c)).
have h12 : a < c < b by case: (P) => /RltP -> /RltP ->.
have [d Hdd d0] := Hd c h12.
rewrite (derive_pt_eq_0 _ _ _ (pr1 c P) Hdd) in E.
rewrite (derive_pt_eq_0 _ _ _ (pr2 c P) (derivable_pt_lim_id c)) in E.
apply/RleP; move/RleP: d0; move/RltP: ab => ab d0.
have := Rmult_le_pos _ _ (Rlt_le _ _ (Rlt_Rminus _ _ ab)) d0; rewrite /id in E; lra.
Qed.
Lemma mono_off (ts : seq Rf) (f : R -> R) (a b : Rf) : a <= b -> (forall t : Rf, a <= t <= b -> continuity_pt f t) ->
  (forall t : Rf, a < t < b -> t \notin ts -> exists2 d : Rf, derivable_pt_lim f t d & 0 <= d) -> f a <= f b :> Rf.
Proof.
elim: ts a b => [|c ts IH] a b; rewrite le_eqVlt => /orP [/eqP -> //|ab] Hc Hd.
  by apply: mono0 => // t ht; exact: Hd.
case: (boolP ((a < c) && (c < b))) => [/andP [ac cb]|nc]; last first.
  apply: IH => //; first exact: ltW.
  move=> t ht nt; apply: Hd => //; rewrite inE negb_or nt andbT; apply: contraNneq nc => <-; exact: ht.
apply: (@le_trans _ _ (f c : Rf)).
  apply: IH => [|t /andP [h1 h2]|t /andP [h1 h2] nt]; first exact: ltW.
    by apply: Hc; rewrite h1 (le_trans h2 (ltW cb)).
  by apply: Hd; [rewrite h1 (lt_trans h2 cb) | rewrite inE negb_or nt andbT (lt_eqF h2)].
apply: IH => [|t /andP [h1 h2]|t /andP [h1 h2] nt]; first exact: ltW.
  by apply: Hc; rewrite h2 (le_trans (ltW ac) h1).
by apply: Hd; [rewrite h2 (lt_trans ac h1) | rewrite inE negb_or nt andbT (gt_eqF h1)].
Qed.
(** a nondecreasing function with equal end values has derivative zero *)
Lemma flat_off (ts : seq Rf) (f : R -> R) (a b : Rf) : a <= b -> (forall t : Rf, a <= t <= b -> continuity_pt f t) ->
  (forall t : Rf, a < t < b -> t \notin ts -> exists2 d : Rf, derivable_pt_lim f t d & 0 <= d) -> f b <= f a :> Rf ->
  forall (t d : Rf), a < t < b -> derivable_pt_lim f t d -> d = 0.
Proof.
move=> ab Hc Hd fba t d /andP [at_ tb] Hdt.
have const (s : Rf) : a <= s <= b -> f s = f a.
  move=> /andP [h1 h2]; apply/eqP; rewrite [_ == _](@eq_le _ Rf) ; apply/andP; split.
    apply: le_trans fba; apply: (mono_off (ts := ts)) => // [r /andP [r1 r2]|r /andP [r1 r2] nr].
      by apply: Hc; rewrite (le_trans h1 r1).
    by apply: Hd => //; rewrite (le_lt_trans h1 r1).
  apply: (mono_off (ts := ts)) => // [r /andP [r1 r2]|r /andP [r1 r2] nr].
    by apply: Hc; rewrite r1 (le_trans r2 h2).
  by apply: Hd => //; rewrite r1 (lt_le_trans r2 h2).
apply: (uniqueness_limite f t d R0 Hdt) => eps he.
have pos : (0 < Rmin (t - a) (b - t))%Re by apply: Rmin_pos; apply: Rlt_Rminus; exact/RltP.
exists (mkposreal _ pos) => h h0 /= hh.
have [r1 r2] : (a <= t + h /\ t + h <= b)%Re.
  by have := Rmin_l (t - a) (b - t); have := Rmin_r (t - a) (b - t); move: (Rabs_def2 _ _ hh); lra.
rewrite (const (t + h)%Re) ?(const t) //; [|by rewrite (ltW at_) (ltW tb) | by apply/andP; split; exact/RleP].
by rewrite /Rdiv Rminus_eq_0 Rmult_0_l Rminus_0_r Rabs_R0.
Qed.
End Mono.

Section Dot.
Lemma dlim_dot k (x y : R -> 'cV[Rf]_k) (t : Rf) a b : mderiv x t a -> mderiv y t b ->
  derivable_pt_lim (fun t => dot (x t) (y t)) t (dot a (y t) + dot (x t) b).
Proof.
by move=> hx hy; have := mderiv_mul (mderiv_tr hx) hy 0 0; rewrite mxE /dot /sc.
Qed.
Lemma cont_ext f g t : (forall s, f s = g s) -> continuity_pt f t -> continuity_pt g t.
Proof. by move=> e H eps he; have [d [d0 Hd]] := H eps he; exists d; split=> // s hs; rewrite -!e; exact: Hd. Qed.
Lemma cont_sum (I : Type) (r : seq I) (f : I -> R -> R) t : (forall i, continuity_pt (f i) t) ->
  continuity_pt (fun t => \sum_(i <- r) (f i t : Rf)) t.
Proof.
move=> H; elim: r => [|i r IH].
  by apply: (cont_ext (f := fun _ => 0)) => [s|]; [rewrite big_nil | apply: continuity_pt_const].
by apply: (cont_ext (f := (f i + (fun t => \sum_(j <- r) (f j t : Rf)))%F)) => [s|]; [rewrite big_cons | exact: continuity_pt_plus].
Qed.
Lemma cont_dot k (x y : R -> 'cV[Rf]_k) (t : Rf) : mcont x t -> mcont y t -> continuity_pt (fun t => dot (x t) (y t)) t.
Proof.
move=> hx hy; apply: (cont_ext (f := fun s => \sum_q (((fun s => x s q 0) * (fun s => y s q 0))%F s : Rf))) => [s|].
  by rewrite /dot /sc mxE; apply: eq_bigr => j _; rewrite mxE.
by apply: cont_sum => j; apply: continuity_pt_mult; [exact: hx | exact: hy].
Qed.
Lemma mderiv_cont k l (x : R -> 'M[Rf]_(k, l)) (t : Rf) a : mderiv x t a -> mcont x t.
Proof. by move=> h i j; exact: dlim_cont (h i j). Qed.
Lemma mcont_sub k l (x y : R -> 'M[Rf]_(k, l)) (t : Rf) : mcont x t -> mcont y t -> mcont (fun t => x t - y t) t.
Proof.
move=> hx hy i j; apply: (cont_ext (f := ((fun t => x t i j) - (fun t => y t i j))%F)) => [s|]; first by rewrite !mxE.
by apply: continuity_pt_minus; [exact: hx | exact: hy].
Qed.
End Dot.

Section Ode.
Lemma const_on k l (v : R -> 'M[Rf]_(k, l)) (a b : Rf) : a <= b -> (forall t : Rf, a <= t <= b -> mcont v t) ->
  (forall t : Rf, a < t < b -> mderiv v t 0) -> v b = v a.
Proof.
move=> ab c z; apply/matrixP => i j; apply/eqP; rewrite [_ == _](@eq_le _ Rf).
have {}z (s : Rf) : a < s < b -> derivable_pt_lim (fun s => v s i j) s 0 by move=> /z /(_ i j); rewrite mxE.
apply/andP; split; last first.
  by apply: (mono_off (ts := [::]) (f := fun s => v s i j)) => // s hs *; [exact: c | exists 0; [exact: z|]].
rewrite -[X in X <= _]opprK -[X in _ <= X]opprK ler_oppl opprK.
apply: (mono_off (ts := [::]) (f := (- (fun s => v s i j))%F)) => // [s hs|s hs _].
  by apply: continuity_pt_opp; exact: c.
by exists 0 => //; rewrite -[0]oppr0; apply: derivable_pt_lim_opp; exact: z.
Qed.
Lemma mcont_mul k l p (f : R -> 'M[Rf]_(k, l)) (g : R -> 'M[Rf]_(l, p)) (t : Rf) : mcont f t -> mcont g t -> mcont (fun t => f t *m g t) t.
Proof.
move=> hf hg i j; apply: (cont_ext (f := fun s => \sum_q (((fun s => f s i q) * (fun s => g s q j))%F s : Rf))) => [s|].
  by rewrite mxE.
by apply: cont_sum => q; apply: continuity_pt_mult; [exact: hf | exact: hg].
Qed.
(** a linear differential equation determines its solution *)
Lemma ode_unique k l (M : 'M[Rf]_k) (z : R -> 'M[Rf]_(k, l)) (a b : Rf) : a <= b -> (forall t : Rf, a <= t <= b -> mcont z t) ->
  (forall t : Rf, a < t < b -> mderiv z t (M *m z t)) -> z b = expmR ((b - a) *: M) *m z a.
Proof.
move=> ab c d; pose E (s : Rf) := expmR ((b + (- 1) * s) *: M).
have dE s : mderiv E s (- (M *m E s)) by have := mderiv_aff (expm_deriv M (b + (- 1) * s)); rewrite scaleN1r.
have := @const_on _ _ (fun s => E s *m z s) a b ab; rewrite /E !mulN1r subrr scale0r expm0 mul1mx; apply.
  by move=> t ht; apply: mcont_mul; [exact: mderiv_cont (dE t) | exact: c].
move=> t ht; have := mderiv_mul (dE t) (d t ht); congr (mderiv _ _ _).
by rewrite /E mulNmx expm_comm mulmxA addNr.
Qed.
End Ode.

Section Opt.
Variables n m : nat.
Variable q : clqr Rf n m.
Hypotheses (sU : symm (qU q)) (pU : pd (qU q)) (sX : symm (qX q)) (pX : psd (qX q)) (sT : symm (qXT q)) (pT : psd (qXT q)).
Definition ulT := invmx (qU q) *m (qL q)^T.
Local Notation N := (qL q *m ulT).
Local Notation H := (qham q N).
Lemma ultS : qULT q = Some ulT. Proof. by rewrite /qULT solve_posE. Qed.
Local Notation CDt := (CD expmR q ulT (qXT q)).
Definition C (t : Rf) : 'M[Rf]_n := usubmx (CDt t).
Definition D (t : Rf) : 'M[Rf]_n := dsubmx (CDt t).
Lemma CD_deriv (t : Rf) : mderiv CDt t (- H *m CDt t).
Proof.
have := mderiv_mulr (col_mx 1%:M (qXT q)) (mderiv_aff (expm_deriv H (0 + (- 1) * t))).
rewrite scaleN1r add0r mulN1r -mulNmx -mulmxA; apply: mderiv_ext => s.
by rewrite add0r mulN1r.
Qed.
Lemma HCD (t : Rf) : - H *m CDt t = col_mx (- qF q *m C t + N *m D t) (qX q *m C t + (qF q)^T *m D t).
Proof. by rewrite -[CDt t]vsubmxK /qham opp_block_mx mul_block_col !opprK. Qed.
Lemma C_deriv (t : Rf) : mderiv C t (- qF q *m C t + N *m D t).
Proof. by have := mderiv_usub (CD_deriv t); rewrite HCD col_mxKu. Qed.
Lemma D_deriv (t : Rf) : mderiv D t (qX q *m C t + (qF q)^T *m D t).
Proof. by have := mderiv_dsub (CD_deriv t); rewrite HCD col_mxKd. Qed.
Lemma C0 : C 0 = 1%:M. Proof. by rewrite /C (CD0 (expmR_group _)) col_mxKu. Qed.
Lemma D0 : D 0 = qXT q. Proof. by rewrite /D (CD0 (expmR_group _)) col_mxKd. Qed.
Lemma qfN_ge0 w : 0 <= qf N w.
Proof. by rewrite /ulT mulmxA -{1}[qL q]trmxK qfM; apply: (pd_psd (pd_inv sU pU)). Qed.
Lemma qfN_eq0 w : qf N w = 0 -> N *m w = 0.
Proof.
rewrite /ulT mulmxA -{1}[qL q]trmxK qfM => e; case: (eqVneq ((qL q)^T *m w) 0) => [z|/(pd_inv sU pU)]; last by rewrite e ltxx.
by rewrite -mulmxA z mulmx0.
Qed.

Lemma unit_C (t : Rf) : 0 <= t -> C t \in unitmx.
Proof.
move=> t0; apply: unit_ker => y Cy.
have dz s := mderiv_mulr y (C_deriv s); have dw s := mderiv_mulr y (D_deriv s).
pose psi (s : Rf) := dot (C s *m y) (D s *m y).
have dpsi s : derivable_pt_lim psi s (qf N (D s *m y) + qf (qX q) (C s *m y)).
  have := dlim_dot (dz s) (dw s); congr (derivable_pt_lim _ _ _).
  rewrite !mulmxDl !mulNmx !dotE -!mulmxA [dot (qF q *m _) _]dotMl !qf_dot [dot (qL q *m _) _]dotC mulmxA.
  by rewrite -!mulmxA addrC addrA addrK addrC.
have pos s : 0 <= qf N (D s *m y) + qf (qX q) (C s *m y) by rewrite addr_ge0 // qfN_ge0.
have p0 : 0 <= psi 0 by rewrite /psi C0 D0 mul1mx -qf_dot.
have pt : psi t = 0 by rewrite /psi Cy dot0l.
have zero (s : Rf) : 0 < s < t -> N *m (D s *m y) = 0.
  move=> hs; apply: qfN_eq0.
  have := @flat_off [::] psi 0 t t0 (fun s _ => dlim_cont (dpsi s)) (fun s _ _ => ex_intro2 _ _ _ (dpsi s) (pos s)) _ s _ hs (dpsi s).
  rewrite pt => /(_ p0) /eqP; rewrite paddr_eq0 ?qfN_ge0 //; by case/andP => /eqP.
pose v (s : Rf) := expmR (s *: qF q) *m (C s *m y).
have dv s : mderiv v s (expmR (s *: qF q) *m (N *m (D s *m y))).
  have := mderiv_mul (expm_deriv (qF q) s) (dz s); congr (mderiv _ _ _).
  by rewrite expm_comm mulmxDl mulmxDr !mulNmx mulmxN -!mulmxA addrA subrr add0r.
have : v t = v 0.
  apply/matrixP => i j; apply/eqP; rewrite [_ == _](@eq_le _ Rf).
  have z (s : Rf) : 0 < s < t -> derivable_pt_lim (fun s => v s i j) s 0.
    by move=> hs; have := dv s i j; rewrite (zero s hs) mulmx0 mxE.
  have c (s : Rf) : 0 <= s <= t -> continuity_pt (fun s => v s i j) s by move=> _; exact: dlim_cont (dv s i j).
  apply/andP; split; last by apply: (mono_off (ts := [::]) (f := fun s => v s i j)) => // s hs _; exists 0; [exact: z|].
  rewrite -[X in X <= _]opprK -[X in _ <= X]opprK ler_oppl opprK.
  apply: (mono_off (ts := [::]) (f := (- (fun s => v s i j))%F)) => // [s hs|s hs _].
    by apply: continuity_pt_opp; exact: c.
  by exists 0 => //; rewrite -[0]oppr0; apply: derivable_pt_lim_opp; exact: z.
by rewrite /v Cy mulmx0 scale0r expm0 C0 !mul1mx.
Qed.

(** ** the optimal trajectory from a state x0 at time t0 *)
Local Notation T := (qT q).
Definition val_at (t0 : Rf) : 'M[Rf]_n := val expmR q ulT (qXT q) (T - t0).
Section From.
Variables (t0 : Rf) (x0 : 'cV[Rf]_n).
Hypothesis t0T : t0 <= T.
Definition yy : 'cV[Rf]_n := invmx (C (T - t0)) *m x0.
Definition xo (t : Rf) : 'cV[Rf]_n := C (T - t) *m yy.
Definition lo (t : Rf) : 'cV[Rf]_n := D (T - t) *m yy.
Definition uo (t : Rf) : 'cV[Rf]_m := - ulT *m lo t.
Definition co (t : Rf) : Rf := - (dot (xo t) (lo t) / 2%:R).
Lemma xo0 : xo t0 = x0. Proof. by rewrite /xo /yy mulKVmx // unit_C // subr_ge0. Qed.
Lemma xo_deriv t : mderiv xo t (qF q *m xo t + qL q *m uo t).
Proof.
have := mderiv_mulr yy (mderiv_aff (C_deriv (T + (- 1) * t))).
rewrite scaleN1r mulN1r => h.
have -> : qF q *m xo t + qL q *m uo t = - (- qF q *m C (T - t) + qL q *m ulT *m D (T - t)) *m yy.
  by rewrite /uo /xo /lo !mulNmx mulmxDl opprD mulNmx opprK mulmxN !mulmxA.
by apply: mderiv_ext h => s; rewrite mulN1r.
Qed.
Lemma lo_deriv t : mderiv lo t (- (qX q *m xo t + (qF q)^T *m lo t)).
Proof.
have := mderiv_mulr yy (mderiv_aff (D_deriv (T + (- 1) * t))).
rewrite scaleN1r mulN1r => h.
have -> : - (qX q *m xo t + (qF q)^T *m lo t) = - (qX q *m C (T - t) + (qF q)^T *m D (T - t)) *m yy.
  by rewrite /xo /lo mulNmx mulmxDl !mulmxA.
by apply: mderiv_ext h => s; rewrite mulN1r.
Qed.
Lemma uo_cont t : mcont uo t.
Proof. by apply: mderiv_cont; apply: mderiv_mull; exact: lo_deriv. Qed.
(** U u = - L' l *)
Lemma uo_U t : qU q *m uo t = - ((qL q)^T *m lo t).
Proof. by rewrite /uo /ulT mulNmx mulmxN -mulmxA mulKVmx // pd_unit. Qed.
Lemma dlim_half f t d : derivable_pt_lim f t d -> derivable_pt_lim (fun t => - (f t / 2%:R) : Rf) t (- (d / 2%:R) : Rf).
Proof.
move=> h; have := derivable_pt_lim_scal f (- 2%:R^-1 : Rf) t d h.
have e (z : Rf) : Rmult (- 2%:R^-1 : Rf) z = - (z / 2%:R) by rewrite RmultE mulNr mulrC.
by rewrite e; apply: dlim_ext => s; rewrite /mult_real_fct e.
Qed.
Lemma co_deriv t : derivable_pt_lim co t ((qf (qX q) (xo t) + qf (qU q) (uo t)) / 2%:R).
Proof.
have := dlim_half (dlim_dot (xo_deriv t) (lo_deriv t)); congr (derivable_pt_lim _ _ _).
rewrite -mulNr; congr (_ / _).
rewrite !dotE !qf_dot uo_U dotNr [dot (qL q *m _) _]dotMl [dot (qF q *m _) _]dotMl.
rewrite !opprD !opprK; abelr.
Qed.
Lemma driven_o : driven q xo uo co [::] t0.
Proof.
split=> t ht; last by move=> _; split; [exact: xo_deriv | exact: co_deriv].
by split; [exact: mderiv_cont (xo_deriv t) | exact: dlim_cont (co_deriv t)].
Qed.
Lemma loT : lo T = qXT q *m xo T.
Proof. by rewrite /lo /xo subrr C0 D0 mul1mx. Qed.
Lemma lo_val t : t <= T -> lo t = val_at t *m xo t.
Proof. by move=> le; rewrite /lo /xo /val_at /val mulmxA mulmxKV // unit_C // subr_ge0. Qed.
Lemma cost_o : cost_to_go q xo co t0 = qf (val_at t0) x0 / 2%:R.
Proof.
rewrite /cost_to_go /co loT -qf_dot opprK lo_val // -qf_dot xo0; abelr.
Qed.
(** no control does better *)
Lemma cost_gap x u c ts : driven q x u c ts t0 -> x t0 = x0 ->
  [/\ cost_to_go q xo co t0 <= cost_to_go q x c t0 &
      cost_to_go q x c t0 = cost_to_go q xo co t0 -> forall t : Rf, t0 < t < T -> t \notin ts -> u t = uo t].
Proof.
move=> [Hc Hd] ex.
pose d t := x t - xo t.
pose phi (t : Rf) : Rf := c t - co t + dot (d t) (lo t).
have cphi (t : Rf) : t0 <= t <= T -> continuity_pt phi t.
  move=> /Hc [cx cc]; apply: (continuity_pt_plus (fun t => c t - co t : Rf) (fun t => dot (d t) (lo t))).
    by apply: (continuity_pt_minus c co) => //; exact: dlim_cont (co_deriv t).
  by apply: cont_dot; [apply: mcont_sub => //; exact: mderiv_cont (xo_deriv t) | exact: mderiv_cont (lo_deriv t)].
have dphi (t : Rf) : t0 < t < T -> t \notin ts -> derivable_pt_lim phi t ((qf (qX q) (d t) + qf (qU q) (u t - uo t)) / 2%:R).
  move=> ht nt; have [dx dc] := Hd t ht nt.
  have dd : mderiv d t (qF q *m x t + qL q *m u t - (qF q *m xo t + qL q *m uo t)).
    by apply: mderiv_add dx _; apply: mderiv_opp; exact: xo_deriv.
  have := derivable_pt_lim_plus _ _ t _ _ (derivable_pt_lim_minus _ _ t _ _ dc (co_deriv t)) (dlim_dot dd (lo_deriv t)).
  congr (derivable_pt_lim _ _ _); rewrite RplusE RminusE.
  have qs k (A : 'M[Rf]_k) a b : symm A -> qf A (a - b) = qf A a - qf A b - dot (a - b) (A *m b) *+ 2.
    move=> sA; rewrite !qf_dot mulmxBr !dotBl !dotBr (symm_dot b a sA) mulr2n; abelr.
  have -> : dot (qF q *m x t + qL q *m u t - (qF q *m xo t + qL q *m uo t)) (lo t) =
    dot (d t) ((qF q)^T *m lo t) - dot (u t - uo t) (qU q *m uo t).
    by rewrite uo_U /d !dotE ![dot (_ *m _) (lo t)]dotMl; abelr.
  rewrite dotNr dotDr [qf _ (d t)](qs _ _ _ _ sX) -/(d t) (qs _ _ (u t) _ sU).
  set a1 := qf _ _; set a2 := qf _ _; set b1 := qf _ _; set b2 := qf _ _; set e1 := dot _ _; set e2 := dot _ _; set e3 := dot _ _.
  apply: (canRL (mulfK _)); first by rewrite pnatr_eq0.
  rewrite mulrDl mulrBl !mulfVK ?pnatr_eq0 // mulr_natr !mulr2n; abelr.
have pos (t : Rf) : 0 <= (qf (qX q) (d t) + qf (qU q) (u t - uo t)) / 2%:R.
  by rewrite mulr_ge0 ?invr_ge0 ?ler0n // addr_ge0 // pd_psd.
have p0 : phi t0 = c t0 - co t0 by rewrite /phi /d ex xo0 subrr dot0l addr0.
have pT_ : cost_to_go q x c t0 - cost_to_go q xo co t0 = phi T - phi t0 + qf (qXT q) (d T) / 2%:R.
  rewrite p0 /phi /cost_to_go loT /d !qf_dot mulmxBr !dotBl !dotBr (symm_dot (xo T) (x T) sT).
  set a1 := dot _ _; set a2 := dot _ _; set a3 := dot _ _.
  have tw (z : Rf) : z = (z + z) / 2%:R by rewrite -mulr2n -[z *+ 2]mulr_natr mulfK ?pnatr_eq0.
  rewrite [X in _ = _ + X - _ + _]tw !mulrDl !mulNr !mulrDl !mulNr; abelr.
have mono := mono_off (ts := ts) t0T cphi (fun t ht nt => ex_intro2 _ _ _ (dphi t ht nt) (pos t)).
have qd : 0 <= qf (qXT q) (d T) / 2%:R by rewrite mulr_ge0 ?invr_ge0 ?ler0n.
split; first by rewrite -subr_ge0 pT_ addr_ge0 // subr_ge0.
move=> eq t ht nt; move: pT_; rewrite eq subrr => /esym /eqP.
rewrite paddr_eq0 ?subr_ge0 // => /andP [/eqP e _].
have le : phi T <= phi t0 by rewrite -subr_le0 e.
have /eqP := flat_off t0T cphi (fun t ht nt => ex_intro2 _ _ _ (dphi t ht nt) (pos t)) le ht (dphi t ht nt).
rewrite mulf_eq0 invr_eq0 pnatr_eq0 orbF paddr_eq0 ?(pd_psd pU) // => /andP [_ /eqP e2].
apply/eqP; rewrite -subr_eq0; apply/negPn/negP => /pU; by rewrite e2 ltxx.
Qed.
End From.

(** ** the pass *)
Lemma loop_some (dt : Rf) k i acc : 0 <= dt -> exists r, qbwd_exact ulT (EE expmR q ulT dt) k (CDt (i%:R * dt)) acc = Some r.
Proof.
move=> dt0; elim: k i acc => [|k IH] i acc; first by exists acc.
rewrite /qbwd_exact -/qbwd_exact -(CD_add (expmR_group _)).
have -> : dt + i%:R * dt = i.+1%:R * dt by rewrite -[i.+1]add1n natrD mulrDl mul1r.
rewrite solve_unit ?obindS; first exact: IH.
by rewrite unitmx_tr; apply: unit_C; rewrite mulr_ge0 ?ler0n.
Qed.
Lemma pass_val steps : (0 < steps)%N -> 0 <= T -> let t j := j%:R * (T / steps%:R) in
  exists Ks Ss, [/\ clqr_seqBackwardPass expmR q steps None None Exact = Some (Ks, Ss), size Ks = steps, size Ss = steps.+1,
    forall i, (i <= steps)%N -> nth 0 Ss i = val_at (t i) & forall i, (i < steps)%N -> nth 0 Ks i = ulT *m val_at (t i)].
Proof.
move=> s0 T0 t; have dt0 : 0 <= T / steps%:R by rewrite mulr_ge0 ?invr_ge0 ?ler0n.
have [r Er] := @loop_some (T / steps%:R) steps 0 ([::], [:: qXT q]) dt0.
have [_ E] := exact_loop ultS (expmR_group _) expmR_natural sU sX sT pU Er.
have tE i : (i <= steps)%N -> T - t i = (steps - i)%:R * (T / steps%:R).
  move=> le; rewrite /t natrB // mulrBl; congr (_ - _); rewrite mulrC mulfVK // pnatr_eq0; lia.
exists r.1, r.2; split.
- rewrite /clqr_seqBackwardPass /qdt_or /=.
  case: eqP => [/eqP|_]; first by rewrite ?pnatr_eq0; lia.
  rewrite !obindS ultS obindS; move: Er; rewrite mul0r (CD0 (expmR_group _)) /EE => ->.
  by case: (r).
- by rewrite E /= cats0 size_map size_rev size_iota.
- by rewrite E /= size_cat size_map size_rev size_iota addn1.
- move=> i le; rewrite E /val_at tE //= nth_cat size_map size_rev size_iota; case: (ltngtP i steps) le => // [lt _|-> _].
    by rewrite (nth_rev_map 0 (fun j => val expmR q ulT (qXT q) (j%:R * (T / steps%:R)))).
  by rewrite subnn mul0r val0 //; exact: expmR_group.
move=> i lt; rewrite E /val_at tE ?(ltnW lt) //= cats0.
by rewrite (nth_rev_map 0 (fun j => ulT *m val expmR q ulT (qXT q) (j%:R * (T / steps%:R)))).
Qed.
Theorem exact_optimal steps : (0 < steps)%N -> 0 <= T -> let t j := j%:R * (T / steps%:R) in
  exists Ks Ss, [/\ clqr_seqBackwardPass expmR q steps None None Exact = Some (Ks, Ss), size Ks = steps, size Ss = steps.+1 &
  forall i, (i <= steps)%N ->
  [/\ forall x u c ts, driven q x u c ts (t i) -> qf (nth 0 Ss i) (x (t i)) / 2%:R <= cost_to_go q x c (t i),
      forall x0, exists x u c, [/\ driven q x u c [::] (t i), x (t i) = x0, forall s, mcont u s,
        cost_to_go q x c (t i) = qf (nth 0 Ss i) x0 / 2%:R & forall j, (i <= j < steps)%N -> u (t j) = - nth 0 Ks j *m x (t j)]
    & forall x u c ts x' u' c' ts', driven q x u c ts (t i) -> driven q x' u' c' ts' (t i) -> x (t i) = x' (t i) ->
        cost_to_go q x c (t i) = qf (nth 0 Ss i) (x (t i)) / 2%:R -> cost_to_go q x' c' (t i) = qf (nth 0 Ss i) (x (t i)) / 2%:R ->
        forall s : Rf, t i < s < T -> s \notin ts -> s \notin ts' -> u s = u' s]].
Proof.
move=> s0 T0 t; have [Ks [Ss [E sK sS HS HK]]] := pass_val s0 T0.
exists Ks, Ss; split=> // i le; rewrite HS //.
have tT j : (j <= steps)%N -> t j <= T.
  move=> lj; rewrite /t mulrCA ler_pimulr // ler_pdivr_mulr ?ltr0n // mul1r ler_nat //.
have ti := tT i le.
split.
- by move=> x u c ts dr; have [] := cost_gap ti dr erefl; rewrite cost_o.
- move=> x0; exists (xo (t i) x0), (uo (t i) x0), (co (t i) x0); split; first exact: driven_o.
  + exact: xo0.
  + by move=> s; exact: uo_cont.
  + exact: cost_o.
  + by move=> j /andP [_ lj]; rewrite HK // /uo lo_val ?tT ?(ltnW lj) // !mulNmx mulmxA.
move=> x u c ts x' u' c' ts' dr dr' ex eq eq' s hs ns ns'.
have [_ h] := cost_gap ti dr erefl; have [_ h'] := cost_gap ti dr' (esym ex).
by rewrite h // ?h' // ?cost_o // ?eq ?eq'.
Qed.
End Opt.
