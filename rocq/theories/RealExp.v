(** The matrix exponential over the real numbers: derivative, group property, naturality. *)
From Coq Require Import Reals Lra.
From Coquelicot Require Import Rbar Lim_seq Series PSeries Derive Hierarchy.
From mathcomp Require Import all_ssreflect all_algebra.
From Verif Require Import RealF LinModSpec RealExpSpec.
Import Order.TTheory GRing.Theory Num.Theory.
Set Implicit Arguments. Unset Strict Implicit. Unset Printing Implicit Defensive.
Local Open Scope ring_scope.
Delimit Scope R_scope with Re.

Local Notation mpow := mxpow.
(** ** derivatives *)
Section Deriv.
Lemma dlim_ext f g t d : (forall s, f s = g s) -> derivable_pt_lim f t d -> derivable_pt_lim g t d.
Proof. by move=> e H eps he; have [del Hd] := H eps he; exists del => h h0 hh; rewrite -!e; exact: Hd. Qed.
Lemma dlim_sum (I : Type) (r : seq I) (f : I -> R -> R) (d : I -> R) t : (forall i, derivable_pt_lim (f i) t (d i)) ->
  derivable_pt_lim (fun t => \sum_(i <- r) (f i t : Rf)) t (\sum_(i <- r) (d i : Rf)).
Proof.
move=> H; elim: r => [|i r IH].
  rewrite big_nil; apply: (dlim_ext (f := fun _ => 0)); first by move=> s; rewrite big_nil.
  exact: derivable_pt_lim_const.
rewrite big_cons; apply: (dlim_ext (f := (f i + (fun t => \sum_(j <- r) (f j t : Rf)))%F)).
  by move=> s; rewrite big_cons.
exact: derivable_pt_lim_plus.
Qed.
Lemma mderiv_ext k l (f g : R -> 'M[Rf]_(k, l)) t D : (forall s, f s = g s) -> mderiv f t D -> mderiv g t D.
Proof. by move=> e H i j; apply: (dlim_ext (f := fun t => f t i j)) => // s; rewrite e. Qed.
Lemma mderiv_const k l (A : 'M[Rf]_(k, l)) t : mderiv (fun _ => A) t 0.
Proof. by move=> i j; rewrite mxE; exact: derivable_pt_lim_const. Qed.
Lemma mderiv_add k l (f g : R -> 'M[Rf]_(k, l)) t D E : mderiv f t D -> mderiv g t E -> mderiv (fun t => f t + g t) t (D + E).
Proof.
move=> Hf Hg i j; rewrite mxE; apply: (dlim_ext (f := ((fun t => f t i j) + (fun t => g t i j))%F)) => [s|].
  by rewrite mxE.
exact: derivable_pt_lim_plus.
Qed.
Lemma mderiv_mul k l p (f : R -> 'M[Rf]_(k, l)) (g : R -> 'M[Rf]_(l, p)) t D E : mderiv f t D -> mderiv g t E ->
  mderiv (fun t => f t *m g t) t (D *m g t + f t *m E).
Proof.
move=> Hf Hg i j; rewrite !mxE -big_split /=.
apply: (dlim_ext (f := fun s => \sum_q (((fun s => f s i q) * (fun s => g s q j))%F s : Rf))) => [s|]; first by rewrite mxE.
by apply: dlim_sum => q; exact: derivable_pt_lim_mult.
Qed.
Lemma mderiv_mull k l p (A : 'M[Rf]_(k, l)) (g : R -> 'M[Rf]_(l, p)) t E : mderiv g t E -> mderiv (fun t => A *m g t) t (A *m E).
Proof. by move=> H; have := mderiv_mul (mderiv_const A t) H; rewrite mul0mx add0r. Qed.
Lemma mderiv_mulr k l p (A : 'M[Rf]_(l, p)) (f : R -> 'M[Rf]_(k, l)) t E : mderiv f t E -> mderiv (fun t => f t *m A) t (E *m A).
Proof. by move=> H; have := mderiv_mul H (mderiv_const A t); rewrite mulmx0 addr0. Qed.
Lemma mderiv_opp k l (f : R -> 'M[Rf]_(k, l)) t D : mderiv f t D -> mderiv (fun t => - f t) t (- D).
Proof.
move=> H i j; rewrite mxE; apply: (dlim_ext (f := (- (fun t => f t i j))%F)) => [s|]; first by rewrite mxE.
exact: derivable_pt_lim_opp.
Qed.
Lemma mderiv_tr k l (f : R -> 'M[Rf]_(k, l)) t D : mderiv f t D -> mderiv (fun t => (f t)^T) t D^T.
Proof. by move=> H i j; rewrite mxE; apply: (dlim_ext (f := fun t => f t j i)) => [s|//]; rewrite mxE. Qed.
Lemma mderiv_usub k l p (f : R -> 'M[Rf]_(k + l, p)) t D : mderiv f t D -> mderiv (fun t => usubmx (f t)) t (usubmx D).
Proof. by move=> H i j; rewrite mxE; apply: (dlim_ext (f := fun t => f t (lshift l i) j)) => [s|//]; rewrite mxE. Qed.
Lemma mderiv_dsub k l p (f : R -> 'M[Rf]_(k + l, p)) t D : mderiv f t D -> mderiv (fun t => dsubmx (f t)) t (dsubmx D).
Proof. by move=> H i j; rewrite mxE; apply: (dlim_ext (f := fun t => f t (rshift k i) j)) => [s|//]; rewrite mxE. Qed.
(** substitution of a + c t *)
Lemma dlim_aff (a c : R) t : derivable_pt_lim (fun t => a + c * t)%Re t c.
Proof.
have H := derivable_pt_lim_plus _ _ t _ _ (derivable_pt_lim_const a t) (derivable_pt_lim_scal id c t _ (derivable_pt_lim_id t)).
by move: H; rewrite Rplus_0_l Rmult_1_r; apply: dlim_ext.
Qed.
Lemma mderiv_aff k l (f : R -> 'M[Rf]_(k, l)) (a c t : Rf) D : mderiv f (a + c * t) D -> mderiv (fun t => f (a + c * t)) t (c *: D).
Proof.
move=> H i j; rewrite mxE mulrC.
exact: (derivable_pt_lim_comp (fun t => a + c * t)%Re (fun t => f t i j) t c (D i j) (dlim_aff a c t) (H i j)).
Qed.
Lemma dlim_cont f t d : derivable_pt_lim f t d -> continuity_pt f t.
Proof. by move=> H; apply: derivable_continuous_pt; exists d. Qed.
End Deriv.

(** ** the series *)
Section Exp.
Definition nrm k l (A : 'M[Rf]_(k, l)) : Rf := \sum_i \sum_j `|A i j|.
Lemma nrm_ge0 k l (A : 'M[Rf]_(k, l)) : 0 <= nrm A.
Proof. by apply: sumr_ge0 => i _; apply: sumr_ge0 => j _. Qed.
Lemma row_nrm k l (A : 'M[Rf]_(k, l)) i : \sum_j `|A i j| <= nrm A.
Proof. by rewrite /nrm (bigD1 i) //= ler_addl; apply: sumr_ge0 => i' _; apply: sumr_ge0 => j _. Qed.
Lemma mpowS n (A : 'M[Rf]_n) k : mpow A k.+1 = A *m mpow A k. Proof. by []. Qed.
Lemma mpow_bound n (A : 'M[Rf]_n) k i j : `|mpow A k i j| <= nrm A ^+ k.
Proof.
elim: k i => [|k IH] i; first by rewrite /mpow /= mxE; case: eqP; rewrite expr0 ?normr1 ?normr0 ?ler01.
rewrite mpowS mxE exprS; apply: (le_trans (ler_norm_sum _ _ _)).
apply: (@le_trans _ _ (\sum_l `|A i l| * nrm A ^+ k)).
  by apply: ler_sum => l _; rewrite normrM ler_wpmul2l.
by rewrite -mulr_suml ler_wpmul2r ?exprn_ge0 ?nrm_ge0 // row_nrm.
Qed.
Lemma mpow_scale n (A : 'M[Rf]_n) (h : Rf) k : mpow (h *: A) k = h ^+ k *: mpow A k.
Proof. by elim: k => [|k IH]; rewrite ?expr0 ?scale1r // !mpowS IH -scalemxAl -scalemxAr scalerA exprS. Qed.
Lemma powE (h : Rf) k : (pow h k) = h ^+ k.
Proof. by elim: k => [//|k IH]; rewrite exprS /= IH. Qed.
Lemma factE k : INR (fact k) = k`!%:R :> Rf.
Proof. by rewrite INRE; congr (_ *+ _); elim: k => [//|k IH]; rewrite factS -IH. Qed.
Lemma fact_neq0 k : k`!%:R != 0 :> Rf. Proof. by rewrite pnatr_eq0 -lt0n fact_gt0. Qed.
Definition coef (n : nat) (A : 'M[Rf]_n) i j (k : nat) : Rf := mpow A k i j / k`!%:R.

Lemma coef_bounded n (A : 'M[Rf]_n) i j (r : Rf) : exists M, forall k, (Rabs (coef A i j k * pow r k) <= M)%Re.
Proof.
have [M [_ HM]] := maj_by_pos (fun k => pow (nrm A * `|r|) k / INR (fact k))%Re (exist _ R0 (cv_speed_pow_fact (nrm A * `|r|))).
exists M => k; apply: Rle_trans (HM k); apply/RleP.
have f0 : 0 < k`!%:R :> Rf by rewrite ltr0n fact_gt0.
rewrite /Rdiv factE RinvE ?fact_neq0 // !powE !RmultE !RabsE !normrM normfV (gtr0_norm f0) !normrX normrM normr_id (ger0_norm (nrm_ge0 A)).
rewrite mulrAC exprMn ler_wpmul2r ?invr_ge0 ?ler0n //.
by rewrite ler_wpmul2r ?exprn_ge0 // mpow_bound.
Qed.
Lemma coef_radius n (A : 'M[Rf]_n) i j : CV_radius (coef A i j) = p_infty.
Proof.
have [ub _] := CV_radius_bounded (coef A i j).
case e : (CV_radius (coef A i j)) => [r | |] //; rewrite e in ub.
  by have := ub (r + 1)%Re (coef_bounded A i j (r + 1)%Re); rewrite /Rbar_le => h; exfalso; lra.
by have := ub R0 (coef_bounded A i j R0).
Qed.
Lemma in_radius n (A : 'M[Rf]_n) i j x : Rbar_lt (Rabs x) (CV_radius (coef A i j)). Proof. by rewrite coef_radius. Qed.
Lemma coef_ex n (A : 'M[Rf]_n) i j x : ex_pseries (coef A i j) x. Proof. exact: CV_radius_inside (in_radius A i j x). Qed.

Lemma expmE n (A : 'M[Rf]_n) (h : Rf) i j : expmR (h *: A) i j = PSeries (coef A i j) h.
Proof.
rewrite mxE /PSeries; apply: Series_ext => k.
by rewrite mpow_scale mxE powE /coef RmultE -mulrA mulrC.
Qed.
Lemma expm1E n (A : 'M[Rf]_n) i j : expmR A i j = PSeries (coef A i j) 1. Proof. by rewrite -expmE scale1r. Qed.

(** linear combinations of power series *)
Lemma pseries0 x : PSeries (fun _ => R0) x = R0.
Proof. exact: PSeries_const_0. Qed.
Lemma ex_pseries_sum (I : Type) (r : seq I) (c : I -> Rf) (a : I -> nat -> R) x : (forall i, ex_pseries (a i) x) ->
  ex_pseries (fun k => \sum_(i <- r) c i * (a i k : Rf)) x /\
  PSeries (fun k => \sum_(i <- r) c i * (a i k : Rf)) x = \sum_(i <- r) c i * (PSeries (a i) x : Rf).
Proof.
move=> H; elim: r => [|i r [IH1 IH2]].
  have e : forall k, \sum_(i <- [::]) c i * (a i k : Rf) = R0 by move=> k; rewrite big_nil.
  split; first by apply: (ex_pseries_ext (fun _ => R0)) => [k|]; [rewrite e | rewrite /ex_pseries; apply: CV_radius_inside; rewrite CV_radius_const_0].
  by rewrite big_nil; transitivity (PSeries (fun _ => R0) x); [apply: PSeries_ext => k; exact: e | exact: pseries0].
have e k : PS_plus (PS_scal (c i) (a i)) (fun k => \sum_(j <- r) c j * (a j k : Rf)) k = \sum_(j <- i :: r) c j * (a j k : Rf).
  by rewrite big_cons.
have h1 : ex_pseries (PS_scal (c i) (a i)) x by apply: ex_pseries_scal (H i); exact: Rmult_comm.
split; first by apply: (ex_pseries_ext _ _ x e); exact: ex_pseries_plus.
rewrite big_cons -(PSeries_ext _ _ x e) PSeries_plus // PSeries_scal IH2 //.
Qed.

Lemma coef_derive n (A : 'M[Rf]_n) i j k : PS_derive (coef A i j) k = \sum_l A i l * coef A l j k.
Proof.
rewrite /PS_derive /coef INRE RmultE mpowS mxE factS natrM invfM mulrCA [X in _ * X]mulrA divff ?pnatr_eq0 // mul1r mulr_suml.
by apply: eq_bigr => l _; rewrite mulrA.
Qed.
Theorem expm_deriv n (A : 'M[Rf]_n) (t : Rf) : mderiv (fun h => expmR (h *: A)) t (A *m expmR (t *: A)).
Proof.
move=> i j; apply: (dlim_ext (f := PSeries (coef A i j))) => [s|]; first by rewrite expmE.
have := is_derive_PSeries (coef A i j) t (in_radius A i j t); move/is_derive_Reals.
rewrite (PSeries_ext _ _ t (coef_derive A i j)) (proj2 (ex_pseries_sum _ _ (fun l => coef_ex A l j t))).
by rewrite mxE; under [X in _ -> derivable_pt_lim _ _ X]eq_bigr do rewrite expmE.
Qed.
Theorem expm_natural k l (A : 'M[Rf]_k) (B : 'M[Rf]_l) (P : 'M[Rf]_(k, l)) : A *m P = P *m B -> expmR A *m P = P *m expmR B.
Proof.
move=> e; have eP s : mpow A s *m P = P *m mpow B s.
  by elim: s => [|s IH]; rewrite ?mpowS /mpow /= ?mul1mx ?mulmx1 // -/(mpow A s) -/(mpow B s) -mulmxA IH mulmxA e mulmxA.
apply/matrixP => i j; rewrite !mxE.
transitivity (PSeries (fun s => \sum_l P l j * coef A i l s) 1).
  by rewrite (proj2 (ex_pseries_sum _ _ (fun l => coef_ex A i l 1))); apply: eq_bigr => q _; rewrite expm1E mulrC.
transitivity (PSeries (fun s => \sum_l P i l * coef B l j s) 1); last first.
  by rewrite (proj2 (ex_pseries_sum _ _ (fun l => coef_ex B l j 1))); apply: eq_bigr => q _; rewrite expm1E.
apply: PSeries_ext => s; have := congr1 (fun M : 'M[Rf]_(k, l) => M i j / s`!%:R) (eP s); rewrite !mxE !mulr_suml => h.
transitivity (\sum_q mpow A s i q * P q j / s`!%:R); first by apply: eq_bigr => q _; rewrite /coef mulrA [P q j * _]mulrC.
by rewrite h; apply: eq_bigr => q _; rewrite /coef mulrA.
Qed.
Lemma mpow_comm n (A : 'M[Rf]_n) k : mpow A k *m A = A *m mpow A k.
Proof. by elim: k => [|k IH]; rewrite ?mpowS /mpow /= ?mul1mx ?mulmx1 // -/(mpow A k) -mulmxA IH. Qed.
Theorem expm_tr n (A : 'M[Rf]_n) : expmR A^T = (expmR A)^T.
Proof.
have e k : mpow A^T k = (mpow A k)^T by elim: k => [|k IH]; rewrite ?mpowS ?IH -?trmx_mul ?mpow_comm // /mpow /= trmx1.
by apply/matrixP => i j; rewrite !mxE; apply: Series_ext => k; rewrite e mxE.
Qed.
Lemma expm0 n : expmR (0 : 'M[Rf]_n) = 1%:M.
Proof. by apply/matrixP => i j; rewrite -(scale0r 0) expmE PSeries_0 /coef /mpow /= fact0 divr1. Qed.
Lemma expm_comm n (A : 'M[Rf]_n) (t : Rf) : A *m expmR (t *: A) = expmR (t *: A) *m A.
Proof. by apply/esym; apply: expm_natural; rewrite -scalemxAl -scalemxAr. Qed.
(** ** functions without derivative are constant *)
Lemma dlim0_const (f : R -> R) a b : (forall t, derivable_pt_lim f t 0) -> f a = f b.
Proof.
move=> H; pose pr : derivable f := fun t => exist _ R0 (H t).
have h0 t : derive_pt f t (pr t) = R0 by apply: derive_pt_eq_0; exact: H.
exact: (null_derivative_1 f pr h0).
Qed.
Lemma mderiv0_const k l (f : R -> 'M[Rf]_(k, l)) a b : (forall t, mderiv f t 0) -> f a = f b.
Proof. by move=> H; apply/matrixP => i j; apply: (dlim0_const (f := fun t => f t i j)) => t; have := H t i j; rewrite mxE. Qed.
Theorem expm_add n (A : 'M[Rf]_n) (a b : Rf) : expmR ((a + b) *: A) = expmR (a *: A) *m expmR (b *: A).
Proof.
pose g (s : Rf) := expmR ((a + b + (- 1) * s) *: A) *m expmR (s *: A).
have -> : expmR (a *: A) *m expmR (b *: A) = g b by rewrite /g mulN1r addrK.
have -> : expmR ((a + b) *: A) = g 0 by rewrite /g mulr0 addr0 scale0r expm0 mulmx1.
apply: mderiv0_const => t.
have := mderiv_mul (mderiv_aff (expm_deriv A (a + b + (- 1) * t))) (expm_deriv A t).
by rewrite scaleN1r mulNmx mulmxA -expm_comm addNr.
Qed.
Lemma expm_invl n (A : 'M[Rf]_n) (a : Rf) : expmR (- a *: A) *m expmR (a *: A) = 1%:M.
Proof. by rewrite -expm_add addNr scale0r expm0. Qed.
End Exp.
