(** The differential equations of the tracker describe the optimal control problem. *)
From Coq Require Import Reals.
From mathcomp Require Import all_ssreflect all_algebra.
From Verif Require Import RealF MxBase LqtModel LqtCore LinComb ClqtModel ClqtPack ClqtFwd2 RealExpSpec RealExp ClqrOpt TrackOptSpec TvarSpec TvarInv RealDisc RkConvC.
Import Order.TTheory GRing.Theory Num.Theory.
Set Implicit Arguments. Unset Strict Implicit. Unset Printing Implicit Defensive.
Local Open Scope ring_scope.

Lemma dlim_half2 f t d : derivable_pt_lim f t d -> derivable_pt_lim (fun t => f t / 2%:R : Rf) t (d / 2%:R : Rf).
Proof.
move=> h; have := derivable_pt_lim_scal f (2%:R^-1 : Rf) t d h.
have e (z : Rf) : Rmult (2%:R^-1 : Rf) z = z / 2%:R by rewrite RmultE mulrC.
by rewrite e; apply: dlim_ext => s; rewrite /mult_real_fct e.
Qed.
Section Tvar.
Variables n m p pT : nat.
Variable P : clqt Rf n m p pT.
Variable t0 : Rf.
Hypothesis t0T : t0 <= kT P.
Hypothesis wP : tracking_weights P t0.
Local Notation T := (kT P).
Definition ulT (t : Rf) : 'M[Rf]_(m, n) := invmx (kU P t) *m (kL P t)^T.
Definition nn (t : Rf) : 'M[Rf]_n := kL P t *m ulT t.
Lemma ULT_E (t : Rf) : t0 <= t <= T -> ULT P t = Some (ulT t).
Proof. by case: wP => _ w /w [_ s pd_]; rewrite /ULT solve_posE. Qed.
Lemma U_ul (t : Rf) : t0 <= t <= T -> kU P t *m ulT t = (kL P t)^T.
Proof. by case: wP => _ w /w [_ s pd_]; rewrite /ulT mulKVmx // pd_unit. Qed.
Lemma ric_E (t : Rf) S v y : t0 <= t <= T -> riccati_ode_f P (pack_Sv (S, v)) t = Some (pack_Sv y) -> y = riccati_rhs P t (nn t) (S, v).
Proof.
move=> ht; rewrite /riccati_ode_f (ULT_E ht) obindS Sv_unpack => /Some_inj e.
by rewrite -[y]Sv_unpack -e Sv_unpack.
Qed.
Section Sol.
Variables (S : R -> 'M[Rf]_n) (v : R -> 'cV[Rf]_n) (ts : seq Rf).
Hypothesis sol : backward_solution P S v ts t0.
Definition fb (t : Rf) (x : 'cV[Rf]_n) : 'cV[Rf]_m := - (ulT t *m S t) *m x + ulT t *m v t.
Lemma feedbackE x u us : feedback P S v x u us t0 <-> (forall t : Rf, t0 < t < T -> t \notin us -> u t = fb t (x t)).
Proof.
split=> H t ht nt.
  have [K [d [e ->]]] := H t ht nt.
  move: e; rewrite /bwd_gain mul0r addr0 ULT_E /=; last by case/andP: ht => h1 h2; rewrite !ltW.
  by move=> [<- <-].
exists (ulT t *m S t), (ulT t *m v t); split; last exact: H.
by rewrite /bwd_gain mul0r addr0 ULT_E //; case/andP: ht => h1 h2; rewrite !ltW.
Qed.
(** the cost so far plus the value of the state *)
Definition pot (x : R -> 'cV[Rf]_n) (c : R -> Rf) (t : Rf) : Rf := c t + (dot (x t) (S t *m x t) / 2%:R - dot (v t) (x t)).
Definition sig (t : Rf) : Rf := qf (kX P t) (kr P t) / 2%:R - dot (v t) (kc P t) - qf (kU P t) (ulT t *m v t) / 2%:R.
Lemma alg (F N dS Q : 'M[Rf]_n) (L : 'M[Rf]_(n, m)) (ul : 'M[Rf]_(m, n)) (X : 'M[Rf]_p) (U : 'M[Rf]_m) (H : 'M[Rf]_(p, n)) (r : 'cV[Rf]_p)
    (c w dv x dx : 'cV[Rf]_n) (u f : 'cV[Rf]_m) : symm Q -> symm X -> symm U -> U *m ul = L^T -> N = L *m ul ->
  dS = - F^T *m Q - Q *m F + Q *m N *m Q - H^T *m X *m H -> dv = - H^T *m X *m r + Q *m c - F^T *m w + Q *m N *m w ->
  dx = F *m x + c + L *m u -> f = - (ul *m Q) *m x + ul *m w ->
  (qf X (H *m x - r) + qf U u) / 2%:R + ((dot dx (Q *m x) + dot x (dS *m x + Q *m dx)) / 2%:R - (dot dv x + dot w dx)) =
  qf X r / 2%:R - dot w c - qf U (ul *m w) / 2%:R + qf U (u - f) / 2%:R.
Proof.
move=> sQ sX sU eU eN -> -> -> ->.
set y := Q *m x.
have nz : (2%:R : Rf) != 0 by rewrite pnatr_eq0.
have e1 : qf X (H *m x - r) = dot (H *m x) (X *m (H *m x)) - dot (H *m x) (X *m r) *+ 2 + qf X r.
  by rewrite !qf_dot mulmxBr !dotBl !dotBr (symm_dot r (H *m x) sX) mulr2n; abelr.
have e2 : dot (F *m x + c + L *m u) y = dot (F *m x) y + dot c y + dot (L *m u) y by rewrite !dotDl.
have e3 : dot x (Q *m (F *m x + c + L *m u)) = dot (F *m x) y + dot c y + dot (L *m u) y.
  by rewrite dotMr sQ -/y dotC e2.
have e4 : dot x ((- F^T *m Q - Q *m F + Q *m N *m Q - H^T *m X *m H) *m x) = dot (N *m y) y - dot (F *m x) y *+ 2 - dot (H *m x) (X *m (H *m x)).
  rewrite !mulmxDl !mulNmx !dotDr !dotNr -!mulmxA -/y.
  have -> : dot x (F^T *m y) = dot (F *m x) y by rewrite dotMr trmxK.
  have -> : dot x (Q *m (F *m x)) = dot (F *m x) y by rewrite dotMr sQ dotC.
  have -> : dot x (Q *m (N *m y)) = dot (N *m y) y by rewrite dotMr sQ dotC.
  have -> : dot x (H^T *m (X *m (H *m x))) = dot (H *m x) (X *m (H *m x)) by rewrite dotMr trmxK.
  by rewrite mulr2n; abelr.
have e5 : dot (- H^T *m X *m r + Q *m c - F^T *m w + Q *m N *m w) x = - dot (H *m x) (X *m r) + dot c y - dot w (F *m x) + dot (N *m w) y.
  rewrite !dotDl !mulNmx !dotNl -!mulmxA.
  have -> : dot (H^T *m (X *m r)) x = dot (H *m x) (X *m r) by rewrite dotMl trmxK dotC.
  have -> : dot (Q *m c) x = dot c y by rewrite dotMl sQ.
  have -> : dot (F^T *m w) x = dot w (F *m x) by rewrite dotMl trmxK.
  by have -> : dot (Q *m (N *m w)) x = dot (N *m w) y by rewrite dotMl sQ.
have sN : N^T = N.
  have eul : ul^T *m U = L by rewrite -[X in _ *m X]sU -trmx_mul eU trmxK.
  by rewrite eN trmx_mul -eU mulmxA eul.
have e6 : dot w (F *m x + c + L *m u) = dot w (F *m x) + dot w c + dot w (L *m u) by rewrite !dotDr.
have e7 (a b : 'cV[Rf]_n) : dot (ul *m a) (U *m (ul *m b)) = dot (N *m a) b.
  by rewrite mulmxA eU eN dotMr trmxK mulmxA.
have e8 : qf U (u - (- (ul *m Q) *m x + ul *m w)) = qf U u + dot (L *m u) y *+ 2 - dot w (L *m u) *+ 2 + dot (N *m y) y - dot (N *m w) y *+ 2 + dot (N *m w) w.
  rewrite mulNmx -mulmxA -/y opprD opprK !qf_dot !mulmxDr !dotDl !dotDr !mulmxN !dotNr !dotNl !e7.
  have eu a : dot u (U *m (ul *m a)) = dot (L *m u) a by rewrite mulmxA eU dotMr trmxK.
  rewrite (symm_dot (ul *m y) u sU) (symm_dot (ul *m w) u sU) !eu [dot (L *m u) w]dotC.
  have -> : dot (N *m y) w = dot (N *m w) y by rewrite dotMl sN dotC.
  by rewrite !mulr2n; abelr.
rewrite e1 e2 [dot x (_ + Q *m _)]dotDr e3 e4 e5 e6 e8 [qf U (ul *m w)]qf_dot e7.
apply: (mulIf nz); rewrite !(mulrDl, mulNr) !mulfVK // !mulr_natr !mulr2n; abelr.
Qed.
Lemma pot_deriv x u c us (t : Rf) : steered P x u c us t0 -> t0 < t < T -> t \notin ts -> t \notin us ->
  derivable_pt_lim (pot x c) t (sig t + qf (kU P t) (u t - fb t (x t)) / 2%:R).
Proof.
move=> [_ Hd] ht nt nu; have [dx dc] := Hd t ht nu.
have ht' : t0 <= t <= T by case/andP: ht => h1 h2; rewrite !ltW.
case: (sol) => _ _ Hs /(_ t ht nt) [dS [dv [e hS hv]]].
have [_ _ sS] := Hs t ht'.
have := ric_E ht' e; rewrite /riccati_rhs => -[eS ev].
have [sX sU pU] := (proj2 wP) t ht'.
have := derivable_pt_lim_plus _ _ t _ _ dc (derivable_pt_lim_minus _ _ t _ _ (dlim_half2 (dlim_dot dx (mderiv_mul hS dx))) (dlim_dot hv dx)).
congr (derivable_pt_lim _ _ _).
exact: (alg sS sX sU (U_ul ht') erefl eS ev erefl erefl).
Qed.
Lemma pot_cont x u c us (t : Rf) : steered P x u c us t0 -> t0 <= t <= T -> continuity_pt (pot x c) t.
Proof.
move=> [Hc _] ht; have [cx cc] := Hc t ht; case: (sol) => _ _ /(_ t ht) [cS cv _] _.
apply: (continuity_pt_plus c (fun t => dot (x t) (S t *m x t) / 2%:R - dot (v t) (x t) : Rf)) => //.
apply: (continuity_pt_minus (fun t => dot (x t) (S t *m x t) / 2%:R : Rf) (fun t => dot (v t) (x t))); last exact: cont_dot.
apply: (cont_ext (f := mult_real_fct (2%:R^-1 : Rf) (fun t => dot (x t) (S t *m x t)))) => [s|].
  by rewrite /mult_real_fct RmultE mulrC.
by apply: continuity_pt_scal; apply: cont_dot => //; exact: mcont_mul.
Qed.
Lemma pot_T x c : pot x c T = tracking_cost P x c t0 + c t0 - qf (kXT P) (krT P) / 2%:R.
Proof.
case: (sol) => eS ev _ _; rewrite /pot /tracking_cost eS ev.
have [sX _] := wP.
have -> : qf (kXT P) (kHT P *m x T - krT P) = dot (x T) ((kHT P)^T *m kXT P *m kHT P *m x T) - dot ((kHT P)^T *m kXT P *m krT P) (x T) *+ 2 + qf (kXT P) (krT P).
  rewrite !qf_dot mulmxBr !dotBl !dotBr (symm_dot (krT P) (kHT P *m x T) sX) -!mulmxA.
  have -> : dot (x T) ((kHT P)^T *m (kXT P *m (kHT P *m x T))) = dot (kHT P *m x T) (kXT P *m (kHT P *m x T)) by rewrite dotMr trmxK.
  have -> : dot ((kHT P)^T *m (kXT P *m krT P)) (x T) = dot (kHT P *m x T) (kXT P *m krT P) by rewrite dotMl trmxK dotC.
  by rewrite mulr2n; abelr.
have nz : (2%:R : Rf) != 0 by rewrite pnatr_eq0.
apply: (mulIf nz); rewrite !(mulrDl, mulNr) !mulfVK // !mulr_natr !mulr2n; abelr.
Qed.
(** a feedback control does at least as well as every other control *)
Lemma fb_optimal x u c us x' u' c' us' : steered P x u c us t0 -> feedback P S v x u us t0 -> steered P x' u' c' us' t0 -> x' t0 = x t0 ->
  tracking_cost P x c t0 <= tracking_cost P x' c' t0 /\
  (tracking_cost P x' c' t0 = tracking_cost P x c t0 -> feedback P S v x' u' (ts ++ us ++ us') t0).
Proof.
move=> Hs /feedbackE Hf Hs' e0.
pose phi (t : Rf) : Rf := pot x' c' t - pot x c t.
have cphi (t : Rf) : t0 <= t <= T -> continuity_pt phi t.
  by move=> ht; apply: (continuity_pt_minus (pot x' c') (pot x c)); apply: pot_cont ht; eassumption.
have dphi (t : Rf) : t0 < t < T -> t \notin ts ++ us ++ us' -> derivable_pt_lim phi t (qf (kU P t) (u' t - fb t (x' t)) / 2%:R).
  rewrite !mem_cat !negb_or => ht /and3P [n1 n2 n3].
  have := derivable_pt_lim_minus _ _ t _ _ (pot_deriv Hs' ht n1 n3) (pot_deriv Hs ht n1 n2).
  congr (derivable_pt_lim _ _ _); rewrite (Hf t ht n2) subrr qf0 mul0r RminusE; abelr.
have pos (t : Rf) : t0 < t < T -> 0 <= qf (kU P t) (u' t - fb t (x' t)) / 2%:R.
  move=> /andP [h1 h2]; have [_ _ pU] : [/\ symm (kX P t), symm (kU P t) & pd (kU P t)] by apply: (proj2 wP); rewrite !ltW.
  by rewrite mulr_ge0 ?invr_ge0 ?ler0n // pd_psd.
have gap : tracking_cost P x' c' t0 - tracking_cost P x c t0 = phi T - phi t0.
  rewrite /phi !pot_T /pot e0; abelr.
have mono := mono_off (ts := ts ++ us ++ us') t0T cphi (fun t ht nt => ex_intro2 _ _ _ (dphi t ht nt) (pos t ht)).
split; first by rewrite -subr_ge0 gap subr_ge0.
move=> eq; apply/feedbackE => t ht nt.
have le : phi T <= phi t0 by rewrite -subr_le0 -gap eq subrr.
have /eqP := flat_off t0T cphi (fun t ht nt => ex_intro2 _ _ _ (dphi t ht nt) (pos t ht)) le ht (dphi t ht nt).
rewrite mulf_eq0 invr_eq0 pnatr_eq0 orbF => /eqP e2.
have [_ _ pU] : [/\ symm (kX P t), symm (kU P t) & pd (kU P t)] by case/andP: ht => h1 h2; apply: (proj2 wP); rewrite !ltW.
by apply/eqP; rewrite -subr_eq0; apply/negPn/negP => /pU; rewrite e2 ltxx.
Qed.
(** S and v are the optimal cost up to a constant *)
Lemma fb_value x u c us x' u' c' us' : steered P x u c us t0 -> feedback P S v x u us t0 -> steered P x' u' c' us' t0 -> feedback P S v x' u' us' t0 ->
  tracking_cost P x' c' t0 - tracking_cost P x c t0 = value (S t0) (v t0) 0 (x' t0) - value (S t0) (v t0) 0 (x t0).
Proof.
move=> Hs /feedbackE Hf Hs' /feedbackE Hf'.
pose phi (t : Rf) : Rf := pot x' c' t - pot x c t.
have cphi (t : Rf) : t0 <= t <= T -> continuity_pt phi t.
  by move=> ht; apply: (continuity_pt_minus (pot x' c') (pot x c)); apply: pot_cont ht; eassumption.
have dphi (t : Rf) : t0 < t < T -> t \notin ts ++ us ++ us' -> derivable_pt_lim phi t 0.
  rewrite !mem_cat !negb_or => ht /and3P [n1 n2 n3].
  have := derivable_pt_lim_minus _ _ t _ _ (pot_deriv Hs' ht n1 n3) (pot_deriv Hs ht n1 n2).
  congr (derivable_pt_lim _ _ _); rewrite (Hf t ht n2) (Hf' t ht n3) !subrr qf0 mul0r RminusE; abelr.
have e : phi T = phi t0.
  apply/eqP; rewrite [_ == _](@eq_le _ Rf); apply/andP; split.
    rewrite -ler_opp2.
    apply: (mono_off (f := fun t => - phi t : Rf) (ts := ts ++ us ++ us') t0T) => [t ht|t ht nt]; first by apply: continuity_pt_opp; exact: cphi.
    by exists 0 => //; rewrite -[0]oppr0; apply: derivable_pt_lim_opp; exact: dphi.
  by apply: (mono_off (ts := ts ++ us ++ us') t0T cphi) => t ht nt; exists 0 => //; exact: dphi.
have gap : tracking_cost P x' c' t0 - tracking_cost P x c t0 = phi T - phi t0 + (value (S t0) (v t0) 0 (x' t0) - value (S t0) (v t0) 0 (x t0)).
  rewrite /phi !pot_T /pot /value !qf_dot; abelr.
by rewrite gap e subrr add0r.
Qed.

(** ** the forward and backward passes combined *)
Section Comb.
Variables (b : R -> 'cV[Rf]_n) (C : R -> 'M[Rf]_n) (x0 : 'cV[Rf]_n) (ts' : seq Rf).
Hypothesis fsol : forward_solution P b C x0 ts' t0.
Hypothesis un : forall t : Rf, t0 <= t <= T -> 1%:M + C t *m S t \in unitmx.
Definition xc (t : Rf) : 'cV[Rf]_n := invmx (1%:M + C t *m S t) *m (b t + C t *m v t).
Lemma abc_E (t : Rf) A b1 C1 A' b' C' : t0 <= t <= T -> fwdbwdpass_ode_f P (pack_abc (A, b1, C1)) t = Some (pack_abc (A', b', C')) ->
  (A', b', C') = abc_rhs P t (nn t) (A, b1, C1).
Proof.
move=> ht; rewrite /fwdbwdpass_ode_f (ULT_E ht) obindS abc_unpack => /Some_inj e.
by rewrite -[LHS]abc_unpack -e abc_unpack.
Qed.
Lemma comb_alg (F N Q Sm Cm dS dC : 'M[Rf]_n) (c g x w b1 v1 dv db : 'cV[Rf]_n) : w = v1 - Sm *m x -> b1 = x - Cm *m w ->
  dS = - F^T *m Sm - Sm *m F + Sm *m N *m Sm - Q -> dv = - g + Sm *m c - F^T *m v1 + Sm *m N *m v1 ->
  db = F *m b1 + Cm *m g - Cm *m Q *m b1 + c -> dC = F *m Cm - Cm *m Q *m Cm + Cm *m F^T + N ->
  (1%:M + Cm *m Sm) *m (F *m x + c + N *m w) = db + (dC *m v1 + Cm *m dv) - (dC *m Sm + Cm *m dS) *m x.
Proof.
move=> ew eb -> -> -> ->.
have -> : v1 = w + Sm *m x by rewrite ew subrK.
rewrite eb !(mulmxDl, mulmxDr, mulNmx, mulmxN, mul1mx) -!mulmxA; abelr.
Qed.
Lemma xc_deriv (t : Rf) : t0 < t < T -> t \notin ts -> t \notin ts' -> mderiv xc t (kF P t *m xc t + kc P t + kL P t *m fb t (xc t)).
Proof.
move=> ht nt nt'; have ht' : t0 <= t <= T by case/andP: ht => h1 h2; rewrite !ltW.
case: (sol) => _ _ Hs /(_ t ht nt) [dS [dv [e hS hv]]].
case: (fsol) => _ _ _ /(_ t ht nt') [A [dA [db [dC [e' hb hC]]]]].
have := ric_E ht' e; rewrite /riccati_rhs => -[eS ev].
have := abc_E ht' e'; rewrite /abc_rhs => -[_ eb eC].
have hM : mderiv (fun t => 1%:M + C t *m S t) t (dC *m S t + C t *m dS).
  by have := mderiv_add (mderiv_const 1%:M t) (mderiv_mul hC hS); rewrite add0r.
have := mderiv_mul (mderiv_invmx (un ht') hM) (mderiv_add hb (mderiv_mul hC hv)).
congr (mderiv _ _ _).
rewrite mulNmx -2!mulmxA -[_ *m invmx _ *m _]mulmxA -/(xc t) -mulmxN -mulmxDr [X in _ *m X]addrC.
rewrite -[RHS](mulKmx (un ht')); congr (_ *m _); symmetry.
have -> : kL P t *m fb t (xc t) = nn t *m (v t - S t *m xc t).
  by rewrite /fb /nn mulNmx -mulmxA -!mulmxA mulmxBr mulmxBr addrC mulmxDr mulmxN.
have ex : (1%:M + C t *m S t) *m xc t = b t + C t *m v t by rewrite /xc mulKVmx // un.
apply: (comb_alg (Q := (kH P t)^T *m kX P t *m kH P t) (g := (kH P t)^T *m kX P t *m kr P t) erefl).
- move: ex; rewrite mulmxDl mul1mx -mulmxA mulmxBr opprB => ex.
  by rewrite addrA ex addrK.
- exact: eS.
- by rewrite ev !mulNmx.
- by rewrite eb !mulmxA.
- by rewrite eC !mulmxA.
Qed.
Lemma xc_cont (t : Rf) : t0 <= t <= T -> mcont xc t.
Proof.
move=> ht; case: (sol) => _ _ /(_ t ht) [cS cv _] _; case: (fsol) => _ _ /(_ t ht) [cb cC _] _.
apply: mcont_mul; first by apply: mcont_invmx (un ht) _; apply: mcont_add; [exact: mcont_const | exact: mcont_mul].
by apply: mcont_add => //; exact: mcont_mul.
Qed.
Lemma xc0 : xc t0 = x0.
Proof. by case: (fsol) => eb eC _ _; rewrite /xc eb eC !mul0mx !addr0 invmx1 mul1mx. Qed.
Lemma comb_steered u c us : feedback P S v xc u us t0 -> accumulates P xc u c us t0 ->
  [/\ steered P xc u c (ts ++ ts' ++ us) t0, xc t0 = x0 &
      forall x' u' c' us', steered P x' u' c' us' t0 -> x' t0 = x0 -> tracking_cost P xc c t0 <= tracking_cost P x' c' t0].
Proof.
move=> Hf [cc dc].
have st : steered P xc u c (ts ++ ts' ++ us) t0.
  split=> [t ht|t ht]; first by split; [exact: xc_cont | exact: cc].
  rewrite !mem_cat !negb_or => /and3P [n1 n2 n3]; split; last exact: dc.
  by have /feedbackE Hf' := Hf; rewrite (Hf' t ht n3); exact: xc_deriv.
split=> // [|x' u' c' us' Hs e0]; first exact: xc0.
apply: (proj1 (fb_optimal (x := xc) (u := u) st _ Hs _)); last by rewrite e0 xc0.
by apply/feedbackE => t ht; rewrite !mem_cat !negb_or => /and3P [n1 n2 n3]; have /feedbackE Hf' := Hf; exact: Hf'.
Qed.
(** the code's combination of samples at the times tl *)
Lemma comb_samples (A : Rf -> 'M[Rf]_n) (K : Rf -> 'M[Rf]_(m, n)) (d : Rf -> 'cV[Rf]_m) (tl : seq Rf) : (forall t : Rf, t \in tl -> t0 <= t <= T) ->
  combineForwardBackward [seq K t | t <- tl] [seq d t | t <- tl] [seq S t | t <- tl] [seq v t | t <- tl] [seq (A t, b t, C t) | t <- tl] =
  Some ([seq - K t *m xc t + d t | t <- tl], [seq xc t | t <- tl]).
Proof.
elim: tl => [//|t tl IH] H /=.
rewrite (solve_unit _ (un (H t _))) ?inE ?eqxx // obindS IH // => s hs; apply: H; by rewrite inE hs orbT.
Qed.
End Comb.
End Sol.
End Tvar.
