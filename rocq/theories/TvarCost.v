(** The solution of the backward equations is the optimal cost, and it is unique. *)
From Coq Require Import Reals.
From mathcomp Require Import all_ssreflect all_algebra zify.
From Verif Require Import RealF MxBase LqtModel ClqtModel ClqtSpec RealExpSpec RealExp ClqrOpt RealDisc RkConvC TrackOptSpec TvarSpec TvarInv TvarLip TvarPack TvarRk
  Tvar TvarBwd TvarFwd OdeLin TvarExistSpec TvarExist.
Import Order.TTheory GRing.Theory Num.Theory.
Set Implicit Arguments. Unset Strict Implicit. Unset Printing Implicit Defensive.
Local Open Scope ring_scope.
Delimit Scope R_scope with Re.

Lemma qf_ext n (A B : 'M[Rf]_n) : symm A -> symm B -> (forall x, qf A x = qf B x) -> A = B.
Proof.
move=> sA sB H; have E x : qf (A - B) x = 0 by rewrite !qf_dot mulmxBl dotBr -!qf_dot H subrr.
have sD : symm (A - B) by rewrite /symm raddfB /= sA sB.
have pD : psd (A - B) by move=> x; rewrite E.
apply/eqP; rewrite -subr_eq0; apply/eqP/matrixP => i j.
by have := congr1 (fun M : 'cV[Rf]_n => M i 0) (psd_ker sD pD (E (delta_mx j 0))); rewrite -colE !mxE.
Qed.
Section Cost.
Variables n m p pT : nat.
Variable P : clqt Rf n m p pT.
Local Notation T := (kT P).
Hypothesis T0 : 0 <= T.
Hypothesis wP : tracking_weights P 0.
Hypothesis lP : lipschitz_data P.
Local Notation lip := (lipschitz_on T).
Local Notation ul := (ulT P).
Lemma lip_shift (t0 : Rf) a b (g : R -> 'M[Rf]_(a, b)) : 0 <= t0 -> lip g -> lipschitz_on (T - t0) (fun s : Rf => g (t0 + s)%R).
Proof.
move=> h0 [L H]; exists L => s t hs ht.
have r (q : Rf) : 0 <= q <= T - t0 -> 0 <= t0 + q <= T by move=> /andP [h1 h2]; rewrite addr_ge0 //= addrC -ler_subr_addr.
by have := H _ _ (r _ hs) (r _ ht); rewrite (_ : t0 + s - (t0 + t) = s - t); [exact | abelr].
Qed.
Section Sol.
Variables (S : R -> 'M[Rf]_n) (v : R -> 'cV[Rf]_n).
Hypothesis sol : backward_solution P S v [::] 0.
Lemma Sv_lip0 : lip S /\ lip v.
Proof.
move: T0; rewrite le_eqVlt => /orP [/eqP e|T1]; last exact: (Sv_lip T1 wP lP sol).
have z (s : Rf) : 0 <= s <= T -> s = 0 by rewrite -e => h; apply/eqP; rewrite eq_le andbC.
by split; exists 0 => s t /z -> /z -> i j; rewrite !subrr normr0 mulr0.
Qed.
Section From.
Variable t0 : Rf.
Hypothesis ht0 : 0 <= t0 <= T.
Let h0 : 0 <= t0. Proof. by case/andP: ht0. Qed.
Let h1 : t0 <= T. Proof. by case/andP: ht0. Qed.
Lemma w_from : tracking_weights P t0.
Proof. by case: wP => s w; split=> // t /andP [a b]; apply: w; rewrite (le_trans h0 a). Qed.
Lemma sol_from : backward_solution P S v [::] t0.
Proof.
case: sol => e1 e2 c d; split=> // t /andP [a b]; first by apply: c; rewrite (le_trans h0 a).
by apply: d; rewrite (le_lt_trans h0 a).
Qed.
(** the closed loop from t0 *)
Lemma loop_ex x0 : exists x u c, [/\ steered P x u c [::] t0, x t0 = x0 & feedback P S v x u [::] t0].
Proof.
have [lS lv] := Sv_lip0; have lul := ul_lip T0 wP lP.
have lL : lip (kL P) by case: lP => -[].
have T0' : 0 <= T - t0 by rewrite subr_ge0.
pose A (t : R) := kF P t - kL P t *m (ul t *m S t).
pose a (t : R) := kc P t + kL P t *m (ul t *m v t).
have lA : lip A by apply: lipB; [exact: F_lip | apply: lip_mul => //; exact: lip_mul].
have la : lip a by apply: lipD; [exact: c_lip | apply: lip_mul => //; exact: lip_mul].
have [y [y0 ly cy dy]] := affine_ex T0' x0 (lip_shift h0 lA) (lip_shift h0 la).
pose x (t : R) := y (- t0 + (t : Rf))%R; pose u (t : R) := fb P S v t (x t).
have tK (t : Rf) : t0 + (- t0 + t) = t by abelr.
have in' (t : Rf) : t0 < t < T -> 0 < - t0 + t < T - t0.
  by move=> /andP [a1 a2]; rewrite addrC subr_gt0 a1 ltr_add2r.
pose e (s : Rf) := kH P (t0 + s) *m y s - kr P (t0 + s).
pose w (s : Rf) := - (ul (t0 + s) *m S (t0 + s)%R) *m y s + ul (t0 + s) *m v (t0 + s)%R.
have le : lipschitz_on (T - t0) e.
  by apply: lipB; [apply: lip_mul => //; exact: (lip_shift h0 (H_lip lP)) | exact: (lip_shift h0 (r_lip lP))].
have lw : lipschitz_on (T - t0) w.
  apply: lipD; last by apply: lip_mul; [exact: (lip_shift h0 lul) | exact: (lip_shift h0 lv)].
  apply: lip_mul => //; apply: lipN; apply: lip_mul; [exact: (lip_shift h0 lul) | exact: (lip_shift h0 lS)].
pose g (s : Rf) : 'M[Rf]_1 := 2%:R^-1 *: ((e s)^T *m kX P (t0 + s) *m e s + (w s)^T *m kU P (t0 + s) *m w s).
have lg : lipschitz_on (T - t0) g.
  apply: lipZ; apply: lipD; (apply: lip_mul => //; apply: lip_mul; first exact: lip_tr).
    exact: (lip_shift h0 (X_lip lP)).
  exact: (lip_shift h0 (U_lip lP)).
have [z [_ _ cz dz]] := affine_ex T0' (0 : 'M[Rf]_1) (lipC (T - t0) (0 : 'M[Rf]_1)) lg.
exists x, u, (fun t => z (- t0 + (t : Rf))%R 0 0).
have fx : feedback P S v x u [::] t0 by apply/(feedbackE w_from).
split=> //; last by rewrite /x addNr.
split=> [t ht|t ht _]; first by split; [exact: (mcont_shift (cy _)) | exact: (mcont_shift (cz _))].
split.
  have := mderiv_shift (dy _ (in' t ht)); rewrite /A /a !tK; congr (mderiv _ _ _).
  by rewrite /u /fb /x mulmxBl !mulmxDr !mulNmx mulmxN !mulmxA; abelr.
have := mderiv_shift (dz _ (in' t ht)) 0 0.
by rewrite mul0mx add0r mxE mulrC mxE /e /w !tK.
Qed.
End From.
(** the optimal cost *)
Lemma cost_ex : exists s : R -> Rf, forall t0 : Rf, 0 <= t0 <= T -> let V := value (S t0) (v t0) (s t0) in
  (forall x u c ts, steered P x u c ts t0 -> V (x t0) <= tracking_cost P x c t0) /\
  (forall x0, exists x u c, [/\ steered P x u c [::] t0, x t0 = x0, feedback P S v x u [::] t0 & tracking_cost P x c t0 = V x0]).
Proof.
have [lS lv] := Sv_lip0; have lul := ul_lip T0 wP lP.
pose g (t : R) : 'M[Rf]_1 := 2%:R^-1 *: ((kr P t)^T *m kX P t *m kr P t) - (v t)^T *m kc P t - 2%:R^-1 *: ((ul t *m v t)^T *m kU P t *m (ul t *m v t)).
have luv : lip (fun t => ul t *m v t) by exact: lip_mul.
have lg : lip g.
  apply: lipB; last by apply: lipZ; apply: lip_mul => //; apply: lip_mul; [exact: lip_tr | exact: U_lip].
  apply: lipB; last by apply: lip_mul; [exact: lip_tr | exact: c_lip].
  by apply: lipZ; apply: lip_mul; [apply: lip_mul; [apply: lip_tr; exact: r_lip | exact: X_lip] | exact: r_lip].
have [z [z0 _ cz dz]] := affine_ex T0 (0 : 'M[Rf]_1) (lipC T (0 : 'M[Rf]_1)) lg.
pose s (t : R) : Rf := qf (kXT P) (krT P) / 2%:R + z T 0 0 - z t 0 0; exists s => t0 ht0 V.
have [h0 h1] := andP ht0; have wf := w_from ht0; have sf := sol_from ht0.
have ds (t : Rf) : t0 < t < T -> derivable_pt_lim s t (- sig P v t).
  move=> /andP [a1 a2]; have ht : 0 < t < T by rewrite (le_lt_trans h0 a1).
  have := derivable_pt_lim_minus _ _ t _ _ (derivable_pt_lim_const (qf (kXT P) (krT P) / 2%:R + z T 0 0 : Rf) t) (dz t ht 0 0).
  congr (derivable_pt_lim _ _ _); rewrite RminusE sub0r mul0mx add0r; congr (- _).
  by rewrite /g /sig !mxE /dot /qf /sc !mxE ![2%:R^-1 * _]mulrC.
have cs (t : Rf) : continuity_pt s t.
  apply: (continuity_pt_minus (fun _ => qf (kXT P) (krT P) / 2%:R + z T 0 0 : Rf) (fun t => z t 0 0)); last exact: cz.
  by apply: continuity_pt_const.
have key x u c ts : steered P x u c ts t0 -> let phi t := pot S v x c t + s t in
   [/\ forall t : Rf, t0 <= t <= T -> continuity_pt phi t,
       forall t : Rf, t0 < t < T -> t \notin ts -> derivable_pt_lim phi t (qf (kU P t) (u t - fb P S v t (x t)) / 2%:R) &
       tracking_cost P x c t0 = phi T - phi t0 + V (x t0)].
  move=> st phi; split=> [t ht|t ht nt|].
  - by apply: (continuity_pt_plus (pot S v x c) s) => //; exact: (pot_cont sf st ht).
  - have := derivable_pt_lim_plus _ _ t _ _ (pot_deriv wf sf st ht isT nt) (ds t ht); congr (derivable_pt_lim _ _ _).
    by rewrite RplusE addrAC subrr add0r.
  - rewrite /phi (pot_T wf sf) /pot /V /value /s !qf_dot; abelr.
have pos x u (t : Rf) : t0 < t < T -> 0 <= qf (kU P t) (u t - fb P S v t (x t)) / 2%:R.
  move=> /andP [a1 a2]; have [_ _ pU] : [/\ symm (kX P t), symm (kU P t) & pd (kU P t)] by apply: (proj2 wf); rewrite !ltW.
  by rewrite mulr_ge0 ?invr_ge0 ?ler0n // pd_psd.
split=> [x u c ts st|x0].
  have [cp dp ->] := key x u c ts st; rewrite ler_addr subr_ge0.
  exact: (mono_off (ts := ts) h1 cp (fun t ht nt => ex_intro2 _ _ _ (dp t ht nt) (pos x u t ht))).
have [x [u [c [st e0 fx]]]] := loop_ex ht0 x0; exists x, u, c; split=> //.
have [cp dp E] := key x u c [::] st; rewrite E e0 -[X in _ = X]add0r; congr (_ + _); apply/eqP; rewrite subr_eq0 eq_le; apply/andP; split.
  have z' (t : Rf) : t0 < t < T -> qf (kU P t) (u t - fb P S v t (x t)) / 2%:R = 0.
    by move=> ht; rewrite ((feedbackE wf S v x u [::]).1 fx t ht isT) subrr qf0 mul0r.
  rewrite -ler_opp2; apply: (mono_off (f := fun t => - (pot S v x c t + s t) : Rf) (ts := [::]) h1) => [t ht|t ht nt].
    by apply: continuity_pt_opp; exact: cp.
  by exists 0 => //; rewrite -[0]oppr0 -(z' t ht); apply: derivable_pt_lim_opp; exact: dp.
exact: (mono_off (ts := [::]) h1 cp (fun t ht nt => ex_intro2 _ _ _ (dp t ht nt) (pos x u t ht))).
Qed.
End Sol.
(** two solutions are equal *)
Lemma back_unique S v S' v' : backward_solution P S v [::] 0 -> backward_solution P S' v' [::] 0 ->
  forall t : Rf, 0 <= t <= T -> S t = S' t /\ v t = v' t.
Proof.
move=> sol sol' t ht.
have [s H] := cost_ex sol; have [s' H'] := cost_ex sol'.
have E (x : 'cV[Rf]_n) : value (S t) (v t) (s t) x = value (S' t) (v' t) (s' t) x.
  have [h1 h2] := H t ht; have [h1' h2'] := H' t ht.
  have [y [u [c [a1 a2 _ a3]]]] := h2 x; have [y' [u' [c' [b1 b2 _ b3]]]] := h2' x.
  apply/eqP; rewrite eq_le; apply/andP; split.
    by rewrite -b3; have := h1 _ _ _ _ b1; rewrite b2.
  by rewrite -a3; have := h1' _ _ _ _ a1; rewrite a2.
have [_ _ cS _] := sol; have [_ _ cS' _] := sol'; have [_ _ sS] := cS t ht; have [_ _ sS'] := cS' t ht.
have nz : (2%:R : Rf) != 0 by rewrite pnatr_eq0.
have e0 : s t = s' t by have := E 0; rewrite /value !qf0 !dot0r mul0r subr0 !add0r.
have ev (x : 'cV[Rf]_n) : dot x (v t) = dot x (v' t) /\ qf (S t) x = qf (S' t) x.
  have := E x; have := E (- x); rewrite /value !qfN !dotNr !opprK e0 => /addIr q1 /addIr q2.
  have half (a b d e : Rf) : a + d = b + e -> a - d = b - e -> a = b /\ d = e.
    move=> r1 r2; have r3 : a *+ 2 = b *+ 2.
      have e1 : a *+ 2 = (a + d) + (a - d) by rewrite mulr2n; abelr.
      by rewrite e1 r1 r2 mulr2n; abelr.
    have r4 : a = b by apply: (mulIf nz); rewrite !mulr_natr.
    by split=> //; move: r1; rewrite r4 => /addrI.
  have [q3 q4] := half _ _ _ _ q1 q2; rewrite dotC [dot x (v' t)]dotC; split=> //.
  by apply: (mulIf (_ : 2%:R^-1 != 0)) => //; rewrite invr_eq0.
split; last by apply: dot_inj => x; exact: (ev x).1.
apply: qf_ext => // x; exact: (ev x).2.
Qed.
End Cost.
