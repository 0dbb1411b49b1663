(** The backward and forward equations of the tracker have solutions for Lipschitz data and convex costs. *)
From Coq Require Import Reals.
From mathcomp Require Import all_ssreflect all_algebra zify.
From Verif Require Import RealF MxBase LqtModel ClqtModel ClqtSpec ClqtPack ClqtFwd2 RealExpSpec RealExp ClqrOpt RealDisc RkConvC TrackOptSpec TvarSpec TvarInv TvarLip TvarPack
  Tvar TvarEx TvarBwd TvarFwd TvarFb TvarConvEx OdeLin TvarExistSpec.
Import Order.TTheory GRing.Theory Num.Theory.
Set Implicit Arguments. Unset Strict Implicit. Unset Printing Implicit Defensive.
Local Open Scope ring_scope.
Delimit Scope R_scope with Re.

Section Exist.
Variables n m p pT : nat.
Variable P : clqt Rf n m p pT.
Local Notation T := (kT P).
Hypothesis T0 : 0 <= T.
Hypothesis cw : convex_weights P.
Hypothesis lP : lipschitz_data P.
Local Notation lip := (lipschitz_on T).
Local Notation ul := (ulT P).
Local Notation N := (nn P).
Let wP : tracking_weights P 0. Proof. by case: cw. Qed.
Definition qq (t : Rf) : 'M[Rf]_n := (kH P t)^T *m kX P t *m kH P t.
Lemma F_lip : lip (kF P). Proof. by case: lP => -[]. Qed.
Lemma X_lip : lip (kX P). Proof. by case: lP => -[]. Qed.
Lemma U_lip : lip (kU P). Proof. by case: lP => -[]. Qed.
Lemma c_lip : lip (kc P). Proof. by case: lP => _ []. Qed.
Lemma H_lip : lip (kH P). Proof. by case: lP => _ []. Qed.
Lemma r_lip : lip (kr P). Proof. by case: lP => _ []. Qed.
Lemma Q_lip : lip qq.
Proof. by apply: lip_mul; [apply: lip_mul; [apply: lip_tr; exact: H_lip | exact: X_lip] | exact: H_lip]. Qed.
Lemma Q_ok (t : Rf) : 0 <= t <= T -> symm (qq t) /\ psd (qq t).
Proof.
move=> ht; case: cw => -[_ w] _ pX; have [sX _ _] := w t ht; split.
  by rewrite /symm /qq !trmx_mul trmxK sX mulmxA.
by move=> x; rewrite /qq qfM; exact: pX.
Qed.
Lemma N_ok (t : Rf) : 0 <= t <= T -> symm (N t) /\ psd (N t).
Proof.
move=> ht; case: wP => _ w; have [_ sU pU] := w t ht; have sI : symm (invmx (kU P t)) by rewrite /symm trmx_inv sU.
have E : N t = ((kL P t)^T)^T *m invmx (kU P t) *m (kL P t)^T by rewrite trmxK /nn /ulT mulmxA.
split; first by rewrite /symm E !trmx_mul !trmxK sI mulmxA.
by move=> x; rewrite E qfM; apply: pd_psd; exact: pd_inv.
Qed.
Definition sT : 'M[Rf]_n := (kHT P)^T *m kXT P *m kHT P.
Lemma sT_ok : symm sT /\ psd sT.
Proof.
case: cw => -[sX _] pX _; split; first by rewrite /symm /sT !trmx_mul trmxK sX mulmxA.
by move=> x; rewrite /sT qfM; exact: pX.
Qed.

(** ** the backward equations *)
Lemma back_ex : exists S v, [/\ backward_solution P S v [::] 0, lip S, lip v & forall t : Rf, 0 <= t <= T -> psd (S t)].
Proof.
have rv t : 0 <= t <= T -> 0 <= T - t <= T by exact: rev_ok.
have [sS pS] := sT_ok.
have [G [G0 lG wG dG]] := @riccati_ex T T0 n (fun s : Rf => kF P (T - s)) (fun s : Rf => N (T - s)) (fun s : Rf => qq (T - s)) sT
  (lip_rev F_lip) (lip_rev (N_lip T0 wP lP)) (lip_rev Q_lip) (fun t ht => N_ok (rv t ht)) (fun t ht => Q_ok (rv t ht)) sS pS.
pose A (s : Rf) := (kF P (T - s))^T - G s *m N (T - s).
pose a (s : Rf) := (kH P (T - s))^T *m kX P (T - s) *m kr P (T - s) - G s *m kc P (T - s).
have lA : lip A.
  by apply: lipB; [apply: lip_tr; exact: (lip_rev F_lip) | apply: lip_mul => //; exact: (lip_rev (N_lip T0 wP lP))].
have la : lip a.
  apply: lipB; last by apply: lip_mul => //; exact: (lip_rev c_lip).
  apply: lip_mul; last exact: (lip_rev r_lip).
  by apply: lip_mul; [apply: lip_tr; exact: (lip_rev H_lip) | exact: (lip_rev X_lip)].
have [w [w0 lw cw' dw]] := affine_ex T0 ((kHT P)^T *m kXT P *m krT P) lA la.
pose S (t : R) := G (T - (t : Rf))%R; pose v (t : R) := w (T - (t : Rf))%R.
have TT (t : Rf) : T - (T - t) = t by rewrite opprB addrC subrK.
exists S, v; split.
- split; [by rewrite /S subrr | by rewrite /v subrr | |].
    move=> t ht; have [c s _] := wG _ (rv _ ht); split => //; first exact: mcont_rev.
    by apply: mcont_rev; exact: cw'.
  move=> t ht _; have ht' := rev_ok' ht; have i : 0 <= t <= T by case/andP: ht => h1 h2; rewrite !ltW.
  have hS := mderiv_rev (dG _ ht'); have hv := mderiv_rev (dw _ ht').
  rewrite /A /a !TT in hS hv.
  exists (riccati_rhs P t (N t) (S t, v t)).1, (riccati_rhs P t (N t) (S t, v t)).2; split.
  + by rewrite /riccati_ode_f (ULT_E wP i) obindS Sv_unpack -surjective_pairing.
  + move: hS; congr (mderiv _ _ _); rewrite /riccati_rhs /= /qq !opprD opprK mulNmx /S; abelr.
  + move: hv; congr (mderiv _ _ _); rewrite /riccati_rhs /= mulmxBl !opprD !opprK !mulNmx /v /S; abelr.
- exact: lip_rev.
- exact: lip_rev.
- by move=> t ht; have [] := wG _ (rv _ ht).
Qed.

(** ** the forward equations *)
Lemma forw_ex x0 : exists b C, [/\ forward_solution P b C x0 [::] 0, lip b, lip C & forall t : Rf, 0 <= t <= T -> psd (C t)].
Proof.
have s0 : symm (0 : 'M[Rf]_n) by rewrite /symm trmx0.
have p0 : psd (0 : 'M[Rf]_n) by move=> x; rewrite /qf /sc mulmx0 mul0mx mxE.
have [C [C0 lC wC dC]] := @riccati_ex T T0 n (fun s : Rf => (kF P s)^T) qq N 0
  (lip_tr F_lip) Q_lip (N_lip T0 wP lP) Q_ok N_ok s0 p0.
pose A (s : Rf) := kF P s - C s *m qq s.
pose a (s : Rf) := C s *m ((kH P s)^T *m kX P s *m kr P s) + kc P s.
have lA : lip A by apply: lipB; [exact: F_lip | apply: lip_mul => //; exact: Q_lip].
have la : lip a.
  apply: lipD; last exact: c_lip.
  apply: lip_mul => //; apply: lip_mul; last exact: r_lip.
  by apply: lip_mul; [apply: lip_tr; exact: H_lip | exact: X_lip].
have [b [b0 lb cb db]] := affine_ex T0 x0 lA la.
exists b, C; split => // [|t ht]; last by have [] := wC t ht.
split => // [t ht|t ht _]; first by have [] := wC t ht.
have i : 0 <= t <= T by case/andP: ht => h1 h2; rewrite !ltW.
exists 0, (abc_rhs P t (N t) (0, b t, C t)).1.1, (abc_rhs P t (N t) (0, b t, C t)).1.2, (abc_rhs P t (N t) (0, b t, C t)).2; split.
- by rewrite /fwdbwdpass_ode_f (ULT_E wP i) obindS abc_unpack.
- move: (db t ht); congr (mderiv _ _ _); rewrite /abc_rhs /= /A /a /qq mulmxBl !mulmxA; abelr.
- move: (dC t ht); congr (mderiv _ _ _); rewrite /abc_rhs /= trmxK /qq !mulmxA; abelr.
Qed.

(** ** the running cost *)
Lemma acc_ex x u : lip x -> lip u -> exists c, accumulates P x u c [::] 0.
Proof.
move=> lx lu; pose e t := kH P t *m x t - kr P t.
have le : lip e by apply: lipB; [apply: lip_mul => //; exact: H_lip | exact: r_lip].
pose g t : 'M[Rf]_1 := 2%:R^-1 *: ((e t)^T *m kX P t *m e t + (u t)^T *m kU P t *m u t).
have lg : lip g.
  by apply: lipZ; apply: lipD; (apply: lip_mul => //; apply: lip_mul; [exact: lip_tr | first [exact: X_lip | exact: U_lip]]).
have [z [_ _ cz dz]] := affine_ex T0 (0 : 'M[Rf]_1) (lipC T (0 : 'M[Rf]_1)) lg.
exists (fun t => z t 0 0); split=> [t _|t ht _]; first exact: cz.
by have := dz t ht 0 0; rewrite mul0mx add0r mxE mulrC mxE.
Qed.

(** ** everything together *)
Lemma exist_all x0 : exists S v b C, let x (t : R) := invmx (1%:M + C t *m S t) *m (b t + C t *m v t) in
  let u (t : R) := - (ul t *m S t) *m x t + ul t *m v t in
  [/\ backward_solution P S v [::] 0, forward_solution P b C x0 [::] 0,
      forall t : Rf, 0 <= t <= T -> [/\ psd (S t), psd (C t) & 1%:M + C t *m S t \in unitmx] &
      feedback P S v x u [::] 0 /\ exists c, [/\ steered P x u c [::] 0, x 0 = x0 &
        forall x' u' c' us', steered P x' u' c' us' 0 -> x' 0 = x0 -> tracking_cost P x c 0 <= tracking_cost P x' c' 0]].
Proof.
have [S [v [sol lS lv pS]]] := back_ex; have [b [C [fsol lb lC pC]]] := forw_ex x0.
exists S, v, b, C => x u.
have un (t : Rf) : 0 <= t <= T -> 1%:M + C t *m S t \in unitmx.
  move=> ht; have [_ _ cS _] := sol; have [_ _ cC _] := fsol; have [_ _ s1] := cS t ht; have [_ _ s2] := cC t ht.
  by apply: unit_ICJ => //; [exact: pC | exact: pS].
have lx : lip x.
  apply: lip_mul; last by apply: lipD => //; exact: lip_mul.
  by apply: lip_inv => //; apply: lipD; [exact: lipC | exact: lip_mul].
have lu : lip u.
  apply: lipD; last by apply: lip_mul => //; exact: ul_lip.
  by apply: lip_mul => //; apply: lipN; apply: lip_mul => //; exact: ul_lip.
have [c ac] := acc_ex lx lu.
have fx : feedback P S v x u [::] 0 by apply/(feedbackE wP).
split=> //; first by move=> t ht; split; [exact: pS | exact: pC | exact: un].
split=> //; exists c; exact: (comb_steered T0 wP sol fsol un fx ac).
Qed.
End Exist.

Section Main.
Variables n m p pT : nat.
Variable P : clqt Rf n m p pT.
Lemma solutions_exist : 0 <= kT P -> convex_weights P -> lipschitz_data P ->
  exists S v, [/\ backward_solution P S v [::] 0, forall t : Rf, 0 <= t <= kT P -> psd (S t) &
    forall x0, exists b C, forward_solution P b C x0 [::] 0 /\
      forall t : Rf, 0 <= t <= kT P -> psd (C t) /\ 1%:M + C t *m S t \in unitmx].
Proof.
move=> T0 cw lP; have [S [v [sol _ _ pS]]] := back_ex T0 cw lP; exists S, v; split=> // x0.
have [b [C [fsol _ _ pC]]] := forw_ex T0 cw lP x0; exists b, C; split=> // t ht; split; first exact: pC.
have [_ _ cS _] := sol; have [_ _ cC _] := fsol; have [_ _ s1] := cS t ht; have [_ _ s2] := cC t ht.
by apply: unit_ICJ => //; [exact: pC | exact: pS].
Qed.
Lemma optimal_exists : 0 < kT P -> convex_weights P -> lipschitz_data P -> forall x0, exists x u,
  [/\ optimal_tracking P x u x0,
    forall zoh, exists (D : Rf) N0, forall steps, (N0 <= steps)%N -> (0 < steps)%N ->
      let t i := i%:R * (kT P / steps%:R) in exists Ks ds Ss vs us xs,
      [/\ clqt_seqBackwardPass P steps None None None None = Some (Ks, ds, Ss, vs),
          clqt_seqForwardPass P x0 Ks ds None None zoh = Some (us, xs) /\
            (zoh = false -> forall blocks steps', (blocks * steps')%N = steps -> clqt_parForwardPass P x0 Ks ds blocks steps' None None true false = Some (us, xs)),
          size us = steps /\ size xs = steps.+1,
          forall i, (i <= steps)%N -> within (D / steps%:R) (nth 0 xs i) (x (t i)) &
          forall i, (i < steps)%N -> within (D / steps%:R) (nth 0 us i) (u (t i))] &
    exists (D : Rf) N0, forall steps, (N0 <= steps)%N -> (0 < steps)%N ->
      let t i := i%:R * (kT P / steps%:R) in exists Ks ds Ss vs l us xs,
      [/\ clqt_seqBackwardPass P steps None None None None = Some (Ks, ds, Ss, vs),
          clqt_seqFwdBwdPass P x0 steps None None None None None = Some l /\ combineForwardBackward Ks ds Ss vs l = Some (us, xs),
          size us = steps /\ size xs = steps.+1,
          forall i, (i <= steps)%N -> within (D / steps%:R) (nth 0 xs i) (x (t i)) &
          forall i, (i < steps)%N -> within (D / steps%:R) (nth 0 us i) (u (t i))]].
Proof.
move=> T1 cw lP x0; have T0 := ltW T1; have [wP _ _] := cw.
have [S [v [b [C [sol fsol un [fx [c [sx e0 opt]]]]]]]] := exist_all T0 cw lP x0.
set x : R -> 'cV[Rf]_n := fun t : R => _ in fx sx e0 opt; set u := fun t : R => _ in fx sx opt.
exists x, u; split; first by exists c.
  move=> zoh; have [D [N0 H]] := fwd_gains T1 wP lP sol sx fx zoh; exists D, N0; rewrite -[x0]e0; exact: H.
have [D [N0 H]] := fb_converges T0 wP lP sol fsol (fun t ht => let: And3 _ _ h := un t ht in h).
exists D, N0 => M M0 Mp t; have [Ks [ds [Ss [vs [l [us [xs [e1 e2 e3 hx hu]]]]]]]] := H M M0 Mp.
exists Ks, ds, Ss, vs, l, us, xs; split=> // i iM; have [K [d [eK]]] := hu i iM.
have ht : 0 <= t i <= kT P by apply: grid_ok => //; exact: ltnW.
by move: eK; rewrite /bwd_gain mul0r addr0 (ULT_E wP ht) /= => -[<- <-].
Qed.
End Main.
