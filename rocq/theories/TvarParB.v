(** The exact elements of the equations that the parallel backward pass integrates. *)
From Coq Require Import Reals.
From mathcomp Require Import all_ssreflect all_algebra zify.
From Verif Require Import RealF MxBase LqtModel LqtSpec LqtCore LqtElem LinComb ScanModel ClqtModel ClqtSpec ClqtPack ClqtFwd2 RealExpSpec RealExp ClqrOpt RealDisc RkConvA RkConvC RkConv RkConvP
  FbConvC TrackOptSpec TvarSpec TvarInv TvarLip TvarPack TvarRk Tvar TvarBwd OdeLin TvarExistSpec TvarExist TvarCost ParConvB TvarParA.
Import Order.TTheory GRing.Theory Num.Theory.
Set Implicit Arguments. Unset Strict Implicit. Unset Printing Implicit Defensive.
Local Open Scope ring_scope.
Delimit Scope R_scope with Re.

Section Term.
Variables n m p pT q : nat.
(** the problem with other terminal data *)
Definition term (P : clqt Rf n m p pT) (XT : 'M[Rf]_q) (HT : 'M[Rf]_(q, n)) (rT : 'cV[Rf]_q) : clqt Rf n m p q :=
  Clqt (kF P) (kL P) (kX P) (kU P) XT (kc P) (kH P) (kr P) HT rT (kT P).
End Term.

Section Alg.
Variable R : realFieldType.
Variable n : nat.
Implicit Types A C J F N X Q G K : 'M[R]_n.
Lemma S_alg A J F N Q G X : symm N -> symm J ->
  (A *m N *m J - A *m F)^T *m (G *m Q) *m A + A^T *m (G *m (Q *m (A *m N *m A^T)) *m G *m Q) *m A + A^T *m (G *m Q) *m (A *m N *m J - A *m F) + (- X + J *m N *m J - J *m F - F^T *m J) =
  - F^T *m (A^T *m (G *m Q) *m A + J) - (A^T *m (G *m Q) *m A + J) *m F + (A^T *m (G *m Q) *m A + J) *m N *m (A^T *m (G *m Q) *m A + J) - X.
Proof. move=> sN sJ; mxexp; rewrite sN sJ; mxexp; abel. Qed.
Lemma v_alg A J F N Q G (w b eta c x : 'cV[R]_n) : symm N -> symm J ->
  (A *m N *m J - A *m F)^T *m (G *m (w - Q *m b)) + A^T *m (G *m (Q *m (A *m N *m A^T)) *m G *m (w - Q *m b) + G *m (- (Q *m (- A *m N *m eta - A *m c)))) + (- x + J *m N *m eta - F^T *m eta + J *m c) =
  - x + (A^T *m (G *m Q) *m A + J) *m c - F^T *m (A^T *m (G *m (w - Q *m b)) + eta) + (A^T *m (G *m Q) *m A + J) *m N *m (A^T *m (G *m (w - Q *m b)) + eta).
Proof. move=> sN sJ; mxexp; rewrite sN sJ; mxexp; abel. Qed.
End Alg.

Section Exact.
Variables n m p pT : nat.
Variable P : clqt Rf n m p pT.
Local Notation T := (kT P).
Hypothesis T0 : 0 <= T.
Hypothesis pw : forall t : Rf, 0 <= t <= T -> [/\ symm (kX P t), psd (kX P t), symm (kU P t) & pd (kU P t)].
Hypothesis lP : lipschitz_data P.
Local Notation lip := (lipschitz_on T).
Local Notation N := (nn P).
Lemma term_w q (XT : 'M[Rf]_q) HT rT : symm XT -> tracking_weights (term P XT HT rT) 0.
Proof. by move=> s; split=> // t ht; have [] := pw ht. Qed.
Local Notation P0 := (term P (0 : 'M[Rf]_n) 0 0).
Lemma s0 k : symm (0 : 'M[Rf]_k). Proof. by rewrite /symm trmx0. Qed.
Lemma p0 k : psd (0 : 'M[Rf]_k). Proof. by move=> x; rewrite /qf /sc mulmx0 mul0mx mxE. Qed.
Lemma w0 : tracking_weights P0 0. Proof. exact: term_w (s0 _). Qed.
Lemma cw0 : convex_weights P0. Proof. by split; [exact: w0 | exact: p0 | move=> t ht; have [] := pw ht]. Qed.
Lemma ULTs (t : Rf) : 0 <= t <= T -> ULT P t = Some (ulT P t). Proof. exact: (@ULT_E _ _ _ _ P0 0 w0). Qed.
Lemma Nok (t : Rf) : 0 <= t <= T -> symm (N t) /\ psd (N t). Proof. exact: (@N_ok _ _ _ _ P0 cw0). Qed.
Lemma Nlip : lip N. Proof. exact: (@N_lip _ _ _ _ P0 T0 w0 lP). Qed.
Lemma elem_ex : exists A b C eta J, let e := emap A b C eta J in [/\ e T = Elem 1%:M 0 0 0 0,
  forall t : Rf, 0 <= t <= T -> [/\ mcont A t, mcont b t, mcont C t, mcont eta t & mcont J t] /\ elem_ok (e t) &
  forall t : Rf, 0 < t < T -> let r := bw_rhs P t (N t) (e t) in
    [/\ mderiv A t (eA r), mderiv b t (eb r), mderiv C t (eC r), mderiv eta t (eeta r) & mderiv J t (eJ r)]].
Proof.
have rv t : 0 <= t <= T -> 0 <= T - t <= T by exact: rev_ok.
have [J [eta [[JT eT cJe dJe] lJ leta pJ]]] := @back_ex _ _ _ _ P0 T0 cw0 lP.
rewrite /= trmx0 !mul0mx in JT eT.
have lF := F_lip lP.
pose M (s : Rf) := (kF P (T - s))^T - J (T - s)%R *m N (T - s).
have lM : lip M.
  apply: lipB; first by apply: lip_tr; exact: (lip_rev lF).
  by apply: lip_mul; [exact: (lip_rev lJ) | exact: (lip_rev Nlip)].
have [y [y0 ly cy dy]] := affine_ex T0 (1%:M : 'M[Rf]_n) lM (lipC T (0 : 'M[Rf]_n)).
pose Y (s : Rf) := (y s)^T.
have lY : lip Y by exact: lip_tr.
have lRN : lip (fun s : Rf => N (T - s)) by exact: (lip_rev Nlip).
have lYN : lip (fun s : Rf => Y s *m N (T - s)) by exact: lip_mul.
have [g [g0 lg cg dg]] := affine_ex T0 (0 : 'cV[Rf]_n) (lipC T (0 : 'M[Rf]_n))
  (lipD (lip_mul lYN (lip_rev leta)) (lip_mul lY (lip_rev (c_lip lP)))).
pose q (s : Rf) := Y s *m N (T - s) *m (Y s)^T.
have lq : lip q by apply: lip_mul => //; exact: lip_tr.
have qok (s : Rf) : 0 <= s <= T -> symm (q s) /\ psd (q s).
  move=> hs; have [sN pN] := Nok (rv _ hs); split; first by rewrite /symm /q (trmx_mul (_ *m _)) trmxK (trmx_mul (Y s) (N _)) sN mulmxA.
  by move=> x; rewrite /q -{1}[Y s]trmxK qfM; exact: pN.
have [G [G0 lG wG dG]] := @riccati_ex T T0 n (fun _ => 0) (fun _ => 0) q 0 (lipC T (0 : 'M[Rf]_n)) (lipC T (0 : 'M[Rf]_n)) lq
   (fun _ _ => conj (s0 n) (p0 (k := n))) qok (s0 n) (p0 (k := n)).
exists (fun t : R => Y (T - (t : Rf))), (fun t : R => g (T - (t : Rf))%R), (fun t : R => G (T - (t : Rf))%R), eta, J.
have TT (t : Rf) : T - (T - t) = t by rewrite opprB addrC subrK.
have trc (t : Rf) : mcont Y t by move=> i j; apply: (cont_ext _ (cy t j i)) => s; rewrite /Y mxE.
split.
- by rewrite /emap subrr /Y y0 trmx1 g0 G0 eT JT.
- move=> t ht; have [c1 c2 c3] := cJe t ht; have [d1 d2 d3] := wG _ (rv _ ht); split; last by split=> //; exact: pJ.
  by split=> //; [exact: (mcont_rev (trc _)) | exact: (mcont_rev (cg _)) | exact: mcont_rev].
move=> t ht; have ht' := rev_ok' ht; have i : 0 <= t <= T by case/andP: ht => h1 h2; rewrite !ltW.
have [dS [dv [E hJ heta]]] := dJe t ht isT.
have [sN _] := Nok i; have [_ _ sJ] := cJe t i.
move: E; rewrite /riccati_ode_f -[ULT P0 t]/(ULT P t) ULTs // obindS Sv_unpack => -[] /(congr1 (@unpack_Sv _ _)); rewrite !Sv_unpack => -[EJ Eeta].
split.
- have := mderiv_rev (mderiv_tr (dy _ ht')); congr (mderiv _ _ _); rewrite /M !TT addr0 (trmx_mul (_ - _)) raddfB /= trmxK (trmx_mul (J t)) sN sJ -/(Y _) mulmxBr opprB mulmxA /=; by [].
- by have := mderiv_rev (dg _ ht'); congr (mderiv _ _ _); rewrite mul0mx add0r !TT /= opprD !mulNmx.
- by have := mderiv_rev (dG _ ht'); congr (mderiv _ _ _); rewrite trmx0 !mulmx0 !mul0mx !(add0r, addr0, oppr0) /q !TT /= !mulNmx.
- move: heta; congr (mderiv _ _ _); rewrite -Eeta /= -/(nn P t); abelr.
- move: hJ; congr (mderiv _ _ _); rewrite -EJ /= -/(nn P t) !mulNmx; abelr.
Qed.

(** S and v follow the backward equations, whatever their value at T *)
Definition follows (S : R -> 'M[Rf]_n) (v : R -> 'cV[Rf]_n) : Prop :=
  (forall t : Rf, 0 <= t <= T -> [/\ mcont S t, mcont v t & symm (S t)]) /\
  forall t : Rf, 0 < t < T -> exists dS dv, [/\ riccati_ode_f P (pack_Sv (S t, v t)) t = Some (pack_Sv (dS, dv)), mderiv S t dS & mderiv v t dv].
Section Given.
Variables (A C J : R -> 'M[Rf]_n) (b eta : R -> 'cV[Rf]_n).
Local Notation e := (emap A b C eta J).
Hypothesis eT : e T = Elem 1%:M 0 0 0 0.
Hypothesis ec : forall t : Rf, 0 <= t <= T -> [/\ mcont A t, mcont b t, mcont C t, mcont eta t & mcont J t] /\ elem_ok (e t).
Hypothesis edr : forall t : Rf, 0 < t < T -> let r := bw_rhs P t (N t) (e t) in
  [/\ mderiv A t (eA r), mderiv b t (eb r), mderiv C t (eC r), mderiv eta t (eeta r) & mderiv J t (eJ r)].
Lemma elem_value S v : follows S v -> psd (S T) -> forall f, eJ f = S T -> eeta f = v T -> forall t : Rf, 0 <= t <= T -> cJ (e t) f = S t /\ ceta (e t) f = v t.
Proof.
move=> [cSv dSv] pS f; have [_ _ sS] : [/\ mcont S T, mcont v T & symm (S T)] by apply: cSv; rewrite T0 lexx.
have [Q eQ] : exists Q, S T = Q by exists (S T).
have [w ew] : exists w, v T = w by exists (v T).
move: pS sS; rewrite eQ ew => pQ sQ fJ feta.
pose XQ : 'M[Rf]_(n + n) := block_mx 1%:M 0 0 (Q - 1%:M).
pose PQ := term P XQ (col_mx 1%:M 1%:M) (col_mx w 0).
have sXQ : symm XQ by rewrite /symm /XQ tr_block_mx !trmx0 trmx1 raddfB /= trmx1 sQ.
have wQ : tracking_weights PQ 0 by exact: term_w.
have tS : (kHT PQ)^T *m kXT PQ *m kHT PQ = Q.
  by rewrite /= /XQ tr_col_mx trmx1 mul_row_block !mul1mx addr0 add0r mul_row_col !mulmx1 addrC subrK.
have tv : (kHT PQ)^T *m kXT PQ *m krT PQ = w.
  by rewrite /= /XQ tr_col_mx trmx1 mul_row_block !mul1mx addr0 add0r mul_row_col mul1mx mulmx0 addr0.
have sol : backward_solution PQ S v [::] 0.
  by split; [rewrite tS eQ | rewrite tv ew | | move=> t ht _; exact: dSv].
pose g : elem Rf n := Elem 0 0 0 w Q.
have og : elem_ok g by split=> //; [exact: s0 | exact: p0].
have cE (t : R) : cJ (e t) f = cJ (e t) g /\ ceta (e t) f = ceta (e t) g by rewrite /cJ /ceta /cR fJ feta.
pose G (t : R) := invmx (1%:M + Q *m C t).
have un (t : Rf) : 0 <= t <= T -> 1%:M + Q *m C t \in unitmx.
  by move=> ht; have [_ [sC pC _ _]] := ec ht; exact: unit_ICJ.
pose S' (t : R) := (A t)^T *m (G t *m Q) *m A t + J t.
pose v' (t : R) := (A t)^T *m (G t *m (w - Q *m b t)) + eta t.
have SE (t : R) : cJ (e t) g = S' t by rewrite /cJ /S' /cR /= -!mulmxA.
have vE (t : R) : ceta (e t) g = v' t by [].
have sol' : backward_solution PQ S' v' [::] 0.
  have [eA eb eC eeta eJ] : [/\ A T = 1%:M, b T = 0, C T = 0, eta T = 0 & J T = 0] by case: eT.
  split.
  - by rewrite tS /= /S' /G eA eC eJ mulmx0 addr0 invmx1 mul1mx trmx1 mul1mx mulmx1 addr0.
  - by rewrite tv /= /v' /G eA eC eb eeta mulmx0 addr0 invmx1 mul1mx trmx1 mul1mx mulmx0 subr0 addr0.
  - move=> t ht; have [[cA cb cC ceta' cJ'] ok] := ec ht.
    have cG : mcont G t by apply: mcont_invmx; [exact: un | apply: mcont_add; [exact: mcont_const | apply: mcont_mul => //; exact: mcont_const]].
    have cT : mcont (fun t => (A t)^T) t by move=> i j; apply: (cont_ext _ (cA j i)) => s; rewrite mxE.
    split.
    + apply: mcont_add => //; apply: mcont_mul => //; apply: mcont_mul => //; apply: mcont_mul => //; exact: mcont_const.
    + apply: mcont_add => //; apply: mcont_mul => //; apply: mcont_mul => //; apply: mcont_sub; first exact: mcont_const.
      by apply: mcont_mul => //; exact: mcont_const.
    + rewrite -SE; have := combineE ok og => /combine_inv [_ _ [_ _ <-]].
      by have [] := comb_ok ok og.
  move=> t ht _; have ht' : 0 <= t <= T by case/andP: ht => h1 h2; rewrite !ltW.
  have [[cA cb cC ceta' cJ'] [sC pC sJ pJ]] := ec ht'; have [dA db dC deta dJ] : [/\ mderiv A t (A t *m N t *m J t - A t *m kF P t), mderiv b t (- A t *m N t *m eta t - A t *m kc P t), mderiv C t (- A t *m N t *m (A t)^T),
     mderiv eta t (- (kH P t)^T *m kX P t *m kr P t + J t *m N t *m eta t - (kF P t)^T *m eta t + J t *m kc P t) &
     mderiv J t (- (kH P t)^T *m kX P t *m kH P t + J t *m N t *m J t - J t *m kF P t - (kF P t)^T *m J t)] := edr ht.
  have [sN _] := Nok ht'; have {}sJ : symm (J t) := sJ.
  have dM : mderiv (fun t => 1%:M + Q *m C t) t (Q *m (- A t *m N t *m (A t)^T)).
    by have := mderiv_add (mderiv_const 1%:M t) (mderiv_mull Q dC); rewrite add0r.
  have dG := mderiv_invmx (un t ht') dM.
  exists (riccati_rhs P t (N t) (S' t, v' t)).1, (riccati_rhs P t (N t) (S' t, v' t)).2; split.
  + by rewrite /riccati_ode_f -[ULT PQ t]/(ULT P t) ULTs // obindS Sv_unpack -surjective_pairing.
  + have := mderiv_add (mderiv_mul (mderiv_mul (mderiv_tr dA) (mderiv_mulr Q dG)) dA) dJ; congr (mderiv _ _ _).
    rewrite -/(G t) /riccati_rhs /= /S' -(S_alg (A t) (kF P t) Q (G t) ((kH P t)^T *m kX P t *m kH P t) sN sJ); congr (_ + _ + _).
      by rewrite mulmxDl !(mulNmx, mulmxN) opprK.
    by rewrite !mulNmx.
  have dy := mderiv_mul dG (mderiv_add (mderiv_const w t) (mderiv_opp (mderiv_mull Q db))).
  have := mderiv_add (mderiv_mul (mderiv_tr dA) dy) deta; congr (mderiv _ _ _).
  rewrite -/(G t) /riccati_rhs /= /S' /v' !mulNmx -(v_alg (A t) (kF P t) Q (G t) w (b t) (eta t) (kc P t) ((kH P t)^T *m kX P t *m kr P t) sN sJ) add0r !(mulNmx, mulmxN) !opprK; by [].
move=> t ht; have [<- <-] := (@back_unique _ _ _ _ PQ T0 wQ lP _ _ _ _ sol' sol t ht).
by have [-> ->] := cE t.
Qed.
End Given.
End Exact.
