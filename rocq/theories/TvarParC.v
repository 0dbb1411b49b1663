(** Convergence over one block: of the element, and of the backward pass from a perturbed value function. *)
From Coq Require Import Reals.
From mathcomp Require Import all_ssreflect all_algebra zify.
From Verif Require Import RealF MxBase LqtModel LqtSpec LqtCore LqtElem LinComb ScanModel ClqtModel ClqtSpec ClqtPack ClqtFwd2 RealExpSpec RealExp ClqrOpt RealDisc RkConvA RkConvC RkConv RkConvP
  FbConvC TrackOptSpec TvarSpec TvarInv TvarLip TvarPack TvarRk Tvar TvarBwd OdeLin TvarExistSpec TvarExist TvarCost ClqrPar ParConvB TvarParA TvarParB.
Import Order.TTheory GRing.Theory Num.Theory.
Set Implicit Arguments. Unset Strict Implicit. Unset Printing Implicit Defensive.
Local Open Scope ring_scope.
Delimit Scope R_scope with Re.

Section Block.
Variables n m p pT : nat.
Variable P : clqt Rf n m p pT.
Local Notation T := (kT P).
Hypothesis T0 : 0 <= T.
Hypothesis pw : forall t : Rf, 0 <= t <= T -> [/\ symm (kX P t), psd (kX P t), symm (kU P t) & pd (kU P t)].
Hypothesis lP : lipschitz_data P.
Local Notation N := (nn P).
Local Notation ul := (ulT P).
Local Notation P0 := (term P (0 : 'M[Rf]_n) 0 0).
Let wt : tracking_weights P0 0. Proof. exact: w0. Qed.
Lemma step_time M k : (k < M)%N -> 0 + k.+1%:R * (T / M%:R) = T - (M - k.+1)%:R * (T / M%:R).
Proof.
move=> kM; rewrite natrB // mulrBl [M%:R * _]mulrC divfK ?pnatr_eq0; last by lia.
by abelr.
Qed.
Lemma step_in M k (r : Rf) : (k < M)%N -> (M - k.+1)%:R * (T / M%:R) <= r <= (M - k.+1)%:R * (T / M%:R) + T / M%:R -> 0 <= T - r <= T.
Proof.
move=> kM /andP [h1 h2]; apply: rev_ok; have Mp : (0 < M)%N by lia.
have g := grid_ok (M := M) (i := M - k) T0 Mp (leq_subr _ _); have g' := grid_ok (M := M) (i := M - k.+1) T0 Mp (leq_subr _ _).
have e2 : ((M - k.+1)%:R + 1 = (M - k)%:R :> Rf) by rewrite -[1]/(1%:R) -natrD; congr (_%:R); lia.
case/andP: g => _ g; case/andP: g' => g' _; rewrite (le_trans g' h1) (le_trans h2) //.
by rewrite -{2}[T / _]mul1r -mulrDl e2.
Qed.

(** ** the backward pass *)
Section Pass.
Variables (S : R -> 'M[Rf]_n) (v : R -> 'cV[Rf]_n).
Hypothesis fo : follows P S v.
Local Notation V := 'M[Rf]_(n, n + 1).
Local Notation rb := (rb P).
Definition zq (s : Rf) : V := pack_Sv (S (T - s)%R, v (T - s)%R).
Lemma zq_cont (t : Rf) : 0 <= t <= T -> mcont zq t.
Proof. by case: fo => c _ ht; have [cS cv _] := c _ (rev_ok ht); apply: mcont_Sv; exact: mcont_rev. Qed.
Lemma zq_deriv (t : Rf) : 0 < t < T -> mderiv zq t (rb (zq t) t).
Proof.
case: fo => _ d ht; have ht' := rev_ok' ht; apply: (mderiv_rev (f := fun t => pack_Sv (S t, v t))).
have [dS [dv [e hS hv]]] := d _ ht'; have i : 0 <= T - t <= T by case/andP: ht' => h1 h2; rewrite !ltW.
rewrite /rr Sv_unpack -[riccati_rhs _ _ _ _]/(riccati_rhs P0 (T - t) (nn P0 (T - t)) (S (T - t)%R, v (T - t)%R)).
by rewrite -(ric_E (P := P0) wt i e); exact: mderiv_Sv.
Qed.
Lemma rb_bl : bl T rb. Proof. exact: (@bl_rb _ _ _ _ P0 T0 wt lP). Qed.
Section Run.
Variables (M : nat) (Q : 'M[Rf]_n) (w : 'cV[Rf]_n).
Fixpoint xq (i : nat) : V := if i is i'.+1 then sy (tstp rb (T / M%:R) (xq i') (i'%:R * (T / M%:R))) else pack_Sv (Q, w).
Definition Sq j := (unpack_Sv (xq (M - j))).1.
Definition vq j := (unpack_Sv (xq (M - j))).2.
Definition Kq j : 'M[Rf]_(m, n) := ul (j%:R * (T / M%:R)) *m Sq j.
Definition dq j : 'cV[Rf]_m := ul (j%:R * (T / M%:R)) *m vq j.
Lemma qstep k : (k < M)%N -> bwd_step P (T / M%:R) 0 k (Sq k.+1, vq k.+1) = Some (Sq k, vq k).
Proof.
move=> kM; have h0 : 0 <= T / M%:R by rewrite divr_ge0 ?ler0n.
rewrite /bwd_step -surjective_pairing Sv_pack step_time // (@tstp_neg _ _ _ rb) //; last first.
  by move=> y r hr; rewrite /riccati_ode_f (ULTs pw (step_in kM hr)) obindS /rb opprK.
rewrite obindS /Sq /vq (_ : (M - k = (M - k.+1).+1)%N); last by lia.
by rewrite [xq _.+1]/= /sy; case: (unpack_Sv (tstp _ _ _ _)) => A a; rewrite Sv_unpack.
Qed.
Lemma qloop k Ks ds Ss vs : (k <= M)%N -> (0 < M)%N -> bwd_loop P (T / M%:R) 0 k (Sq k, vq k) (Ks, ds, Ss, vs) =
  Some ([seq Kq j | j <- iota 0 k] ++ Ks, [seq dq j | j <- iota 0 k] ++ ds, [seq Sq j | j <- iota 0 k] ++ Ss, [seq vq j | j <- iota 0 k] ++ vs).
Proof.
move=> + Mp; elim: k Ks ds Ss vs => [//|k IH] Ks ds Ss vs kM.
rewrite -[bwd_loop _ _ _ _.+1 _ _]/(let? Sv' := bwd_step P (T / M%:R) 0 k (Sq k.+1, vq k.+1) in
      let? '(K, d) := bwd_gain P (T / M%:R) 0 k Sv' in
      bwd_loop P (T / M%:R) 0 k Sv' (K :: Ks, d :: ds, Sv'.1 :: Ss, Sv'.2 :: vs)).
rewrite qstep // obindS /bwd_gain add0r (ULTs pw (grid_ok T0 Mp (ltnW kM))) !obindS IH; last exact: ltnW.
by rewrite -[k.+1]addn1 iotaD !map_cat -!catA.
Qed.
Lemma passE : (0 < M)%N -> clqt_seqBackwardPass P M (Some (T / M%:R)) (Some 0) (Some Q) (Some w) =
  Some ([seq Kq j | j <- iota 0 M], [seq dq j | j <- iota 0 M], [seq Sq j | j <- iota 0 M.+1], [seq vq j | j <- iota 0 M.+1]).
Proof.
move=> Mp; have e0 : (Q, w) = (Sq M, vq M) by rewrite /Sq /vq subnn -[xq 0]/(pack_Sv (Q, w)) Sv_unpack.
rewrite -[M.+1]addn1 iotaD !map_cat /clqt_seqBackwardPass /dt_or obindS /=.
by case: e0 => -> ->; rewrite qloop // !cats0.
Qed.
End Run.
Lemma pass_from (E0 : Rf) : 0 <= E0 -> exists2 D, 0 <= D & forall M, (0 < M)%N -> D <= M%:R -> forall Q w,
  nrm (Q - S T) + nrm (w - v T) <= E0 / M%:R ->
  let t i := i%:R * (T / M%:R) in exists Ks ds Ss vs,
  [/\ clqt_seqBackwardPass P M (Some (T / M%:R)) (Some 0) (Some Q) (Some w) = Some (Ks, ds, Ss, vs),
      [/\ size Ks = M, size ds = M, size Ss = M.+1 & size vs = M.+1],
      forall i, (i <= M)%N -> nrm (nth 0 Ss i - S (t i)) <= D / M%:R /\ nrm (nth 0 vs i - v (t i)) <= D / M%:R &
      forall i, (i < M)%N -> nth 0 Ks i = ul (t i) *m nth 0 Ss i /\ nth 0 ds i = ul (t i) *m nth 0 vs i].
Proof.
move=> E00; have [D D0 H] := @rk_order1_from _ _ rb zq T T0 (bl_nrm rb_bl) zq_cont zq_deriv E0 E00.
exists D => // M Mp DM Q w hQ t.
exists [seq Kq M Q w j | j <- iota 0 M], [seq dq M Q w j | j <- iota 0 M], [seq Sq M Q w j | j <- iota 0 M.+1], [seq vq M Q w j | j <- iota 0 M.+1].
split; [exact: passE | by rewrite !size_map !size_iota | |] => i iM; last first.
  by rewrite !(nth_map 0%N) ?size_iota ?ltnS ?(ltnW iM) // !nth_iota ?ltnS ?(ltnW iM).
rewrite !(nth_map 0%N) ?size_iota ?ltnS // !nth_iota ?ltnS // add0n.
have h : nrm (xq M Q w (M - i) - zq (((M - i)%N)%:R * (T / M%:R))) <= D / M%:R.
  apply: H => //; last exact: leq_subr.
    by rewrite -[xq M Q w 0]/(pack_Sv (Q, w)) /zq subr0 Sv_sub nrm_Sv.
  move=> j jM; rewrite [xq M Q w j.+1]/=; apply: sy_dist.
  by case: fo => c _; have [] := c _ (rev_ok (grid_ok (M := M) T0 Mp jM)).
have e : T - (M - i)%:R * (T / M%:R) = t i.
  rewrite natrB // mulrBl [M%:R * _]mulrC divfK ?pnatr_eq0; last by lia.
  by rewrite /t; abelr.
move: h; rewrite /zq e -[xq M Q w _]Sv_pack [unpack_Sv _]surjective_pairing -/(Sq M Q w i) -/(vq M Q w i) Sv_sub nrm_Sv => h.
by split; apply: le_trans h; [rewrite ler_addl | rewrite ler_addr]; exact: nrm_ge0.
Qed.
End Pass.

(** ** the element *)
Section Elem.
Variables (A C J : R -> 'M[Rf]_n) (b eta : R -> 'cV[Rf]_n).
Local Notation e := (emap A b C eta J).
Hypothesis eT : e T = Elem 1%:M 0 0 0 0.
Hypothesis ec : forall t : Rf, 0 <= t <= T -> [/\ mcont A t, mcont b t, mcont C t, mcont eta t & mcont J t] /\ elem_ok (e t).
Hypothesis edr : forall t : Rf, 0 < t < T -> let r := bw_rhs P t (N t) (e t) in
  [/\ mderiv A t (eA r), mderiv b t (eb r), mderiv C t (eC r), mderiv eta t (eeta r) & mderiv J t (eJ r)].
Local Notation V := 'M[Rf]_(n, 3 * n + 2).
Definition er (y : V) (s : Rf) : V := pack_abcej (bw_rhs P s (N s) (unpack_abcej y)).
Definition erb (y : V) (s : Rf) : V := - er y (T - s).
Definition ze (s : Rf) : V := pack_abcej (e (T - s)%R).
Lemma ze_cont (t : Rf) : 0 <= t <= T -> mcont ze t.
Proof. move=> ht; have [[h1 h2 h3 h4 h5] _] := ec (rev_ok ht); exact: (mcont_rev (mcont_abcej h1 h2 h3 h4 h5)). Qed.
Lemma ze_deriv (t : Rf) : 0 < t < T -> mderiv ze t (erb (ze t) t).
Proof.
move=> ht; have [h1 h2 h3 h4 h5] := edr (rev_ok' ht).
have := mderiv_rev (mderiv_abcej h1 h2 h3 h4 h5); congr (mderiv _ _ _); rewrite /erb /er /ze abcej_unpack; congr (- pack_abcej _).
Qed.
Ltac blt := repeat first [exact: (@bl_F _ _ _ _ P lP) | exact: (@bl_L _ _ _ _ P lP) | exact: (@bl_X _ _ _ _ P lP) | exact: (@bl_c _ _ _ _ P lP) | exact: (@bl_H _ _ _ _ P lP)
  | exact: (@bl_r _ _ _ _ P lP) | exact: (@bl_N _ _ _ _ P0 T0 wt lP) | exact: bl_const
  | apply: bl_tr | apply: bl_add | apply: bl_opp | apply: bl_mul | apply: bl_get; exact: bl_id | exact: bl_id].
Lemma erb_bl : bl T erb.
Proof.
apply: bl_opp; apply: (bl_rev (g := er)); rewrite /er /bw_rhs /unpack_abcej /pack_abcej /=.
by do 5 (apply: bl_set; first by blt); blt.
Qed.
Definition sye (x : V) : V := let: Elem A b C eta J := unpack_abcej x in pack_abcej (Elem A b (symz C) eta (symz J)).
Lemma sye_dist (x : V) g : symm (eC g) -> symm (eJ g) -> nrm (sye x - pack_abcej g) <= nrm (x - pack_abcej g).
Proof.
move=> sC sJ; rewrite /sye -{2}[x]abcej_pack; case: (unpack_abcej x) => A' b' C' eta' J'.
rewrite !ed5_pack /ed5 /ed ler_add2r ler_add2l /=; apply: ler_add; rewrite symz_sub //; exact: nrm_symz.
Qed.
Fixpoint ye (M i : nat) : V := if i is i'.+1 then sye (tstp erb (T / M%:R) (ye M i') (i'%:R * (T / M%:R))) else pack_abcej (Elem 1%:M 0 0 0 0).
Lemma estep M k : (k < M)%N -> elem_step (bwpass_bw_ode_f P) (- (T / M%:R)) (0 + (0 * M + k + 1)%:R * (T / M%:R)) (unpack_abcej (ye M (M - k.+1))) = Some (unpack_abcej (ye M (M - k))).
Proof.
move=> kM; have h0 : 0 <= T / M%:R by rewrite divr_ge0 ?ler0n.
rewrite /elem_step abcej_pack (_ : 0 * M + k + 1 = k.+1)%N; last by lia.
rewrite step_time // (@tstp_neg _ _ _ erb) //; last first.
  by move=> y r hr; rewrite /bwpass_bw_ode_f (ULTs pw (step_in kM hr)) obindS /erb opprK.
rewrite obindS (_ : (M - k = (M - k.+1).+1)%N); last by lia.
by rewrite [ye M _.+1]/= /sye; case: (unpack_abcej (tstp _ _ _ _)) => A' b' C' eta' J'; rewrite abcej_unpack.
Qed.
Lemma eloop M k : (k <= M)%N -> for_ (rev (iota 0 k)) (fun i e => elem_step (bwpass_bw_ode_f P) (- (T / M%:R)) (0 + (0 * M + i + 1)%:R * (T / M%:R)) e)
  (unpack_abcej (ye M (M - k))) = Some (unpack_abcej (ye M M)).
Proof.
elim: k => [|k IH] kM; first by rewrite subn0.
have -> : rev (iota 0 k.+1) = k :: rev (iota 0 k) by rewrite -addn1 iotaD rev_cat.
by rewrite for_cons estep // IH // ltnW.
Qed.
Lemma block_conv1 : exists2 D, 0 <= D & forall M, (0 < M)%N -> D <= M%:R ->
  exists2 g, block_elem P (T / M%:R) 0 M false 0 = Some g & ed5 g (e 0) <= D / M%:R.
Proof.
have [D D0 H] := @rk_order1_from _ _ erb ze T T0 (bl_nrm erb_bl) ze_cont ze_deriv 0 (lexx _).
exists D => // M Mp DM; exists (unpack_abcej (ye M M)).
  have := @eloop M M (leqnn M); rewrite subnn -[ye M 0]/(pack_abcej (Elem 1%:M 0 0 0 0)) abcej_unpack; exact.
have tM : M%:R * (T / M%:R) = T by rewrite mulrC divfK // pnatr_eq0 -lt0n.
have h : nrm (ye M M - ze (M%:R * (T / M%:R))) <= D / M%:R.
  apply: H => //; first by rewrite [ye M 0]/= /ze subr0 eT subrr nrm0 mul0r.
  move=> i iM; rewrite [ye M i.+1]/=.
  by have [_ [sC _ sJ _]] := ec (rev_ok (grid_ok (M := M) T0 Mp iM)); exact: sye_dist.
by rewrite -ed5_pack abcej_pack; move: h; rewrite tM /ze subrr.
Qed.
End Elem.
End Block.
