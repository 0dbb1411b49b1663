(** Packed values: norms, limits and the Lipschitz property. *)
From Coq Require Import Reals Lra.
From mathcomp Require Import all_ssreflect all_algebra zify.
From Verif Require Import RealF MxBase LqtModel ClqtModel ClqtSpec ClqtPack RealExpSpec RealExp ClqrOpt RealDisc RkConvA RkConvC RkConv TvarSpec TvarInv TvarLip.
Import Order.TTheory GRing.Theory Num.Theory.
Set Implicit Arguments. Unset Strict Implicit. Unset Printing Implicit Defensive.
Local Open Scope ring_scope.
Delimit Scope R_scope with Re.

Section Pack.
Variable n : nat.
Lemma nrm_ent w (x : 'M[Rf]_(n, w)) : nrm x = \sum_i \sum_(0 <= j < w) `|ent x i j|.
Proof. by apply: eq_bigr => i _; rewrite big_mkord; apply: eq_bigr => j _; rewrite entE. Qed.
Lemma nrm_Sv (A : 'M[Rf]_n) (a : 'cV[Rf]_n) : nrm (pack_Sv (A, a)) = nrm A + nrm a.
Proof.
rewrite !nrm_ent -big_split /=; apply: eq_bigr => i _; rewrite (@big_cat_nat _ _ _ n) ?leq_addr //=; congr (_ + _).
  apply: eq_big_nat => j /andP [_ jn]; rewrite /pack_Sv /= !ent_set; try lia.
  have -> : (n <= j < n + 1)%N = false by lia.
  by rewrite /= add0n jn subn0.
rewrite -{1}[n]add0n big_addn addKn; apply: eq_big_nat => j /andP [_ jn]; rewrite /pack_Sv /= ent_set; last by lia.
have -> : (n <= j + n < n + 1)%N by lia.
by rewrite addnK.
Qed.
Lemma nrm_abc (A : 'M[Rf]_n) (a : 'cV[Rf]_n) (C : 'M[Rf]_n) : nrm (pack_abc (A, a, C)) = nrm A + nrm C + nrm a.
Proof.
rewrite !nrm_ent -!big_split /=; apply: eq_bigr => i _; rewrite (@big_cat_nat _ _ _ (n + n)) /=; try lia.
rewrite (@big_cat_nat _ _ _ n) ?leq_addr //=; congr (_ + _ + _).
- apply: eq_big_nat => j /andP [_ jn]; rewrite !ent_set; try lia.
  have -> : (2 * n <= j < 2 * n + 1)%N = false by lia.
  have -> : (n <= j < n + n)%N = false by lia.
  by rewrite /= add0n jn subn0.
- rewrite -{1}[n]add0n big_addn addKn; apply: eq_big_nat => j /andP [_ jn]; rewrite !ent_set; try lia.
  have -> : (2 * n <= j + n < 2 * n + 1)%N = false by lia.
  have -> : (n <= j + n < n + n)%N by lia.
  by rewrite addnK.
rewrite -{1}[(n + n)%N]add0n big_addn (_ : (2 * n + 1 - (n + n) = 1)%N); last by lia.
apply: eq_big_nat => j /andP [_ jn]; rewrite ent_set; last by lia.
have -> : (2 * n <= j + (n + n) < 2 * n + 1)%N by lia.
by congr (`|ent _ _ _|); lia.
Qed.
Lemma Sv_sub (A B : 'M[Rf]_n) (a b : 'cV[Rf]_n) : pack_Sv (A, a) - pack_Sv (B, b) = pack_Sv (A - B, a - b).
Proof. by rewrite addrC -scaleN1r -(Psiphi_pack_lin _ (B, b) (A, a)) /= !scaleN1r ![- _ + _]addrC. Qed.
Lemma abc_sub (A B C D : 'M[Rf]_n) (a b : 'cV[Rf]_n) : pack_abc (A, a, C) - pack_abc (B, b, D) = pack_abc (A - B, a - b, C - D).
Proof.
have := abc_pack_lin (- 1) (B, b, D) (A, a, C); rewrite /= => e.
by rewrite addrC -scaleN1r -e !scaleN1r ![- _ + _]addrC.
Qed.
(** limits *)
Lemma mcont_set w k lo (f : R -> 'M[Rf]_(n, k)) (g : R -> 'M[Rf]_(n, w)) (t : Rf) : mcont f t -> mcont g t -> mcont (fun t => set_cols lo (f t) (g t)) t.
Proof.
move=> hf hg i j; apply: (cont_ext (f := fun s => if (lo <= j < lo + k)%N then ent (f s) i (j - lo) else g s i j)); first by move=> s; rewrite mxE.
case: (_ && _); last exact: hg.
by rewrite /ent; case: insub => [j'|]; [exact: hf | exact: continuity_pt_const].
Qed.
Lemma mderiv_set w k lo (f : R -> 'M[Rf]_(n, k)) (g : R -> 'M[Rf]_(n, w)) (t : Rf) D E : mderiv f t D -> mderiv g t E -> mderiv (fun t => set_cols lo (f t) (g t)) t (set_cols lo D E).
Proof.
move=> hf hg i j; rewrite mxE.
apply: (dlim_ext (f := fun s => if (lo <= j < lo + k)%N then ent (f s) i (j - lo) else g s i j)); first by move=> s; rewrite mxE.
case: (_ && _); last exact: hg.
by rewrite /ent; case: insub => [j'|]; [exact: hf | exact: derivable_pt_lim_const].
Qed.
Lemma mcont_Sv (A : R -> 'M[Rf]_n) (a : R -> 'cV[Rf]_n) (t : Rf) : mcont A t -> mcont a t -> mcont (fun t => pack_Sv (A t, a t)) t.
Proof. by move=> hA ha; apply: mcont_set => //; apply: mcont_set => //; exact: mcont_const. Qed.
Lemma mderiv_Sv (A : R -> 'M[Rf]_n) (a : R -> 'cV[Rf]_n) (t : Rf) D d : mderiv A t D -> mderiv a t d -> mderiv (fun t => pack_Sv (A t, a t)) t (pack_Sv (D, d)).
Proof. by move=> hA ha; apply: mderiv_set => //; apply: mderiv_set => //; exact: mderiv_const. Qed.
Lemma mcont_abc (A : R -> 'M[Rf]_n) (a : R -> 'cV[Rf]_n) (C : R -> 'M[Rf]_n) (t : Rf) : mcont A t -> mcont a t -> mcont C t -> mcont (fun t => pack_abc (A t, a t, C t)) t.
Proof. by move=> hA ha hC; do 3 (apply: mcont_set => //); exact: mcont_const. Qed.
Lemma mderiv_abc (A : R -> 'M[Rf]_n) (a : R -> 'cV[Rf]_n) (C : R -> 'M[Rf]_n) (t : Rf) D d E : mderiv A t D -> mderiv a t d -> mderiv C t E ->
  mderiv (fun t => pack_abc (A t, a t, C t)) t (pack_abc (D, d, E)).
Proof. by move=> hA ha hC; do 3 (apply: mderiv_set => //); exact: mderiv_const. Qed.
End Pack.
Section Rev.
Variables k l : nat.
Lemma mderiv_rev (f : R -> 'M[Rf]_(k, l)) (T t : Rf) D : mderiv f (T - t)%R D -> mderiv (fun t : Rf => f (T - t)%R) t (- D).
Proof.
move=> H; have e (s : Rf) : (T + - 1 * s = T - s)%R by rewrite mulN1r.
have H' : mderiv f (T + - 1 * t)%R D by rewrite e.
by have := mderiv_aff H'; rewrite scaleN1r; apply: mderiv_ext => s; rewrite e.
Qed.
Lemma mcont_rev (f : R -> 'M[Rf]_(k, l)) (T t : Rf) : mcont f (T - t)%R -> mcont (fun t : Rf => f (T - t)%R) t.
Proof.
move=> H i j; apply: (continuity_pt_comp (fun s : R => (T - s)%R) (fun s => f s i j)); last exact: H.
apply: continuity_pt_minus; first by apply: continuity_pt_const.
exact: derivable_continuous_pt (derivable_pt_id t).
Qed.
Lemma bl_rev a b (T : Rf) (g : 'M[Rf]_(k, l) -> Rf -> 'M[Rf]_(a, b)) : bl T g -> bl T (fun y s => g y (T - s)).
Proof.
move=> H i j M; have [L L0 HL] := H i j M; exists L => // x y s t hx hy hs ht.
have r (q : Rf) : 0 <= q <= T -> 0 <= T - q <= T by move=> /andP [h1 h2]; rewrite subr_ge0 h2 ler_subl_addr ler_addl.
have := HL x y (T - s) (T - t) hx hy (r _ hs) (r _ ht).
have -> : T - s - (T - t) = t - s by abelr.
by rewrite [`|t - s|]distrC.
Qed.
End Rev.
