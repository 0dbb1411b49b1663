(** Packing and unpacking of the states of the differential equations. *)
From mathcomp Require Import all_ssreflect all_algebra zify.
From Verif Require Import ScanModel MxBase LqtModel Rk4Model Rk4Spec ClqtModel.
Import Order.TTheory GRing.Theory Num.Theory.
Set Implicit Arguments. Unset Strict Implicit. Unset Printing Implicit Defensive.
Local Open Scope ring_scope.

Section Pack.
Variable R : realFieldType.
Variable n : nat.

Lemma entE k (M : 'M[R]_(n, k)) i (j : 'I_k) : ent M i j = M i j.
Proof. by rewrite /ent valK. Qed.
Lemma ent_lt k (M : 'M[R]_(n, k)) i j (h : (j < k)%N) : ent M i j = M i (Ordinal h).
Proof. by rewrite -(entE M i (Ordinal h)). Qed.
Lemma ent_set w k lo (M : 'M[R]_(n, k)) (x : 'M_(n, w)) i j : (j < w)%N ->
  ent (set_cols lo M x) i j = if (lo <= j < lo + k)%N then ent M i (j - lo) else ent x i j.
Proof. by move=> h; rewrite !(ent_lt _ _ h) mxE. Qed.
Lemma ent_get w lo k (x : 'M[R]_(n, w)) i j : (j < k)%N -> ent (get_cols lo k x) i j = ent x i (lo + j).
Proof. by move=> h; rewrite (ent_lt _ _ h) mxE. Qed.
Lemma ent_ext k (M N : 'M[R]_(n, k)) : (forall i j, (j < k)%N -> ent M i j = ent N i j) -> M = N.
Proof. by move=> H; apply/matrixP => i j; rewrite -!entE; apply: H. Qed.
Lemma ent0 k i j : ent (0 : 'M[R]_(n, k)) i j = 0.
Proof. by rewrite /ent; case: insub => // a; rewrite mxE. Qed.

Lemma get_set w k lo (M : 'M[R]_(n, k)) (x : 'M_(n, w)) : (lo + k <= w)%N -> get_cols lo k (set_cols lo M x) = M.
Proof.
move=> h; apply: ent_ext => i j jk; rewrite ent_get // ent_set; last by lia.
have -> : (lo <= lo + j < lo + k)%N by lia.
by rewrite addKn.
Qed.
Lemma get_set_ne w k lo k' lo' (M : 'M[R]_(n, k)) (x : 'M_(n, w)) : (lo' + k' <= w)%N ->
  (lo' + k' <= lo)%N || (lo + k <= lo')%N -> get_cols lo' k' (set_cols lo M x) = get_cols lo' k' x.
Proof.
move=> h d; apply: ent_ext => i j jk; rewrite !ent_get // ent_set; last by lia.
by have -> : (lo <= lo' + j < lo + k)%N = false by lia.
Qed.

Lemma get_linear w lo k (a : R) (x y : 'M[R]_(n, w)) : get_cols lo k (a *: x + y) = a *: get_cols lo k x + get_cols lo k y.
Proof.
apply/matrixP => i j; rewrite !mxE /ent; case: insubP => [u _ _|_]; first by rewrite !mxE.
by rewrite mulr0 addr0.
Qed.
Lemma set_linear w lo k (a : R) (M N : 'M[R]_(n, k)) (x y : 'M[R]_(n, w)) :
  set_cols lo (a *: M + N) (a *: x + y) = a *: set_cols lo M x + set_cols lo N y.
Proof.
apply/matrixP => i j; rewrite !mxE; case: ifP => // h.
by rewrite /ent; case: insubP => [u _ _|_]; rewrite ?mxE // mulr0 addr0.
Qed.

(** round trips *)
Lemma abcej_unpack e : @unpack_abcej R n (pack_abcej e) = e.
Proof.
case: e => A b C eta J; rewrite /unpack_abcej /pack_abcej /=.
by congr Elem; rewrite ?(get_set, get_set_ne) //; lia.
Qed.
Lemma Psiphi_unpack e : @unpack_Psiphi R n (pack_Psiphi e) = e.
Proof. by case: e => A b; rewrite /unpack_Psiphi /pack_Psiphi; congr pair; rewrite ?(get_set, get_set_ne) //=; lia. Qed.
Lemma Sv_unpack e : @unpack_Sv R n (pack_Sv e) = e.
Proof. exact: Psiphi_unpack. Qed.
Lemma abc_unpack e : @unpack_abc R n (pack_abc e) = e.
Proof. by case: e => [[A b] C]; rewrite /unpack_abc /pack_abc; congr (_, _, _); rewrite ?(get_set, get_set_ne) //; lia. Qed.

Lemma abcej_pack x : @pack_abcej R n (unpack_abcej x) = x.
Proof.
apply: ent_ext => i j h; rewrite /pack_abcej !ent_set //=.
case: ifP => c1; first by rewrite ent_get; [congr ent; lia|lia].
case: ifP => c2; first by rewrite ent_get; [congr ent; lia|lia].
case: ifP => c3; first by rewrite ent_get; [congr ent; lia|lia].
case: ifP => c4; first by rewrite ent_get; [congr ent; lia|lia].
case: ifP => c5; first by rewrite ent_get; [congr ent; lia|lia].
by lia.
Qed.
Lemma Psiphi_pack x : @pack_Psiphi R n (unpack_Psiphi x) = x.
Proof.
apply: ent_ext => i j h; rewrite /pack_Psiphi !ent_set //=.
case: ifP => c1; first by rewrite ent_get; [congr ent; lia|lia].
case: ifP => c2; first by rewrite ent_get; [congr ent; lia|lia].
by lia.
Qed.
Lemma Sv_pack x : @pack_Sv R n (unpack_Sv x) = x. Proof. exact: Psiphi_pack. Qed.
Lemma abc_pack x : @pack_abc R n (unpack_abc x) = x.
Proof.
apply: ent_ext => i j h; rewrite /pack_abc /unpack_abc !ent_set //=.
case: ifP => c1; first by rewrite ent_get; [congr ent; lia|lia].
case: ifP => c2; first by rewrite ent_get; [congr ent; lia|lia].
case: ifP => c3; first by rewrite ent_get; [congr ent; lia|lia].
by lia.
Qed.

(** componentwise vector-space operations *)
Definition elem_lin (a : R) (e f : elem R n) : elem R n :=
  Elem (a *: eA e + eA f) (a *: eb e + eb f) (a *: eC e + eC f) (a *: eeta e + eeta f) (a *: eJ e + eJ f).
Lemma abcej_unpack_lin a (x y : 'M[R]_(n, 3 * n + 2)) :
  unpack_abcej (a *: x + y) = elem_lin a (unpack_abcej x) (unpack_abcej y).
Proof. by rewrite /unpack_abcej /elem_lin /= !get_linear. Qed.
Lemma abcej_pack_lin a e f : @pack_abcej R n (elem_lin a e f) = a *: pack_abcej e + pack_abcej f.
Proof.
rewrite /pack_abcej /elem_lin /= -{1}[0 in LHS](addr0 (0 : 'M[R]_(n, 3 * n + 2))).
by rewrite -{1}[X in X + 0](scaler0 _ a) !set_linear.
Qed.
Lemma Psiphi_unpack_lin a (x y : 'M[R]_(n, n + 1)) :
  unpack_Psiphi (a *: x + y) = (a *: (unpack_Psiphi x).1 + (unpack_Psiphi y).1, a *: (unpack_Psiphi x).2 + (unpack_Psiphi y).2).
Proof. by rewrite /unpack_Psiphi /= !get_linear. Qed.
Lemma Psiphi_pack_lin a (e f : 'M[R]_n * 'cV[R]_n) : pack_Psiphi (a *: e.1 + f.1, a *: e.2 + f.2) = a *: pack_Psiphi e + pack_Psiphi f.
Proof.
rewrite /pack_Psiphi /= -{1}[0 in LHS](addr0 (0 : 'M[R]_(n, n + 1))).
by rewrite -{1}[X in X + 0](scaler0 _ a) !set_linear.
Qed.
Lemma abc_unpack_lin a (x y : 'M[R]_(n, 2 * n + 1)) :
  unpack_abc (a *: x + y) = (a *: (unpack_abc x).1.1 + (unpack_abc y).1.1, a *: (unpack_abc x).1.2 + (unpack_abc y).1.2,
                             a *: (unpack_abc x).2 + (unpack_abc y).2).
Proof. by rewrite /unpack_abc /= !get_linear. Qed.
Lemma abc_pack_lin a (e f : 'M[R]_n * 'cV[R]_n * 'M[R]_n) :
  pack_abc (a *: e.1.1 + f.1.1, a *: e.1.2 + f.1.2, a *: e.2 + f.2) = a *: pack_abc e + pack_abc f.
Proof.
case: e => [[A b] C]; case: f => [[A' b'] C']; rewrite /pack_abc /= -{1}[0 in LHS](addr0 (0 : 'M[R]_(n, 2 * n + 1))).
by rewrite -{1}[X in X + 0](scaler0 _ a) !set_linear.
Qed.
End Pack.
