(** The TensorFlow continuous-time tracker computes what the NumPy one does. *)
From mathcomp Require Import all_ssreflect all_algebra zify.
From Verif Require Import ScanModel TfScan MxBase LqtModel LqtSpec LqtCore LqtTfModel LinComb Rk4Model Rk4Spec Rk4Proofs ClqtModel ClqtPack ClqtFwd2 ClqtTfModel.
Import Order.TTheory GRing.Theory Num.Theory.
Set Implicit Arguments. Unset Strict Implicit. Unset Printing Implicit Defensive.
Local Open Scope ring_scope.

Section Pack.
Variable R : realFieldType.
Variable n : nat.

Lemma ent_big k (M : 'M[R]_(n, k)) i j : (k <= j)%N -> ent M i j = 0.
Proof. by move=> h; rewrite /ent insubF // ltnNge h. Qed.
Lemma ent_row k l (A : 'M[R]_(n, k)) (B : 'M[R]_(n, l)) i j :
  ent (row_mx A B) i j = if (j < k)%N then ent A i j else ent B i (j - k).
Proof.
case: (ltnP j (k + l)) => h; last first.
  by rewrite ent_big //; case: ifP => ?; rewrite ent_big //; lia.
rewrite ent_lt mxE; case: splitP => [j' /= e|j' /= e].
  by rewrite e ltn_ord entE.
by rewrite e ltnNge leq_addr /= addKn entE.
Qed.
Lemma get_ext w w' lo k (x : 'M[R]_(n, w)) (y : 'M[R]_(n, w')) : (forall i j, ent x i j = ent y i j) ->
  get_cols lo k x = get_cols lo k y.
Proof. by move=> H; apply/matrixP => i j; rewrite !mxE H. Qed.

Ltac entcase := repeat (case: ifP => ?; try by []; try lia).
Lemma abcej_tf_np e i j : ent (tf_pack_abcej e) i j = ent (@pack_abcej R n e) i j.
Proof.
case: (ltnP j (3 * n + 2)) => h; last by rewrite !ent_big //; lia.
rewrite /pack_abcej /tf_pack_abcej !ent_row !ent_set // ?ent0.
entcase; congr (ent _ i _); lia.
Qed.
Lemma abc_tf_np e i j : ent (tf_pack_abc e) i j = ent (@pack_abc R n e) i j.
Proof.
case: (ltnP j (2 * n + 1)) => h; last by rewrite !ent_big //; lia.
case: e => [[A b] C]; rewrite /pack_abc /tf_pack_abc !ent_row !ent_set // ?ent0.
entcase; congr (ent _ i _); lia.
Qed.
Lemma Psiphi_tf_np e : tf_pack_Psiphi e = @pack_Psiphi R n e.
Proof.
apply: ent_ext => i j h; rewrite /pack_Psiphi /tf_pack_Psiphi !ent_row !ent_set // ?ent0.
entcase; congr (ent _ i _); lia.
Qed.
Lemma Sv_tf_np e : tf_pack_Sv e = @pack_Sv R n e. Proof. exact: Psiphi_tf_np. Qed.

Lemma abcej_unpack_tf e : tf_unpack_abcej (@tf_pack_abcej R n e) = e.
Proof. by rewrite -[RHS]abcej_unpack /tf_unpack_abcej /unpack_abcej; congr Elem; apply: get_ext => i j; exact: abcej_tf_np. Qed.
Lemma abc_unpack_tf e : tf_unpack_abc (@tf_pack_abc R n e) = e.
Proof. by rewrite -[RHS]abc_unpack /tf_unpack_abc /unpack_abc; congr (_, _, _); apply: get_ext => i j; exact: abc_tf_np. Qed.
Lemma Psiphi_unpack_tf e : tf_unpack_Psiphi (@tf_pack_Psiphi R n e) = e.
Proof. by rewrite Psiphi_tf_np; exact: Psiphi_unpack. Qed.
Lemma Sv_unpack_tf e : tf_unpack_Sv (@tf_pack_Sv R n e) = e.
Proof. by rewrite Sv_tf_np; exact: Sv_unpack. Qed.

(** change of layout *)
Definition lay w w' (x : 'M[R]_(n, w)) : 'M[R]_(n, w') := get_cols 0 w' x.
Lemma lay_lin w w' (a : R) (x y : 'M[R]_(n, w)) : lay w' (a *: x + y) = a *: lay w' x + lay w' y.
Proof. exact: get_linear. Qed.
Lemma ent_lay w w' (x : 'M[R]_(n, w)) i j : w = w' -> ent (lay w' x) i j = ent x i j.
Proof.
move=> e; case: (ltnP j w') => h; last by rewrite !ent_big ?e.
by rewrite ent_get.
Qed.
Lemma abcej_pack_tf x : @tf_pack_abcej R n (tf_unpack_abcej x) = x.
Proof.
have e3 : (n + (n + (n + (1 + 1))) = 3 * n + 2)%N by lia.
apply: ent_ext => i j _; rewrite abcej_tf_np -(ent_lay x _ _ e3) -[in RHS](abcej_pack (lay _ x)).
congr (ent (pack_abcej _) i j); rewrite /tf_unpack_abcej /unpack_abcej.
by congr Elem; apply: get_ext => i' j'; rewrite ent_lay.
Qed.
Lemma abc_pack_tf x : @tf_pack_abc R n (tf_unpack_abc x) = x.
Proof.
have e3 : (n + (n + 1) = 2 * n + 1)%N by lia.
apply: ent_ext => i j _; rewrite abc_tf_np -(ent_lay x _ _ e3) -[in RHS](abc_pack (lay _ x)).
congr (ent (pack_abc _) i j); rewrite /tf_unpack_abc /unpack_abc.
by congr (_, _, _); apply: get_ext => i' j'; rewrite ent_lay.
Qed.
Lemma Psiphi_pack_tf x : @tf_pack_Psiphi R n (tf_unpack_Psiphi x) = x.
Proof. by rewrite Psiphi_tf_np; exact: Psiphi_pack. Qed.
Lemma Sv_pack_tf x : @tf_pack_Sv R n (tf_unpack_Sv x) = x.
Proof. by rewrite Sv_tf_np; exact: Sv_pack. Qed.
Lemma abcej_unpack_tf_lin a (x y : 'M[R]_(n, n + (n + (n + (1 + 1))))) :
  tf_unpack_abcej (a *: x + y) = elem_lin a (tf_unpack_abcej x) (tf_unpack_abcej y).
Proof. by rewrite /tf_unpack_abcej !get_linear. Qed.
Lemma abcej_pack_tf_lin a e f : @tf_pack_abcej R n (elem_lin a e f) = a *: tf_pack_abcej e + tf_pack_abcej f.
Proof. by rewrite -[RHS]abcej_pack_tf abcej_unpack_tf_lin !abcej_unpack_tf. Qed.
Lemma abc_unpack_tf_lin a (x y : 'M[R]_(n, n + (n + 1))) : let: (A, b, C) := tf_unpack_abc x in let: (A', b', C') := tf_unpack_abc y in
  tf_unpack_abc (a *: x + y) = (a *: A + A', a *: b + b', a *: C + C').
Proof. by rewrite /tf_unpack_abc !get_linear. Qed.
End Pack.
