(** Combination of the extended elements. *)
From Coq Require Import Ring Field.
From mathcomp Require Import all_ssreflect all_algebra zify.
From Verif Require Import ScanModel ScanSpec ScanProofs ScanUse MxBase LqtModel LqtCore LqtElem LqtMore LinComb Rk4Model Rk4Spec Rk4Proofs ClqtModel ClqtPack ClqtFwd ClqtFwd2 ClqtBwd ClqtVal ScanRel ClqrModel ClqrSpec ClqrProofs TrackSpec TrackExt TrackExt2.
Import Order.TTheory GRing.Theory Num.Theory.
Set Implicit Arguments. Unset Strict Implicit. Unset Printing Implicit Defensive.
Local Open Scope ring_scope.

Section Comb.
Variable R : realFieldType.
Variable n : nat.
Local Notation eext := (@eext R n).
Lemma combine_eq (e f : elem R n) : symm_elem e -> symm_elem f -> combine_abcej e f =
  if 1%:M + eC e *m eJ f \in unitmx then
    let iM := invmx (1%:M + eC e *m eJ f) in let iL := invmx (1%:M + eJ f *m eC e) in
    Some (Elem (eA f *m (iM *m eA e)) (eA f *m (iM *m (eb e + eC e *m eeta f)) + eb f) (eA f *m (iM *m (eC e *m (eA f)^T)) + eC f)
      ((eA e)^T *m (iL *m (eeta f - eJ f *m eb e)) + eeta e) ((eA e)^T *m (iL *m (eJ f *m eA e)) + eJ e))
  else None.
Proof.
move=> [sC sJ] [sC' sJ']; rewrite /combine_abcej /solve; case u: (1%:M + eC e *m eJ f \in unitmx) => //.
have -> : 1%:M + eJ f *m eC e \in unitmx by rewrite -unitmx_tr trD trmx1 trmx_mul sC sJ'.
by [].
Qed.
Lemma blk0_symm (C : 'M[R]_n) : symm C -> symm (blk0 C).
Proof. by move=> s; rewrite /symm /blk0 tr_block_mx !trmx0 s. Qed.
Lemma blkJ_symm (J : 'M[R]_n) e s : symm J -> symm (blkJ J e s).
Proof.
move=> h; have st : s^T = s by apply/matrixP => i j; rewrite mxE !ord1.
by rewrite /symm /blkJ tr_block_mx !trN trmxK h st.
Qed.
Lemma blkJ_of (J : 'M[R]_(n + 1)) (A : 'M[R]_n) w x y : J = block_mx A (- w) x y -> symm J -> J = blkJ A w y.
Proof. by move=> ->; rewrite /symm tr_block_mx => /eq_block_mx [_ _ <- _]; rewrite /blkJ trN. Qed.
End Comb.

Section Comb.
Variable R : realFieldType.
Variable n : nat.
Local Notation eext := (@eext R n).
Lemma eext_symm fl e e' : eext fl e e' -> symm_elem e'.
Proof. by case=> -[s1 s2] hC _ [s hJ] _; rewrite /symm_elem hC hJ; split; [exact: blk0_symm|exact: blkJ_symm]. Qed.
Lemma unit_ext fl e e' f f' : eext fl e e' -> eext fl f f' -> (1%:M + eC e' *m eJ f' \in unitmx) = (1%:M + eC e *m eJ f \in unitmx).
Proof. by case=> _ hC _ _ _ [_ _ _ [s hJ] _]; rewrite hC hJ /blkJ LU_ext unit_ublock. Qed.
Lemma combine_eext fl e e' f f' : eext fl e e' -> eext fl f f' -> orel (eext fl) (combine_abcej e f) (combine_abcej e' f').
Proof.
move=> he hf; have se' := eext_symm he; have sf' := eext_symm hf; have [se hC he1 [s hJ] hA] := he; have [sf hC' he1' [s' hJ'] hA'] := hf.
case E: (combine_abcej e f) => [g|]; last by move: E; rewrite !combine_eq // (unit_ext he hf); case: ifP.
case E': (combine_abcej e' f') => [g'|]; last by move: E E'; rewrite !combine_eq // (unit_ext he hf); case: ifP.
have sg := combine_symm se sf E; have sg' := combine_symm se' sf' E'.
move: E E'; rewrite !combine_eq // (unit_ext he hf); case: ifP => // u; have uL : 1%:M + eJ f *m eC e \in unitmx.
  by case: se sf => [sC _] [_ sJ]; rewrite -unitmx_tr trD trmx1 trmx_mul sC sJ.
rewrite hC hJ' he1' /blkJ LU_ext -/(blkJ _ _ _) LU'_ext inv_ublock // inv_lblock // => -[Eg] [Eg'].
move: (invmx (1%:M + eC e *m eJ f)) (invmx (1%:M + eJ f *m eC e)) Eg Eg' => iM iL; rewrite mulmxN mulmxN opprK => Eg Eg'.
rewrite /orel; split=> //.
- rewrite -Eg -Eg' /= hC'; case: hA' => [[-> _]|[-> -> _]]; last by rewrite !mul0mx !add0r.
  rewrite /blk0 tr_block_mx !mulmx_block !(trmx0, trmx1, mul0mx, mulmx0, addr0, add0r) add_block_mx !addr0.
  by [].
- rewrite -Eg' /= he1; case: hA => [[_ ->]|[-> _ _]]; first by rewrite mulmx0 subr0 !mulmx0 addr0.
  by rewrite trmx0 mul0mx addr0.
- have [w [x]] : exists x y, eJ g' = block_mx (eJ g) (- eeta g) x y; last by move=> h; exists x; apply: blkJ_of h _; case: sg'.
  rewrite -Eg -Eg' /= hJ; case: hA => [[-> _]|[-> -> _]]; last by rewrite !trmx0 !mul0mx !add0r /blkJ; do 2 eexists.
  rewrite /blkJ tr_block_mx !trmx0 !trmx1 !mulmx_block add_block_mx !(mul0mx, mulmx0, addr0, add0r, mulmx1).
  do 2 eexists; congr block_mx.
  by rewrite -(opprB (eeta f)) !mulmxN opprD.
rewrite -Eg -Eg' /=; case: hA' => [[-> ->]|[-> -> fl']]; last by right; split; rewrite ?mul0mx // => /fl' ->; rewrite !add0r.
case: hA => [[-> ->]|[-> -> fl']]; [left|right].
  rewrite !mulmx_block !(mul0mx, mulmx0, addr0, add0r, mulmx1, mul1mx); split=> //; congr block_mx.
  by congr (_ + _); congr (_ *m _); rewrite mulmxDr.
split; rewrite ?mulmx0 // => /fl' ->; rewrite !addr0 /extend !mul_block_col !(mul0mx, mulmx1, add0r); congr col_mx.
by congr (_ + _); congr (_ *m _); rewrite mulmxDr.
Qed.
End Comb.
