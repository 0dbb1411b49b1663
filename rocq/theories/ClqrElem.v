(** The exact block element of the regulator, from the exponential of the Hamiltonian matrix. *)
From Coq Require Import Ring Field.
From mathcomp Require Import all_ssreflect all_algebra zify.
From Verif Require Import ScanModel MxBase LqtModel LqtCore LinComb ClqtModel ClqtSpec ClqtFwd2 ClqrModel ClqrSpec ClqrExact.
Import Order.TTheory GRing.Theory Num.Theory.
Set Implicit Arguments. Unset Strict Implicit. Unset Printing Implicit Defensive.
Local Open Scope ring_scope.

Section Elem.
Variable R : realFieldType.
Variable expm : forall n, 'M[R]_n -> 'M[R]_n.
Variables n m : nat.
Variable q : clqr R n m.
Variable ult : 'M[R]_(m, n).
Hypothesis Hult : qULT q = Some ult.
Local Notation N := (qL q *m ult).
Local Notation H := (qham q N).
Hypothesis Hexp : exponential_of expm H.
Hypothesis Hnat : natural_exp expm.
Hypotheses (sU : symm (qU q)) (sX : symm (qX q)).
Hypothesis pU : pd (qU q).
Local Notation EE := (EE expm q ult).
Local Notation CD := (CD expm q ult).
Local Notation val := (val expm q ult).
Definition P11 t : 'M[R]_n := ulsubmx (EE t).
Definition P12 t : 'M[R]_n := ursubmx (EE t).
Definition P21 t : 'M[R]_n := dlsubmx (EE t).
Definition P22 t : 'M[R]_n := drsubmx (EE t).
Lemma EE_block t : EE t = block_mx (P11 t) (P12 t) (P21 t) (P22 t). Proof. by rewrite submxK. Qed.
Lemma CD_block Q t : CD Q t = col_mx (P11 t + P12 t *m Q) (P21 t + P22 t *m Q).
Proof. by rewrite /ClqrExact.CD EE_block mul_block_col !mulmx1. Qed.
Definition Js t := val 0 t.
Definition As t := (P22 t)^T - (P12 t)^T *m Js t.
Definition Cs t := As t *m P12 t.
Definition exact_elem t : elem R n := Elem (As t) 0 (Cs t) 0 (Js t).
Definition value_elem Q t : elem R n := Elem 0 0 0 0 (val Q t).
Lemma sympl t : [/\ (P11 t)^T *m P22 t - (P21 t)^T *m P12 t = 1%:M, (P22 t)^T *m P11 t - (P12 t)^T *m P21 t = 1%:M &
  (P12 t)^T *m P22 t = (P22 t)^T *m P12 t].
Proof.
have := symplectic Hult Hexp Hnat sU sX pU t; rewrite EE_block /JJ tr_block_mx !mulmx_block.
rewrite !mulmx0 !mulmx1 !add0r !addr0 !mulmxN !mulmx1 !mulNmx => /eq_block_mx [_ e1 e2 e3].
split.
- by rewrite -e1 addrC.
- by apply: oppr_inj; rewrite -e2 opprB addrC.
by apply/eqP; rewrite -subr_eq0 addrC; apply/eqP.
Qed.
Definition good t := P11 t \in unitmx.
Lemma good_CD t : good t -> usubmx (CD 0 t) \in unitmx.
Proof. by rewrite CD_block col_mxKu mulmx0 addr0. Qed.
Lemma Js_P11 t : good t -> Js t *m P11 t = P21 t.
Proof. by move=> u; rewrite /Js /ClqrExact.val CD_block col_mxKu col_mxKd !mulmx0 !addr0 mulmxKV. Qed.
Lemma Js_symm t : good t -> symm (Js t).
Proof. by move=> u; apply: (val_symm Hult Hexp Hnat sU sX _ pU (good_CD u)); rewrite /symm trmx0. Qed.
Lemma As_P11 t : good t -> As t *m P11 t = 1%:M.
Proof. by move=> u; rewrite /As mulmxBl -mulmxA Js_P11 //; case: (sympl t). Qed.
Lemma P11_As t : good t -> P11 t *m As t = 1%:M.
Proof. by move=> u; apply: mulmx1C; exact: As_P11. Qed.
Lemma P12E t : good t -> P12 t = P11 t *m Cs t.
Proof. by move=> u; rewrite /Cs mulmxA P11_As // mul1mx. Qed.
Lemma AsT t : good t -> (As t)^T = P22 t - Js t *m P12 t.
Proof. by move=> u; rewrite /As linearB /= trmxK trmx_mul trmxK (Js_symm u). Qed.
Lemma P22E t : good t -> P22 t = (As t)^T + Js t *m P12 t.
Proof. by move=> u; rewrite AsT // subrK. Qed.
Lemma Cs_symm t : good t -> symm (Cs t).
Proof.
move=> u; rewrite /symm /Cs trmx_mul AsT // /As mulmxBl mulmxBr -!mulmxA; congr (_ - _).
by case: (sympl t).
Qed.
(** ** the value function at the end of a block from that at its beginning *)
Section Comb.
Variables (a : R) (S : 'M[R]_n).
Hypothesis ga : good a.
Hypothesis sS : symm S.
Hypothesis uS : usubmx (CD S a) \in unitmx.
Lemma CD_fact : usubmx (CD S a) = P11 a *m (1%:M + Cs a *m S).
Proof. by rewrite CD_block col_mxKu {1}P12E // mulmxDr mulmx1 mulmxA. Qed.
Lemma unit_ICS : 1%:M + Cs a *m S \in unitmx.
Proof. by move: uS; rewrite CD_fact unitmx_mul => /andP []. Qed.
Lemma unit_ISC : 1%:M + S *m Cs a \in unitmx.
Proof. by have := unit_ICS; rewrite -unitmx_tr linearD /= trmx1 trmx_mul (Cs_symm ga) sS. Qed.
Local Notation I1 := (invmx (1%:M + Cs a *m S)).
Lemma push_l : invmx (1%:M + S *m Cs a) *m S = S *m I1.
Proof.
apply: (unit_inj unit_ISC); rewrite mulKVmx ?unit_ISC // mulmxA mulmxDl mul1mx -mulmxA.
have -> : S + S *m (Cs a *m S) = S *m (1%:M + Cs a *m S) by rewrite mulmxDr mulmx1.
by rewrite mulmxK // unit_ICS.
Qed.
Lemma val_lft : val S a = (As a)^T *m (invmx (1%:M + S *m Cs a) *m (S *m As a)) + Js a.
Proof.
have u1 := unit_ICS; have e : invmx (usubmx (CD S a)) = I1 *m As a.
  apply: (unit_inj uS); rewrite mulmxV // CD_fact -mulmxA mulKVmx // P11_As //.
rewrite /ClqrExact.val e; have -> : dsubmx (CD S a) = Js a *m usubmx (CD S a) + (As a)^T *m S.
  rewrite CD_block col_mxKd col_mxKu P22E // mulmxDl mulmxDr Js_P11 // [Js a *m (_ *m S)]mulmxA [_ + Js a *m _ *m S]addrC addrA.
  by [].
rewrite mulmxDl -mulmxA -e mulmxV // mulmx1 addrC e; congr (_ + _).
by rewrite -[LHS]mulmxA [S *m (_ *m _)]mulmxA -push_l -mulmxA.
Qed.
Lemma combine_val : combine_abcej (exact_elem a) (Elem 0 0 0 0 S) = Some (Elem 0 0 0 0 (val S a)).
Proof.
rewrite /combine_abcej /exact_elem /= !(solve_unit _ unit_ICS) !(solve_unit _ unit_ISC) !obindS.
by rewrite !mul0mx !mulmx0 subrr !mulmx0 !addr0 -val_lft.
Qed.
End Comb.
Lemma fact3 (P Pi W Q Qi : 'M[R]_n) : W \in unitmx -> P *m Pi = 1%:M -> Q *m Qi = 1%:M -> P *m W *m Q *m (Qi *m (invmx W *m Pi)) = 1%:M.
Proof. by move=> u e1 e2; rewrite -!mulmxA [Q *m (Qi *m _)]mulmxA e2 mul1mx mulKVmx. Qed.
Lemma fact4 (Pa Aa W Ab P2 Ca AbT : 'M[R]_n) : W \in unitmx -> Aa *m Pa = 1%:M ->
  Ab *m (invmx W *m Aa) *m (Pa *m (W *m P2 + Ca *m AbT)) = Ab *m (invmx W *m (Ca *m AbT)) + Ab *m P2.
Proof. by move=> u e; rewrite -!mulmxA [Aa *m (Pa *m _)]mulmxA e mul1mx !mulmxDr mulKmx // addrC. Qed.
Lemma fact5 (Pa Ca Jb P2 AbT : 'M[R]_n) : Pa *m P2 + Pa *m Ca *m (AbT + Jb *m P2) = Pa *m ((1%:M + Ca *m Jb) *m P2 + Ca *m AbT).
Proof. by rewrite !mulmxDr !mulmxDl !mul1mx !mulmxDr !mulmxA [_ + Pa *m Ca *m Jb *m _]addrC addrA. Qed.
Section Comb2.
Variables (a b : R).
Hypotheses (ga : good a) (gb : good b) (gab : good (a + b)).
Lemma uJ : usubmx (CD (Js b) a) \in unitmx.
Proof.
have E : CD 0 (a + b) = CD (Js b) a *m P11 b.
  by rewrite CD_add // [CD (Js b) a]/ClqrExact.CD -mulmxA mul_col_mx mul1mx Js_P11 // CD_block !mulmx0 !addr0.
have := good_CD gab; rewrite E -(mul_usub_mx) unitmx_mul => /andP [] //.
Qed.
Lemma P11_add : P11 (a + b) = P11 a *m (1%:M + Cs a *m Js b) *m P11 b.
Proof.
rewrite -CD_fact //; have := CD_add Hexp 0 a b; rewrite CD_block !mulmx0 !addr0.
have -> : EE a *m CD 0 b = CD (Js b) a *m P11 b.
  by rewrite [CD (Js b) a]/ClqrExact.CD -mulmxA mul_col_mx mul1mx Js_P11 // CD_block !mulmx0 !addr0.
by move=> /(congr1 usubmx); rewrite col_mxKu -mul_usub_mx.
Qed.
Local Notation I1 := (invmx (1%:M + Cs a *m Js b)).
Lemma As_add : As (a + b) = As b *m (I1 *m As a).
Proof.
have u1 := unit_ICS ga uJ; apply: (unit_inj gab); rewrite P11_As // P11_add; apply/esym.
by apply: fact3 => //; exact: P11_As.
Qed.
Lemma Cs_add : Cs (a + b) = As b *m (I1 *m (Cs a *m (As b)^T)) + Cs b.
Proof.
have u1 := unit_ICS ga uJ.
have E : P12 (a + b) = P11 a *m ((1%:M + Cs a *m Js b) *m P12 b + Cs a *m (As b)^T).
  have := EE_add Hexp a b; rewrite !EE_block mulmx_block => /eq_block_mx [_ -> _ _].
  by rewrite {1}(P12E ga) {1}(P22E gb); exact: fact5.
by rewrite {1}/Cs E As_add; apply: fact4 => //; exact: As_P11.
Qed.
Lemma combine_exact : combine_abcej (exact_elem a) (exact_elem b) = Some (exact_elem (a + b)).
Proof.
have u1 := unit_ICS ga uJ; have u2 := unit_ISC ga (Js_symm gb) uJ.
rewrite /combine_abcej /exact_elem /= !(solve_unit _ u1) !(solve_unit _ u2) !obindS.
rewrite !mulmx0 subrr !mulmx0 !addr0 !mulmx0 As_add Cs_add; congr (Some (Elem _ _ _ _ _)).
have -> : Js (a + b) = val (Js b) a; last by rewrite (val_lft ga (Js_symm gb) uJ).
rewrite /Js addrC (@val_flow R expm n m q ult Hexp 0 b a) //; [exact: good_CD gb | exact: uJ].
Qed.
End Comb2.
End Elem.
