(** Conditional value functions as linear relations between states and value gradients.
    Combination is relation composition; associativity follows. *)
From Coq Require Import Ring Field.
From mathcomp Require Import all_ssreflect all_algebra.
From Verif Require Import ScanSpec MxBase LqtModel LqtSpec LqtCore.
Import Order.TTheory GRing.Theory Num.Theory.
Set Implicit Arguments. Unset Strict Implicit. Unset Printing Implicit Defensive.
Local Open Scope ring_scope.

Section Elem.
Variable R : realFieldType.
Variables n m : nat.
Add Ring Rr : (mc_ring R).
Add Field Rf : (mc_field R).

Lemma mx_ext p q (A B : 'M[R]_(p, q)) : (forall x : 'cV_q, A *m x = B *m x) -> A = B.
Proof.
move=> E; apply/matrixP => i j; have := E (delta_mx j 0).
by rewrite -!colE => /matrixP /(_ i 0); rewrite !mxE.
Qed.


(** (x, l) at the left end, (y, k) at the right end: l, k are gradients *)
Definition rel (e : elem R n) (x l y k : 'cV[R]_n) : Prop :=
  y = eA e *m x + eb e - eC e *m k /\ l = eJ e *m x - eeta e + (eA e)^T *m k.

Lemma rel_ext e f : (forall x l y k, rel e x l y k -> rel f x l y k) -> e = f.
Proof.
case: e f => A b C h J [A' b' C' h' J'] H.
have H1 x k : A *m x + b - C *m k = A' *m x + b' - C' *m k /\ J *m x - h + A^T *m k = J' *m x - h' + A'^T *m k.
  by have [] := H x _ _ k (conj erefl erefl).
have Eb : b = b' by have [+ _] := H1 0 0; rewrite !mulmx0 !add0r !subr0.
have Eh : h = h' by have [_ +] := H1 0 0; rewrite !mulmx0 !add0r !addr0 => /oppr_inj.
subst b' h'.
have EA : A = A'.
  apply: mx_ext => x; have [+ _] := H1 x 0; rewrite !mulmx0 !subr0; exact: addIr.
have EJ : J = J'.
  apply: mx_ext => x; have [_ +] := H1 x 0; rewrite !mulmx0 !addr0; exact: addIr.
have EC : C = C'.
  by apply: mx_ext => x; have [+ _] := H1 0 x; rewrite !mulmx0 => /addrI /oppr_inj.
by subst.
Qed.

Section Comb.
Variables e f : elem R n.
Hypothesis oe : elem_ok e.
Hypothesis of_ : elem_ok f.
Let uP : 1%:M + eC e *m eJ f \in unitmx.
Proof. by case: oe => ? ? _ _; case: of_ => _ _ ? ?; apply: unit_ICJ. Qed.
Let uQ : 1%:M + eJ f *m eC e \in unitmx.
Proof. by case: oe => ? ? _ _; case: of_ => _ _ ? ?; apply: unit_ICJ. Qed.
Let PT : (invmx (1%:M + eC e *m eJ f))^T = invmx (1%:M + eJ f *m eC e).
Proof.
case: oe => sC _ _ _; case: of_ => _ _ sJ _.
by rewrite trmx_inv raddfD /= trmx1 trmx_mul sC sJ.
Qed.

Definition comb2 : elem R n :=
  let P := invmx (1%:M + eC e *m eJ f) in let Q := invmx (1%:M + eJ f *m eC e) in
  Elem (eA f *m P *m eA e) (eA f *m P *m (eb e + eC e *m eeta f) + eb f)
       (eA f *m P *m eC e *m (eA f)^T + eC f)
       ((eA e)^T *m Q *m (eeta f - eJ f *m eb e) + eeta e) ((eA e)^T *m Q *m eJ f *m eA e + eJ e).

Lemma combineE : combine_abcej e f = Some comb2.
Proof. by rewrite /combine_abcej !solve_unit //= /comb2 !mulmxA. Qed.

Lemma comb_rel x l z k : rel comb2 x l z k <-> exists y j, rel e x l y j /\ rel f y j z k.
Proof.
rewrite /comb2; move: PT (mulmxV uP) (mulVmx uP) (mulmxV uQ) (mulVmx uQ).
move: (invmx (1%:M + eC e *m eJ f)) (invmx (1%:M + eJ f *m eC e)) => P Q PT' e1 e2 e3 e4.
rewrite /rel /=.
have Qj y j : y = eA e *m x + eb e - eC e *m j -> j = eJ f *m y - eeta f + (eA f)^T *m k ->
   j = Q *m (eJ f *m (eA e *m x + eb e) - eeta f + (eA f)^T *m k).
  move=> Ey Ej; have E : (1%:M + eJ f *m eC e) *m j = eJ f *m (eA e *m x + eb e) - eeta f + (eA f)^T *m k.
    have -> : eA e *m x + eb e = y + eC e *m j by rewrite Ey; abel.
    by apply: (lincomb Ej); mxexp; abel.
  by rewrite -E mulmxA e4 mul1mx.
have Py y j : y = eA e *m x + eb e - eC e *m j -> j = eJ f *m y - eeta f + (eA f)^T *m k ->
   y = P *m (eA e *m x + eb e + eC e *m eeta f - eC e *m (eA f)^T *m k).
  move=> Ey Ej; have E : (1%:M + eC e *m eJ f) *m y = eA e *m x + eb e + eC e *m eeta f - eC e *m (eA f)^T *m k.
    have Ej' : eJ f *m y = j + eeta f - (eA f)^T *m k by rewrite [in RHS]Ej; abel.
    by rewrite mulmxDl mul1mx -mulmxA Ej' {1}Ey; mxabel.
  by rewrite -E mulmxA e2 mul1mx.
split.
- case=> Ez El.
  pose y := P *m (eA e *m x + eb e + eC e *m eeta f - eC e *m (eA f)^T *m k).
  pose j := eJ f *m y - eeta f + (eA f)^T *m k.
  have Ey : y = eA e *m x + eb e - eC e *m j.
    have : (1%:M + eC e *m eJ f) *m y = eA e *m x + eb e + eC e *m eeta f - eC e *m (eA f)^T *m k.
      by rewrite /y mulmxA e1 mul1mx.
    by move=> E; apply: (lincomb E); rewrite /j; clearbody y; mxabel.
  exists y, j; split; split => //.
  + rewrite El (Qj y j) // trmx_mul trmx_mul PT'; by mxabel.
  + by rewrite Ez /y; mxabel.
- case=> y [j [[Ey El] [Ez Ej]]]; split.
  + by rewrite Ez (Py y j) //; mxabel.
  + by rewrite El (Qj y j) // trmx_mul trmx_mul PT'; mxabel.
Qed.

Lemma comb_total x k : exists l z, rel comb2 x l z k.
Proof. by rewrite /rel; do 2 eexists. Qed.

Lemma comb_ok : elem_ok comb2.
Proof.
have [sC1 pC1 sJ1 pJ1] := oe; have [sC2 pC2 sJ2 pJ2] := of_.
have QT : (invmx (1%:M + eJ f *m eC e))^T = invmx (1%:M + eC e *m eJ f) by rewrite -PT trmxK.
have PC : invmx (1%:M + eC e *m eJ f) *m eC e = eC e *m invmx (1%:M + eJ f *m eC e).
  apply: (unit_inj uP); rewrite mulKVmx //.
  have -> : (1%:M + eC e *m eJ f) *m (eC e *m invmx (1%:M + eJ f *m eC e)) =
     eC e *m ((1%:M + eJ f *m eC e) *m invmx (1%:M + eJ f *m eC e)) by mxabel.
  by rewrite mulmxV // mulmx1.
have QJ : invmx (1%:M + eJ f *m eC e) *m eJ f = eJ f *m invmx (1%:M + eC e *m eJ f).
  apply: (unit_inj uQ); rewrite mulKVmx //.
  have -> : (1%:M + eJ f *m eC e) *m (eJ f *m invmx (1%:M + eC e *m eJ f)) =
     eJ f *m ((1%:M + eC e *m eJ f) *m invmx (1%:M + eC e *m eJ f)) by mxabel.
  by rewrite mulmxV // mulmx1.
have sPC : symm (invmx (1%:M + eC e *m eJ f) *m eC e) by rewrite /symm trmx_mul PT sC1 PC.
have sQJ : symm (invmx (1%:M + eJ f *m eC e) *m eJ f) by rewrite /symm trmx_mul sJ2 -[in LHS]PT trmxK QJ.
have pPC : psd (invmx (1%:M + eC e *m eJ f) *m eC e).
  have -> : invmx (1%:M + eC e *m eJ f) *m eC e = (invmx (1%:M + eJ f *m eC e))^T *m
     (eC e + (eC e)^T *m eJ f *m eC e) *m invmx (1%:M + eJ f *m eC e).
    have -> : eC e + (eC e)^T *m eJ f *m eC e = (1%:M + eC e *m eJ f) *m eC e by rewrite sC1; mxabel.
    by rewrite QT [in RHS]mulmxA mulVmx // mul1mx PC.
  by apply: psd_cong; apply: psdD => //; apply: psd_cong.
have pQJ : psd (invmx (1%:M + eJ f *m eC e) *m eJ f).
  have -> : invmx (1%:M + eJ f *m eC e) *m eJ f = (invmx (1%:M + eC e *m eJ f))^T *m
     (eJ f + (eJ f)^T *m eC e *m eJ f) *m invmx (1%:M + eC e *m eJ f).
    have -> : eJ f + (eJ f)^T *m eC e *m eJ f = (1%:M + eJ f *m eC e) *m eJ f by rewrite sJ2; mxabel.
    by rewrite PT [in RHS]mulmxA mulVmx // mul1mx QJ.
  by apply: psd_cong; apply: psdD => //; apply: psd_cong.
rewrite /elem_ok /comb2 /=; split.
- rewrite -[eA f *m _ *m eC e]mulmxA; apply: symmD => //.
  by have := symm_cong (eA f)^T sPC; rewrite trmxK.
- rewrite -[eA f *m _ *m eC e]mulmxA; apply: psdD => //.
  by have := @psd_cong R _ _ _ (eA f)^T pPC; rewrite trmxK.
- by rewrite -[(eA e)^T *m _ *m eJ f]mulmxA; apply: symmD => //; apply: symm_cong.
- by rewrite -[(eA e)^T *m _ *m eJ f]mulmxA; apply: psdD => //; apply: psd_cong.
Qed.
End Comb.

Lemma combine_closed : closed_on (@elem_ok R n) (@combine_abcej R n).
Proof. by move=> e f oe of_; exists (comb2 e f); split; [apply: combineE | apply: comb_ok]. Qed.

Lemma combine_assoc : assoc_on (@elem_ok R n) (@combine_abcej R n).
Proof.
move=> e f g ef fg oe of_ og; rewrite combineE // => -[<-]; rewrite combineE // => -[<-].
have o12 := comb_ok oe of_; have o23 := comb_ok of_ og.
rewrite !combineE //; congr Some; apply: rel_ext => x l z k.
case/comb_rel => // y [j [/comb_rel [] // x1 [l1 [H1 H2]] H3]].
by apply/comb_rel => //; exists x1, l1; split => //; apply/comb_rel => //; exists y, j.
Qed.

(** ** the element of a stage *)
Section StageElem.
Variable p : nat.
Variable s : stage R n m p.
Hypothesis ok : stage_ok s.
Notation F := (sF s). Notation L := (sL s). Notation X := (sX s). Notation U := (sU s). Notation c := (scc s).
Notation H := (sH s). Notation r := (sr s). Notation Z := (sZ s). Notation sv := (ss s). Notation M := (sM s).

Lemma stage_elemP : exists e, [/\ stage_elem s = Some e, elem_ok e &
  forall x l y k, rel e x l y k <-> exists u, kkt s x l u y k].
Proof.
have [sX' sU' jp _] := ok.
have uZ := Z_unit ok; have pU := U_pd ok; have uU := pd_unit pU.
have pZ := ZUZ_pd ok; have uZUZ := pd_unit pZ.
have sZUZ : symm (Z^T *m U *m Z) by apply: symm_cong.
have uUZ : U *m Z \in unitmx by rewrite unitmx_mul uU uZ.
rewrite /stage_elem !solve_unit // solve_posE //=.
set a := invmx (U *m Z) *m (M^T *m H); set b1 := invmx (U *m Z) *m (M^T *m r).
set b2 := invmx Z *m sv; set cc := invmx _ *m L^T; set y := invmx U *m M^T.
have ea : U *m Z *m a = M^T *m H by rewrite mulKVmx.
have eb1 : U *m Z *m b1 = M^T *m r by rewrite mulKVmx.
have eb2 : Z *m b2 = sv by rewrite mulKVmx.
have ec : Z^T *m U *m Z *m cc = L^T by rewrite mulKVmx.
have ey : U *m y = M^T by rewrite mulKVmx.
have Ecc : cc = invmx (Z^T *m U *m Z) *m L^T by [].
clearbody a b1 b2 cc y.
have Za : Z *m a = y *m H by apply: (unit_inj uU); rewrite !mulmxA ea ey.
have Zb1 : Z *m b1 = y *m r by apply: (unit_inj uU); rewrite !mulmxA eb1 ey.
have aL : H^T *m M *m Z *m cc = a^T *m L^T.
  have -> : H^T *m M = a^T *m Z^T *m U by rewrite -[LHS]trmxK trmx_mul trmxK -ea !trmx_mul sU' mulmxA.
  by rewrite -ec !mulmxA.
eexists; split; first by [].
  rewrite /elem_ok /=; split.
  - rewrite Ecc mulmxA -{1}[L]trmxK; apply: symm_cong; exact: symm_inv.
  - rewrite Ecc mulmxA -{1}[L]trmxK; apply: psd_cong; exact/pd_psd/pd_inv.
  - apply: symm_cong; apply: symmB => //.
    have -> : M *m y = y^T *m U *m y by rewrite -mulmxA ey -[M in LHS]trmxK -ey trmx_mul sU' -mulmxA ey.
    exact: symm_cong.
  - apply: psd_cong => e; have := jp e (- (y *m e)).
    rewrite !qf_dot !mulmxN !dotE opprK mulmxBl dotBr.
    have -> : dot (y *m e) (U *m (y *m e)) = dot e (M *m (y *m e)).
      by rewrite [in LHS](mulmxA U) ey dotC dotMl trmxK.
    rewrite -!mulmxA => q; move: q; congr (_ <= _); rsn R; ring.
move=> x l z k; rewrite /rel /kkt /=; split.
- case=> Ez El.
  exists (b2 - a *m x + b1 - cc *m k); split.
  + by rewrite Ez /next; mxabel.
  + rewrite El /gx.
    have -> : Z *m (b2 - a *m x + b1 - cc *m k) - sv = - (y *m (H *m x - r)) - Z *m cc *m k.
      by rewrite !(mulmxDr, mulmxN) eb2 (mulmxA Z a) Za Zb1; mxabel.
    have aL' := congr1 (fun A => A *m k) aL.
    by apply: (lincomb aL'); mxabel.
  + rewrite /gu.
    have -> : Z *m (b2 - a *m x + b1 - cc *m k) - sv = - (y *m (H *m x - r)) - Z *m cc *m k.
      by rewrite !(mulmxDr, mulmxN) eb2 (mulmxA Z a) Za Zb1; mxabel.
    rewrite -ec; have -> : Z^T *m M^T = Z^T *m U *m y by rewrite -mulmxA ey.
    by mxabel.
- case=> u [Ez El Eg].
  have Eu : u = b2 - a *m x + b1 - cc *m k.
    apply: (unit_inj uZUZ); move: Eg; rewrite /gu => Eg.
    have e1 : Z^T *m M^T *m (H *m x - r) = Z^T *m U *m Z *m (a *m x - b1).
      by rewrite mulmxBr [in RHS]mulmxBr -!mulmxA (mulmxA U Z (a *m x)) (mulmxA (U *m Z) a) ea (mulmxA U Z) eb1 !mulmxA.
    apply: (lincomb Eg); rewrite e1 -ec -eb2; mxabel.
  have EZu : Z *m u - sv = - (y *m (H *m x - r)) - Z *m cc *m k.
      by rewrite Eu !(mulmxDr, mulmxN) eb2 (mulmxA Z a) Za Zb1; mxabel.
  split.
  + by rewrite Ez Eu /next; mxabel.
  + rewrite El /gx EZu.
    have aL' := congr1 (fun A => A *m k) aL.
    by apply: (lincomb (esym aL')); mxabel.
Qed.
End StageElem.
End Elem.
