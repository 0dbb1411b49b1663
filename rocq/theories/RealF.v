(** Coq's real numbers as a real field of the mathematical components library. *)
From Coq Require Import Reals Lra IndefiniteDescription FunctionalExtensionality.
From mathcomp Require Import all_ssreflect all_algebra.
Import Order.TTheory GRing.Theory Num.Theory.
Set Implicit Arguments. Unset Strict Implicit. Unset Printing Implicit Defensive.
Local Open Scope R_scope.

Definition Req_bool (x y : R) : bool := if Req_EM_T x y then true else false.
Lemma eqRP : Equality.axiom Req_bool.
Proof. by move=> x y; rewrite /Req_bool; case: Req_EM_T => h; constructor. Qed.
Canonical R_eqMixin := EqMixin eqRP.
Canonical R_eqType := Eval hnf in EqType R R_eqMixin.

(** the choice of a real number is that of the standard library's axiom of description *)
Definition pick_ex (P : pred R) (h : exists x, P x) : R := proj1_sig (constructive_indefinite_description _ h).
Lemma exP (P : pred R) : {exists x, P x} + {~ exists x, P x}.
Proof.
have [b hb] := constructive_indefinite_description (fun b : bool => b = true <-> exists x, P x)
  (match Classical_Prop.classic (exists x, P x) with
   | or_introl h => ex_intro _ true (conj (fun _ => h) (fun _ => erefl))
   | or_intror h => ex_intro _ false (conj (fun e => match notF e with end) (fun e => match h e with end)) end).
by case: b hb => [] [h1 h2]; [left; exact: h1 | right=> h; move: (h2 h)].
Qed.
Definition pickR (P : pred R) (n : nat) : option R := match exP P with left h => Some (pick_ex h) | right _ => None end.
Lemma pickR_some P n x : pickR P n = Some x -> P x.
Proof. by rewrite /pickR; case: exP => // h [<-]; rewrite /pick_ex; case: constructive_indefinite_description. Qed.
Lemma pickR_ex (P : pred R) : (exists x, P x) -> exists n, pickR P n.
Proof. by move=> h; exists 0%N; rewrite /pickR; case: exP. Qed.
Lemma pickR_ext (P Q : pred R) : P =1 Q -> pickR P =1 pickR Q.
Proof. by move=> h; have -> : P = Q by apply: functional_extensionality. Qed.
Definition R_choiceMixin := Choice.Mixin pickR_some pickR_ex pickR_ext.
Canonical R_choiceType := Eval hnf in ChoiceType R R_choiceMixin.

Lemma RplusA : associative Rplus. Proof. by move=> *; rewrite Rplus_assoc. Qed.
Definition R_zmodMixin := ZmodMixin RplusA Rplus_comm Rplus_0_l Rplus_opp_l.
Canonical R_zmodType := Eval hnf in ZmodType R R_zmodMixin.
Lemma RmultA : associative Rmult. Proof. by move=> *; rewrite Rmult_assoc. Qed.
Lemma R1_neq_0 : R1 != R0. Proof. by apply/eqP; exact: R1_neq_R0. Qed.
Definition R_ringMixin := RingMixin RmultA Rmult_1_l Rmult_1_r Rmult_plus_distr_r Rmult_plus_distr_l R1_neq_0.
Canonical R_ringType := Eval hnf in RingType R R_ringMixin.
Canonical R_comRingType := Eval hnf in ComRingType R Rmult_comm.
Definition Rinvx (r : R) : R := if r == 0 then r else / r.
Definition unit_R : pred R := fun r => r != 0.
Lemma RmultVx : {in unit_R, left_inverse 1 Rinvx Rmult}.
Proof. by move=> r; rewrite -topredE /unit_R /Rinvx /= => /negbTE h; rewrite h; apply: Rinv_l; apply/eqP; rewrite h. Qed.
Lemma RmultxV : {in unit_R, right_inverse 1 Rinvx Rmult}.
Proof. by move=> r hr; rewrite Rmult_comm RmultVx. Qed.
Lemma unit_Rx x y : y * x = 1 /\ x * y = 1 -> unit_R x.
Proof. by move=> [h _]; apply/eqP => e; move: h; rewrite e Rmult_0_r => /esym /eqP; apply/negP; exact: R1_neq_0. Qed.
Lemma Rinvx_out : {in predC unit_R, Rinvx =1 id}.
Proof. by move=> x; rewrite inE /= /unit_R /Rinvx /in_mem /= negbK => ->. Qed.
Definition R_unitRingMixin := UnitRingMixin RmultVx RmultxV unit_Rx Rinvx_out.
Canonical R_unitRingType := Eval hnf in UnitRingType R R_unitRingMixin.
Canonical R_comUnitRingType := Eval hnf in [comUnitRingType of R].
Lemma R_idomainMixin x y : x * y = 0 -> (x == 0) || (y == 0).
Proof. by case/Rmult_integral => ->; rewrite eqxx ?orbT. Qed.
Canonical R_idomainType := Eval hnf in IdomainType R R_idomainMixin.
Lemma R_fieldMixin : GRing.Field.mixin_of R_unitRingType. Proof. by []. Qed.
Canonical R_fieldType := Eval hnf in FieldType R R_fieldMixin.

Definition Rleb (x y : R) : bool := if Rle_dec x y then true else false.
Definition Rltb (x y : R) : bool := if Rlt_dec x y then true else false.
Lemma RlebP x y : reflect (x <= y) (Rleb x y). Proof. by rewrite /Rleb; case: Rle_dec => h; constructor. Qed.
Lemma RltbP x y : reflect (x < y) (Rltb x y). Proof. by rewrite /Rltb; case: Rlt_dec => h; constructor. Qed.
Lemma Rleb_norm_add x y : Rleb (Rabs (x + y)) (Rabs x + Rabs y). Proof. by apply/RlebP; exact: Rabs_triang. Qed.
Lemma addr_Rgtb0 x y : Rltb 0 x -> Rltb 0 y -> Rltb 0 (x + y).
Proof. by move=> /RltbP ? /RltbP ?; apply/RltbP; lra. Qed.
Lemma Rnorm0_eq0 x : Rabs x = 0 -> x = 0.
Proof. by move=> h; case: (Req_dec x 0) => // /Rabs_no_R0. Qed.
Lemma Rleb_leVge x y : Rleb 0 x -> Rleb 0 y -> (Rleb x y) || (Rleb y x).
Proof. by move=> _ _; apply/orP; case: (Rle_or_lt x y) => h; [left|right]; apply/RlebP; lra. Qed.
Lemma RnormM : {morph Rabs : x y / x * y}. Proof. exact: Rabs_mult. Qed.
Lemma Rleb_def x y : (Rleb x y) = (Rabs (y - x) == y - x).
Proof.
apply/idP/eqP => [/RlebP h|h]; first by apply: Rabs_right; lra.
by apply/RlebP; have := Rabs_pos (y - x); lra.
Qed.
Lemma Rltb_def x y : (Rltb x y) = (y != x) && (Rleb x y).
Proof.
apply/RltbP/andP => [h|[/eqP h /RlebP h2]]; last by lra.
by split; [apply/eqP => e; lra | apply/RlebP; lra].
Qed.
Definition R_numMixin := NumMixin Rleb_norm_add addr_Rgtb0 Rnorm0_eq0 Rleb_leVge RnormM Rleb_def Rltb_def.
Canonical R_porderType := Eval hnf in POrderType ring_display R R_numMixin.
Canonical R_numDomainType := Eval hnf in NumDomainType R R_numMixin.
Canonical R_normedZmodType := Eval hnf in NormedZmodType R R R_numMixin.
Canonical R_numFieldType := Eval hnf in [numFieldType of R].
Lemma R_total : totalPOrderMixin R_porderType.
Proof. by move=> x y; apply/orP; case: (Rle_or_lt x y) => h; [left|right]; apply/RlebP; lra. Qed.
Canonical R_latticeType := Eval hnf in LatticeType R R_total.
Canonical R_distrLatticeType := Eval hnf in DistrLatticeType R R_total.
Canonical R_orderType := Eval hnf in OrderType R R_total.
Canonical R_realDomainType := Eval hnf in [realDomainType of R].
Canonical R_realFieldType := Eval hnf in [realFieldType of R].

(** the operations are those of the standard library *)
Notation Rf := R_realFieldType.
Lemma RplusE (x y : R) : Rplus x y = @GRing.add R_zmodType x y. Proof. by []. Qed.
Lemma RmultE (x y : R) : Rmult x y = @GRing.mul R_ringType x y. Proof. by []. Qed.
Lemma RoppE (x : R) : Ropp x = @GRing.opp R_zmodType x. Proof. by []. Qed.
Lemma RminusE (x y : R) : Rminus x y = @GRing.add R_zmodType x (GRing.opp y). Proof. by []. Qed.
Lemma RabsE (x : R) : Rabs x = @Num.norm R_numDomainType R_normedZmodType x. Proof. by []. Qed.
Lemma RleP (x y : R) : reflect (Rle x y) (@Order.le ring_display R_porderType x y). Proof. exact: RlebP. Qed.
Lemma RltP (x y : R) : reflect (Rlt x y) (@Order.lt ring_display R_porderType x y). Proof. exact: RltbP. Qed.
Lemma RinvE (x : R) : x != 0%R -> Rinv x = @GRing.inv R_unitRingType x.
Proof. by move=> h; rewrite /GRing.inv /= /Rinvx (negbTE h). Qed.
Lemma INRE (n : nat) : INR n = @GRing.natmul R_zmodType (GRing.one R_ringType) n.
Proof. by elim: n => [//|n IH]; rewrite S_INR IH -addn1 mulrnDr. Qed.
