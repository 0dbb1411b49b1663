(** First-order expansions of matrix functions of a small scalar, with bounded remainder. *)
From Coq Require Import Ring Field.
From mathcomp Require Import all_ssreflect all_algebra.
From Verif Require Import MxBase LqtModel LqtCore LinComb NlqtSpec NlqtProofs ClqtSpec.
Import Order.TTheory GRing.Theory Num.Theory.
Set Implicit Arguments. Unset Strict Implicit. Unset Printing Implicit Defensive.
Local Open Scope ring_scope.

Section Exp.
Variable R : realFieldType.
Add Ring Rr : (mc_ring R).
Add Field Rf : (mc_field R).

Lemma mnormD k l (A B : 'M[R]_(k, l)) : mnorm (A + B) <= mnorm A + mnorm B.
Proof.
rewrite /mnorm -big_split; apply: ler_sum => i _; rewrite -big_split; apply: ler_sum => j _.
by rewrite mxE ler_norm_add.
Qed.
Lemma mnormZ k l a (A : 'M[R]_(k, l)) : mnorm (a *: A) = `|a| * mnorm A.
Proof. by rewrite /mnorm mulr_sumr; apply: eq_bigr => i _; rewrite mulr_sumr; apply: eq_bigr => j _; rewrite mxE normrM. Qed.
Lemma mnorm_entry k l (A : 'M[R]_(k, l)) i j : `|A i j| <= mnorm A.
Proof.
rewrite /mnorm (bigD1 i) //= (bigD1 j) //= -addrA ler_addl addr_ge0 // sumr_ge0 // => k' _; rewrite ?sumr_ge0 //.
Qed.
Lemma mnorm_tr k l (A : 'M[R]_(k, l)) : mnorm A^T = mnorm A.
Proof. by rewrite /mnorm exchange_big; apply: eq_bigr => i _; apply: eq_bigr => j _; rewrite mxE. Qed.
Lemma mnorm_cols k l (A : 'M[R]_(k, l)) : mnorm A = \sum_j vnorm (col j A).
Proof. by rewrite /mnorm exchange_big; apply: eq_bigr => j _; apply: eq_bigr => i _; rewrite mxE. Qed.
Lemma mnormM k l q (A : 'M[R]_(k, l)) (B : 'M[R]_(l, q)) : mnorm (A *m B) <= mnorm A * mnorm B.
Proof.
rewrite !(mnorm_cols (_ *m _)) !(mnorm_cols B) mulr_sumr; apply: ler_sum => j _.
by rewrite (colE _ (_ *m _)) -mulmxA -colE vnormM.
Qed.

(** for all h close to zero *)
Definition near (P : R -> Prop) := exists2 d, 0 < d & forall h, `|h| <= d -> P h.
Lemma near_all (P : R -> Prop) : (forall h, P h) -> near P.
Proof. by move=> H; exists 1. Qed.
Lemma near_and (P Q : R -> Prop) : near P -> near Q -> near (fun h => P h /\ Q h).
Proof.
move=> [d d0 H] [d' d0' H']; exists (Num.min d d'); first by rewrite lt_minr d0.
by move=> h; rewrite le_minr => /andP [a b]; split; [exact: H | exact: H'].
Qed.
Lemma near_imp (P Q : R -> Prop) : near P -> (forall h, P h -> Q h) -> near Q.
Proof. by move=> [d d0 H] I; exists d => // h /H /I. Qed.
Lemma near1 : near (fun h => `|h| <= 1). Proof. by exists 1. Qed.

Definition bnd k l (G : R -> 'M[R]_(k, l)) := exists2 B, 0 <= B & near (fun h => mnorm (G h) <= B).
Lemma bnd_const k l (A : 'M[R]_(k, l)) : bnd (fun _ => A).
Proof. by exists (mnorm A); [exact: mnorm_ge0 | apply: near_all]. Qed.
Lemma bnd_add k l (F G : R -> 'M[R]_(k, l)) : bnd F -> bnd G -> bnd (fun h => F h + G h).
Proof.
move=> [B B0 H] [C C0 H']; exists (B + C); first exact: addr_ge0.
by apply: near_imp (near_and H H') _ => h [a b]; apply: le_trans (mnormD _ _) _; exact: ler_add.
Qed.
Lemma bnd_mul k l q (F : R -> 'M[R]_(k, l)) (G : R -> 'M[R]_(l, q)) : bnd F -> bnd G -> bnd (fun h => F h *m G h).
Proof.
move=> [B B0 H] [C C0 H']; exists (B * C); first exact: mulr_ge0.
by apply: near_imp (near_and H H') _ => h [a b]; apply: le_trans (mnormM _ _) _; apply: ler_pmul => //; exact: mnorm_ge0.
Qed.
Lemma bnd_tr k l (F : R -> 'M[R]_(k, l)) : bnd F -> bnd (fun h => (F h)^T).
Proof. by move=> [B B0 H]; exists B => //; apply: near_imp H _ => h; rewrite mnorm_tr. Qed.
Lemma bnd_h k l (F : R -> 'M[R]_(k, l)) : bnd F -> bnd (fun h => h *: F h).
Proof.
move=> [B B0 H]; exists B => //; apply: near_imp (near_and H near1) _ => h [a b].
rewrite mnormZ -[B]mul1r; apply: ler_pmul => //; exact: mnorm_ge0.
Qed.

(** F h = F0 + h F1 + h^2 (bounded) *)
Definition exp2 k l (F : R -> 'M[R]_(k, l)) (F0 F1 : 'M[R]_(k, l)) :=
  exists2 G, bnd G & near (fun h => F h = F0 + h *: F1 + (h * h) *: G h).
Lemma exp2_const k l (A : 'M[R]_(k, l)) : exp2 (fun _ => A) A 0.
Proof. by exists (fun _ => 0); [exact: bnd_const | apply: near_all => h; rewrite !scaler0 !addr0]. Qed.
Lemma exp2_h k l (A : 'M[R]_(k, l)) : exp2 (fun h => h *: A) 0 A.
Proof. by exists (fun _ => 0); [exact: bnd_const | apply: near_all => h; rewrite scaler0 add0r addr0]. Qed.
Lemma exp2_add k l (F G : R -> 'M[R]_(k, l)) F0 F1 G0 G1 : exp2 F F0 F1 -> exp2 G G0 G1 ->
  exp2 (fun h => F h + G h) (F0 + G0) (F1 + G1).
Proof.
move=> [F2 bF EF] [G2 bG EG]; exists (fun h => F2 h + G2 h); first exact: bnd_add.
by apply: near_imp (near_and EF EG) _ => h [-> ->]; lmod; rsn R; ring.
Qed.
Lemma exp2_opp k l (F : R -> 'M[R]_(k, l)) F0 F1 : exp2 F F0 F1 -> exp2 (fun h => - F h) (- F0) (- F1).
Proof.
move=> [F2 bF EF]; exists (fun h => - 1%:M *m F2 h); first by apply: bnd_mul => //; exact: bnd_const.
by apply: near_imp EF _ => h ->; rewrite mulNmx mul1mx; lmod; rsn R; ring.
Qed.
Lemma exp2_tr k l (F : R -> 'M[R]_(k, l)) F0 F1 : exp2 F F0 F1 -> exp2 (fun h => (F h)^T) F0^T F1^T.
Proof.
move=> [F2 bF EF]; exists (fun h => (F2 h)^T); first exact: bnd_tr.
by apply: near_imp EF _ => h ->; rewrite !linearD !linearZ.
Qed.
Lemma exp2_mul k l q (F : R -> 'M[R]_(k, l)) (G : R -> 'M[R]_(l, q)) F0 F1 G0 G1 : exp2 F F0 F1 -> exp2 G G0 G1 ->
  exp2 (fun h => F h *m G h) (F0 *m G0) (F0 *m G1 + F1 *m G0).
Proof.
move=> [F2 bF EF] [G2 bG EG].
exists (fun h => F1 *m G1 + F0 *m G2 h + F2 h *m G0 + h *: (F1 *m G2 h) + h *: (F2 h *m G1) + h *: (h *: (F2 h *m G2 h))).
  do ![apply: bnd_add | apply: bnd_h | apply: bnd_mul] => //; exact: bnd_const.
apply: near_imp (near_and EF EG) _ => h [-> ->].
rewrite !mulmxDl !mulmxDr -!scalemxAl -!scalemxAr; lmod; rsn R; ring.
Qed.

(** the inverse of I + h X *)
Lemma near_unit k (X : 'M[R]_k) : near (fun h => 1%:M + h *: X \in unitmx /\ mnorm (invmx (1%:M + h *: X)) <= mnorm (1%:M : 'M[R]_k) *+ 2).
Proof.
pose d := (2%:R * (1 + mnorm X))^-1.
have X0 := mnorm_ge0 X.
have p1 : 0 < 1 + mnorm X by rewrite ltr_paddr ?ltr01.
have p2 : 0 < 2%:R * (1 + mnorm X) by rewrite mulr_gt0 // ltr0n.
exists d; first by rewrite invr_gt0.
move=> h hd; have hX : `|h| * mnorm X <= 2%:R^-1.
  apply: (@le_trans _ _ (d * (1 + mnorm X))).
    by apply: ler_pmul => //; rewrite ?ler_addr ?ler01.
  by rewrite /d invfM -mulrA mulVf ?mulr1 // gt_eqF.
have u : 1%:M + h *: X \in unitmx.
  apply: unit_ker => x; rewrite mulmxDl mul1mx -scalemxAl => /eqP; rewrite addr_eq0 => /eqP E.
  have : vnorm x <= 2%:R^-1 * vnorm x.
    rewrite {1}E vnormN vnormZ; apply: (@le_trans _ _ (`|h| * (mnorm X * vnorm x))).
      by rewrite ler_wpmul2l // vnormM.
    by rewrite mulrA ler_wpmul2r // vnorm_ge0.
  move=> le; apply: vnorm_eq0; apply/eqP; rewrite eq_le vnorm_ge0 andbT.
  have := le; rewrite -subr_ge0 -{2}[vnorm x]mul1r -mulrBl => le'.
  have hm : 2%:R^-1 - 1 < 0 :> R by rewrite subr_lt0 invf_lt1 ?ltr0n // ltr1n.
  by rewrite nmulr_rge0 in le'.
split => //; set W := invmx _.
have E : W = 1%:M - h *: (X *m W).
  apply/eqP; rewrite -subr_eq0 opprB; apply/eqP.
  have : (1%:M + h *: X) *m W = 1%:M by rewrite mulmxV.
  by rewrite mulmxDl mul1mx -scalemxAl => <-; rewrite opprD addrA; abel.
have : mnorm W <= mnorm (1%:M : 'M[R]_k) + 2%:R^-1 * mnorm W.
  rewrite {1}E; apply: le_trans (mnormD _ _) _; rewrite ler_add2l -scaleNr mnormZ normrN.
  apply: (@le_trans _ _ (`|h| * (mnorm X * mnorm W))); first by rewrite ler_wpmul2l // mnormM.
  by rewrite mulrA ler_wpmul2r // mnorm_ge0.
rewrite -subr_ge0 => le; rewrite -subr_ge0.
have -> : mnorm (1%:M : 'M[R]_k) *+ 2 - mnorm W = 2%:R * (mnorm (1%:M : 'M[R]_k) + 2%:R^-1 * mnorm W - mnorm W).
  by rsn R; field; exact: two_neq0.
by rewrite mulr_ge0 // ler0n.
Qed.
Lemma exp2_inv k (X : 'M[R]_k) : exp2 (fun h => invmx (1%:M + h *: X)) 1%:M (- X).
Proof.
exists (fun h => X *m (X *m invmx (1%:M + h *: X))).
  apply: bnd_mul; first exact: bnd_const; apply: bnd_mul; first exact: bnd_const.
  exists (mnorm (1%:M : 'M[R]_k) *+ 2); first by rewrite mulrn_wge0 // mnorm_ge0.
  by apply: near_imp (near_unit X) _ => h [].
apply: near_imp (near_unit X) _ => h [u _]; set W := invmx _.
have E : W = 1%:M - h *: (X *m W).
  have : (1%:M + h *: X) *m W = 1%:M by rewrite mulmxV.
  by rewrite mulmxDl mul1mx -scalemxAl => <-; lmod; rsn R; ring.
rewrite {1}E {1}E mulmxBr mulmx1 -!scalemxAr; lmod; rsn R; ring.
Qed.
Lemma exp2_bound k l (F : R -> 'M[R]_(k, l)) F0 F1 : exp2 F F0 F1 ->
  exists2 B, 0 <= B & near (fun h => within (B * h ^+ 2) (F h) (F0 + h *: F1)).
Proof.
move=> [G [B B0 bG] EF]; exists B => //; apply: near_imp (near_and EF bG) _ => h [-> le] i j.
have -> : (F0 + h *: F1 + (h * h) *: G h) i j - (F0 + h *: F1) i j = (h * h) * G h i j by rewrite !mxE [LHS]addrC addrA addNr add0r.
rewrite normrM -expr2 normrX mulrC.
have -> : `|h| ^+ 2 = h ^+ 2 by rewrite real_normK // num_real.
by rewrite ler_wpmul2r ?sqr_ge0 // (le_trans (mnorm_entry _ _ _) le).
Qed.
End Exp.
