(** The classical Runge-Kutta method is of order four on quadratic vector fields. *)
From Coq Require Import Reals Lra Ring Field.
From mathcomp Require Import all_ssreflect all_algebra zify.
From Verif Require Import RealF MxBase Rk4Model Rk4Spec Rk4Proofs RealExpSpec RealExp ClqrOptSpec ClqrOpt RkConvA RkConvSpec RkQuadAlg.
Import Order.TTheory GRing.Theory Num.Theory.
Set Implicit Arguments. Unset Strict Implicit. Unset Printing Implicit Defensive.
Local Open Scope ring_scope.
Delimit Scope R_scope with Re.

Section Lin.
Variables k l : nat.
Local Notation V := (matrix_lmodType Rf k l).
Implicit Types (B : V -> V) (b : V -> V -> V).
Lemma linE B (HB : linear_map B) x : B x = \sum_i \sum_j x i j *: B (delta_mx i j).
Proof.
pose Bl := Linear (HB : linear B); rewrite -[B]/(Bl : V -> V) {1}(matrix_sum_delta x) linear_sum; apply: eq_bigr => i _.
by rewrite linear_sum; apply: eq_bigr => j _; rewrite linearZ.
Qed.
Lemma lin_bound B : linear_map B -> exists2 C : Rf, 0 <= C & forall x, nrm (B x) <= C * nrm x.
Proof.
move=> HB; exists (\sum_i \sum_j nrm (B (delta_mx i j))); first by apply: sumr_ge0 => i _; apply: sumr_ge0 => j _; exact: nrm_ge0.
move=> x; rewrite (linE HB); apply: le_trans (nrm_sum _ _ _) _; rewrite mulr_suml; apply: ler_sum => i _.
apply: le_trans (nrm_sum _ _ _) _; rewrite mulr_suml; apply: ler_sum => j _; rewrite nrmZ mulrC ler_wpmul2l ?nrm_ge0 //.
exact: nrm_entry.
Qed.
Lemma bil_bound b : bilinear_map b -> exists2 C : Rf, 0 <= C & forall x y, nrm (b x y) <= C * (nrm x * nrm y).
Proof.
move=> [Hr Hl].
have [C HC] : exists C : 'I_k -> 'I_l -> Rf, forall i j, 0 <= C i j /\ forall y, nrm (b (delta_mx i j) y) <= C i j * nrm y.
  apply: (@fin_all_exists _ _ (fun i c => forall j, 0 <= c j /\ forall y, nrm (b (delta_mx i j) y) <= c j * nrm y)) => i.
  apply: (@fin_all_exists _ _ (fun j (c : Rf) => 0 <= c /\ forall y, nrm (b (delta_mx i j) y) <= c * nrm y)) => j.
  by have [C C0 HC] := lin_bound (Hr (delta_mx i j)); exists C.
exists (\sum_i \sum_j C i j); first by apply: sumr_ge0 => i _; apply: sumr_ge0 => j _; case: (HC i j).
move=> x y; rewrite (linE (Hl y) x); apply: le_trans (nrm_sum _ _ _) _; rewrite mulr_suml; apply: ler_sum => i _.
apply: le_trans (nrm_sum _ _ _) _; rewrite mulr_suml; apply: ler_sum => j _; rewrite nrmZ mulrCA.
have [c0 hc] := HC i j; apply: ler_pmul; rewrite ?nrm_ge0 //; exact: nrm_entry.
Qed.
Lemma mderiv_lin B (z : R -> V) (t : Rf) D : linear_map B -> mderiv z t D -> mderiv (fun t => B (z t)) t (B D).
Proof.
move=> HB Hz i j; rewrite (linE HB) summxE.
apply: (dlim_ext (f := fun s => \sum_p \sum_q (z s p q : Rf) * B (delta_mx p q) i j)) => [s|].
  by rewrite (linE HB) summxE; apply: eq_bigr => p _; rewrite summxE; apply: eq_bigr => q _; rewrite mxE.
apply: dlim_sum => p; rewrite summxE; apply: dlim_sum => q; rewrite mxE.
have := derivable_pt_lim_mult _ _ t _ _ (Hz p q) (derivable_pt_lim_const (B (delta_mx p q) i j) t).
by rewrite /fct_cte Rmult_0_r Rplus_0_r; apply: dlim_ext.
Qed.
Lemma mcont_lin B (z : R -> V) (t : Rf) : linear_map B -> mcont z t -> mcont (fun t => B (z t)) t.
Proof.
move=> HB Hz i j.
apply: (cont_ext (f := fun s => \sum_p \sum_q (z s p q : Rf) * B (delta_mx p q) i j)) => [s|].
  by rewrite (linE HB) summxE; apply: eq_bigr => p _; rewrite summxE; apply: eq_bigr => q _; rewrite mxE.
apply: cont_sum => p; apply: cont_sum => q; apply: (continuity_pt_mult _ _ t (Hz p q)); exact: continuity_pt_const.
Qed.
Lemma mderiv_bil b (y z : R -> V) (t : Rf) D E : bilinear_map b -> mderiv y t D -> mderiv z t E ->
  mderiv (fun t => b (y t) (z t)) t (b D (z t) + b (y t) E).
Proof.
move=> [Hr Hl] Hy Hz i j; rewrite (linE (Hl (z t)) D) (linE (Hl E) (y t)) -big_split summxE.
apply: (dlim_ext (f := fun s => \sum_p \sum_q (y s p q : Rf) * b (delta_mx p q) (z s) i j)) => [s|].
  by rewrite (linE (Hl (z s)) (y s)) summxE; apply: eq_bigr => p _; rewrite summxE; apply: eq_bigr => q _; rewrite mxE.
apply: dlim_sum => p; rewrite -big_split summxE; apply: dlim_sum => q; rewrite !mxE.
exact: (derivable_pt_lim_mult _ _ t _ _ (Hy p q) (mderiv_lin (Hr (delta_mx p q)) Hz i j)).
Qed.
Lemma mcont_bil b (y z : R -> V) (t : Rf) : bilinear_map b -> mcont y t -> mcont z t -> mcont (fun t => b (y t) (z t)) t.
Proof.
move=> [Hr Hl] Hy Hz i j.
apply: (cont_ext (f := fun s => \sum_p \sum_q (y s p q : Rf) * b (delta_mx p q) (z s) i j)) => [s|].
  by rewrite (linE (Hl (z s)) (y s)) summxE; apply: eq_bigr => p _; rewrite summxE; apply: eq_bigr => q _; rewrite mxE.
apply: cont_sum => p; apply: cont_sum => q.
exact: (continuity_pt_mult _ _ t (Hy p q) (mcont_lin (Hr (delta_mx p q)) Hz i j)).
Qed.

(** ** families of maps, bounded and Lipschitz on every ball *)
Definition ll (g : Rf -> V -> V) := forall r : Rf, 0 <= r -> exists2 L : Rf, 0 <= L & forall h x y, 0 <= h <= 1 -> nrm x <= r -> nrm y <= r ->
  nrm (g h x) <= L /\ nrm (g h x - g h y) <= L * nrm (x - y).
Lemma ll_const c : ll (fun _ _ => c).
Proof. by move=> r r0; exists (nrm c); first exact: nrm_ge0; move=> h x y _ _ _; rewrite subrr nrm0 mulr_ge0 ?nrm_ge0. Qed.
Lemma ll_id : ll (fun _ x => x).
Proof.
move=> r r0; exists (r + 1); first by rewrite addr_ge0 ?ler01.
move=> h x y _ hx _; split; first by apply: le_trans hx _; rewrite ler_addl ler01.
by rewrite ler_pemull ?nrm_ge0 // ler_addr.
Qed.
Lemma ll_add g g' : ll g -> ll g' -> ll (fun h x => g h x + g' h x).
Proof.
move=> H H' r r0; have [L L0 HL] := H r r0; have [L' L0' HL'] := H' r r0; exists (L + L'); first exact: addr_ge0.
move=> h x y hh hx hy; have [a b] := HL h x y hh hx hy; have [a' b'] := HL' h x y hh hx hy; split.
  by apply: le_trans (nrmD _ _) _; exact: ler_add.
by rewrite opprD addrACA mulrDl; apply: le_trans (nrmD _ _) _; exact: ler_add.
Qed.
Lemma ll_scale (a : Rf) g : ll g -> ll (fun h x => a *: g h x).
Proof.
move=> H r r0; have [L L0 HL] := H r r0; exists (`|a| * L); first exact: mulr_ge0.
move=> h x y hh hx hy; have [p q] := HL h x y hh hx hy; rewrite -scalerBr !nrmZ -mulrA; split; exact: ler_wpmul2l.
Qed.
Lemma ll_h g : ll g -> ll (fun h x => h *: g h x).
Proof.
move=> H r r0; have [L L0 HL] := H r r0; exists L => // h x y hh hx hy; have [p q] := HL h x y hh hx hy.
have [h0 h1] := andP hh; rewrite -scalerBr !nrmZ (ger0_norm h0); split.
  by apply: le_trans p; rewrite ler_pimull ?nrm_ge0.
by apply: le_trans q; rewrite ler_pimull ?nrm_ge0.
Qed.
Lemma ll_lin B g : linear_map B -> ll g -> ll (fun h x => B (g h x)).
Proof.
move=> HB H r r0; have [C C0 HC] := lin_bound HB; have [L L0 HL] := H r r0; exists (C * L); first exact: mulr_ge0.
move=> h x y hh hx hy; have [p q] := HL h x y hh hx hy; rewrite -(linB HB) -mulrA; split; apply: le_trans (HC _) _; exact: ler_wpmul2l.
Qed.
Lemma ll_bil b g g' : bilinear_map b -> ll g -> ll g' -> ll (fun h x => b (g h x) (g' h x)).
Proof.
move=> Hb H H' r r0; have [C C0 HC] := bil_bound Hb; have [L L0 HL] := H r r0; have [L' L0' HL'] := H' r r0.
exists (2%:R * (C * (L * L'))); first by rewrite !mulr_ge0 ?ler0n.
move=> h x y hh hx hy; have [p q] := HL h x y hh hx hy; have [p' q'] := HL' h x y hh hx hy.
have [pp _] := HL h y x hh hy hx.
have c0 : 0 <= C * (L * L') by rewrite !mulr_ge0.
split.
  apply: le_trans (HC _ _) _; apply: (@le_trans _ _ (C * (L * L'))); last by rewrite ler_pemull // ler1n.
  by rewrite ler_wpmul2l // ler_pmul ?nrm_ge0.
have -> : b (g h x) (g' h x) - b (g h y) (g' h y) = b (g h x - g h y) (g' h x) + b (g h y) (g' h x - g' h y).
  by rewrite (linB (Hb.2 _)) (linB (Hb.1 _)) addrA subrK.
apply: le_trans (nrmD _ _) _; rewrite (_ : 2%:R * _ * _ = C * (L * nrm (x - y) * L') + C * (L * (L' * nrm (x - y)))); last first.
  by rewrite -mulrA mulr_natl mulr2n; congr (_ + _); rewrite -!mulrA // [nrm _ * _]mulrC.
by apply: ler_add; apply: le_trans (HC _ _) _; rewrite ler_wpmul2l // ler_pmul ?nrm_ge0.
Qed.
End Lin.
