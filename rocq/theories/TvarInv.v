(** The inverse of a differentiable matrix function is differentiable. *)
From Coq Require Import Reals Lra.
From mathcomp Require Import all_ssreflect all_fingroup all_algebra.
From Verif Require Import RealF MxBase RealExpSpec RealExp ClqrOpt RealDisc.
Import Order.TTheory GRing.Theory Num.Theory.
Set Implicit Arguments. Unset Strict Implicit. Unset Printing Implicit Defensive.
Local Open Scope ring_scope.

Definition dex (f : R -> R) (t : R) : Prop := exists d, derivable_pt_lim f t d.
Lemma dex_ext f g t : (forall s, f s = g s) -> dex f t -> dex g t.
Proof. by move=> e [d H]; exists d; exact: dlim_ext H. Qed.
Lemma dex_const (a : R) t : dex (fun _ => a) t.
Proof. by exists R0; exact: derivable_pt_lim_const. Qed.
Lemma dex_add f g t : dex f t -> dex g t -> dex (fun s => (f s : Rf) + g s) t.
Proof. by move=> [a A] [b B]; exists (a + b); exact: (derivable_pt_lim_plus f g t a b A B). Qed.
Lemma dex_mul f g t : dex f t -> dex g t -> dex (fun s => (f s : Rf) * g s) t.
Proof. by move=> [a A] [b B]; eexists; exact: (derivable_pt_lim_mult f g t a b A B). Qed.
Section Good.
Variable good : (R -> R) -> Prop.
Hypothesis gext : forall f g, (forall s, f s = g s) -> good f -> good g.
Hypothesis gconst : forall a, good (fun _ => a).
Hypothesis gadd : forall f g, good f -> good g -> good (fun s => (f s : Rf) + g s).
Hypothesis gmul : forall f g, good f -> good g -> good (fun s => (f s : Rf) * g s).
Lemma good_sum (I : Type) (r : seq I) (f : I -> R -> R) : (forall i, good (f i)) -> good (fun s => \sum_(i <- r) (f i s : Rf)).
Proof.
move=> H; elim: r => [|i r IH]; first by apply: (gext (f := fun _ => 0)) (gconst _) => s; rewrite big_nil.
by apply: (gext (f := fun s => (f i s : Rf) + \sum_(j <- r) (f j s : Rf))); [move=> s; rewrite big_cons | exact: gadd].
Qed.
Lemma good_prod (I : Type) (r : seq I) (f : I -> R -> R) : (forall i, good (f i)) -> good (fun s => \prod_(i <- r) (f i s : Rf)).
Proof.
move=> H; elim: r => [|i r IH]; first by apply: (gext (f := fun _ => 1)) (gconst _) => s; rewrite big_nil.
by apply: (gext (f := fun s => (f i s : Rf) * \prod_(j <- r) (f j s : Rf))); [move=> s; rewrite big_cons | exact: gmul].
Qed.
Lemma good_det k (M : R -> 'M[Rf]_k) : (forall i j, good (fun s => M s i j)) -> good (fun s => \det (M s)).
Proof.
move=> H; apply: (gext (f := fun s => \sum_(q : {perm 'I_k}) (-1) ^+ q * \prod_i (M s i (q i) : Rf))) => //.
by apply: good_sum => q; apply: gmul; [exact: gconst | apply: good_prod => i; exact: H].
Qed.
Lemma good_adj k (M : R -> 'M[Rf]_k) : (forall i j, good (fun s => M s i j)) -> forall i j, good (fun s => (\adj (M s)) i j).
Proof.
move=> H i j; apply: (gext (f := fun s => (-1) ^+ (j + i) * \det (row' j (col' i (M s))))) => [s|].
  by rewrite mxE.
apply: gmul; first exact: gconst.
by apply: good_det => a b; apply: gext (H (lift j a) (lift i b)) => s; rewrite !mxE.
Qed.
End Good.
Lemma dex_det k (M : R -> 'M[Rf]_k) t : (forall i j, dex (fun s => M s i j) t) -> dex (fun s => \det (M s)) t.
Proof.
exact: (good_det (good := dex^~ t) (fun f g => @dex_ext f g t) (fun a => dex_const a t) (fun f g => @dex_add f g t) (fun f g => @dex_mul f g t)).
Qed.
Lemma dex_adj k (M : R -> 'M[Rf]_k) t : (forall i j, dex (fun s => M s i j) t) -> forall i j, dex (fun s => (\adj (M s)) i j) t.
Proof.
exact: (good_adj (good := dex^~ t) (fun f g => @dex_ext f g t) (fun a => dex_const a t) (fun f g => @dex_add f g t) (fun f g => @dex_mul f g t)).
Qed.
Section Cont.
Variable t : R.
Lemma c_const a : continuity_pt (fun _ => a) t. Proof. by apply: continuity_pt_const. Qed.
Lemma c_add f g : continuity_pt f t -> continuity_pt g t -> continuity_pt (fun s => (f s : Rf) + g s) t.
Proof. by move=> a b; exact: (continuity_pt_plus f g). Qed.
Lemma c_mul f g : continuity_pt f t -> continuity_pt g t -> continuity_pt (fun s => (f s : Rf) * g s) t.
Proof. by move=> a b; exact: (continuity_pt_mult f g). Qed.
Definition c_det k (M : R -> 'M[Rf]_k) := @good_det (continuity_pt^~ t) (fun f g => @cont_ext f g t) c_const c_add c_mul k M.
Definition c_adj k (M : R -> 'M[Rf]_k) := @good_adj (continuity_pt^~ t) (fun f g => @cont_ext f g t) c_const c_add c_mul k M.
Lemma cont_loc f g (del : posreal) : (forall h, (Rabs h < del)%Re -> f (t + h)%Re = g (t + h)%Re) -> continuity_pt f t -> continuity_pt g t.
Proof.
move=> e H eps he; have [dl [dl0 Hd]] := H eps he.
have pos : (0 < Rmin del dl)%Re by apply: Rmin_pos => //; apply: cond_pos.
exists (Rmin del dl); split=> // s [sD sd].
have h1 : (Rabs (s - t) < del)%Re by apply: Rlt_le_trans sd (Rmin_l _ _).
have h2 : (Rabs (s - t) < dl)%Re by apply: Rlt_le_trans sd (Rmin_r _ _).
have e0 : f t = g t by have := e R0; rewrite Rabs_R0 Rplus_0_r => ->; [|exact: cond_pos].
have e1 : f s = g s by have := e (s - t)%Re h1; have -> : (t + (s - t))%Re = s by lra.
by rewrite -e0 -e1; apply: Hd.
Qed.
End Cont.
Lemma dlim_loc f g t d (del : posreal) : (forall h, (Rabs h < del)%Re -> f (t + h)%Re = g (t + h)%Re) -> derivable_pt_lim f t d -> derivable_pt_lim g t d.
Proof.
move=> e H eps he; have [dl Hd] := H eps he.
have pos : (0 < Rmin del dl)%Re by apply: Rmin_pos; apply: cond_pos.
exists (mkposreal _ pos) => h h0 /= hh.
have h1 : (Rabs h < del)%Re by apply: Rlt_le_trans hh (Rmin_l _ _).
have h2 : (Rabs h < dl)%Re by apply: Rlt_le_trans hh (Rmin_r _ _).
rewrite -e //; have e0 : f t = g t.
  by have := e R0; rewrite Rabs_R0 Rplus_0_r => ->; [|exact: cond_pos].
by rewrite -e0; exact: Hd.
Qed.
Lemma dex_invmx k (M : R -> 'M[Rf]_k) t : M t \in unitmx -> (forall i j, dex (fun s => M s i j) t) ->
  exists del : posreal, (forall h, (Rabs h < del)%Re -> M (t + h)%Re \in unitmx) /\ forall i j, dex (fun s => (invmx (M s)) i j) t.
Proof.
move=> u H; have [d D] := dex_det H.
have nz : \det (M t) <> R0 by apply/eqP; rewrite -unitfE.
have [del Hn] := continuous_neq_0 (fun s => \det (M s)) t (dlim_cont D) nz.
have un h : (Rabs h < del)%Re -> M (t + h)%Re \in unitmx by move=> hh; rewrite unitmxE unitfE; apply/eqP; exact: Hn.
exists del; split=> // i j.
have [a A] := dex_adj H i j.
have D' := derivable_pt_lim_div _ _ t _ _ A D nz.
exists ((a * \det (M t) - d * \adj (M t) i j) / Rsqr (\det (M t)))%Re.
apply: (dlim_loc (del := del)) D' => h hh.
have nz' : \det (M (t + h)%Re) != 0 by apply/eqP; exact: Hn.
by rewrite /div_fct /Rdiv RinvE // RmultE /invmx unitmxE unitfE nz' !mxE mulrC.
Qed.
Lemma mderiv_invmx k (M : R -> 'M[Rf]_k) (t : Rf) D : M t \in unitmx -> mderiv M t D ->
  mderiv (fun s => invmx (M s)) t (- (invmx (M t) *m D *m invmx (M t))).
Proof.
move=> u H; have [del [un dx]] := dex_invmx u (fun i j => ex_intro _ _ (H i j)).
have [G HG] : exists G, mderiv (fun s => invmx (M s)) t G.
  have [g Hg] := fin_all_exists (fun ij : 'I_k * 'I_k => dx ij.1 ij.2).
  by exists (\matrix_(i, j) g (i, j)) => i j; rewrite mxE; exact: (Hg (i, j)).
have e0 : D *m invmx (M t) + M t *m G = 0.
  apply/matrixP => i j; have h1 := mderiv_mul H HG i j.
  have h2 := dlim_loc (g := fun _ => (1%:M : 'M[Rf]_k) i j) (del := del) _ h1.
  have {}h2 := h2 (fun h hh => congr1 (fun A : 'M[Rf]_k => A i j) (mulmxV (un h hh))).
  by rewrite (uniqueness_limite _ _ _ _ h2 (derivable_pt_lim_const _ _)) mxE.
have -> : - (invmx (M t) *m D *m invmx (M t)) = G.
  have := congr1 (mulmx (invmx (M t))) e0; rewrite mulmx0 mulmxDr mulKmx // mulmxA => /eqP.
  by rewrite addr_eq0 => /eqP ->; rewrite opprK.
by [].
Qed.
Lemma mcont_invmx k (M : R -> 'M[Rf]_k) (t : Rf) : M t \in unitmx -> mcont M t -> mcont (fun s => invmx (M s)) t.
Proof.
move=> u H i j; have D := c_det H.
have nz : \det (M t) <> R0 by apply/eqP; rewrite -unitfE.
have [del Hn] := continuous_neq_0 (fun s => \det (M s)) t D nz.
have := continuity_pt_div _ _ t (c_adj H i j) D nz; apply: (cont_loc (del := del)) => h hh.
have nz' : \det (M (t + h)%Re) != 0 by apply/eqP; exact: Hn.
by rewrite /div_fct /Rdiv RinvE // RmultE /invmx unitmxE unitfE nz' !mxE mulrC.
Qed.
