(** The discretisation of linear systems over the real numbers. *)
From Coq Require Import Reals.
From mathcomp Require Import all_ssreflect all_algebra.
From Verif Require Import RealF MxBase LqtModel LqtSpec LinModModel LinModSpec LinModMass ClqrModel ClqrSpec ClqrExact RealExpSpec RealExp RealAssm ClqrOptSpec ClqrOpt.
Import Order.TTheory GRing.Theory Num.Theory.
Set Implicit Arguments. Unset Strict Implicit. Unset Printing Implicit Defensive.
Local Open Scope ring_scope.

Section Disc.
Lemma mderiv_col k l p (f : R -> 'M[Rf]_(k, p)) (g : R -> 'M[Rf]_(l, p)) (t : Rf) a b : mderiv f t a -> mderiv g t b ->
  mderiv (fun t => col_mx (f t) (g t)) t (col_mx a b).
Proof.
move=> hf hg i j; rewrite mxE; case E : (split i) => [i'|i'].
  by apply: (dlim_ext (f := fun s => f s i' j)) => [s|]; [rewrite mxE E | exact: hf].
by apply: (dlim_ext (f := fun s => g s i' j)) => [s|]; [rewrite mxE E | exact: hg].
Qed.
Lemma mcont_col k l p (f : R -> 'M[Rf]_(k, p)) (g : R -> 'M[Rf]_(l, p)) (t : Rf) : mcont f t -> mcont g t -> mcont (fun t => col_mx (f t) (g t)) t.
Proof.
move=> hf hg i j; case E : (split i) => [i'|i'].
  by apply: (cont_ext (f := fun s => f s i' j)) => [s|]; [rewrite mxE E | exact: hf].
by apply: (cont_ext (f := fun s => g s i' j)) => [s|]; [rewrite mxE E | exact: hg].
Qed.
Lemma mcont_const k l (A : 'M[Rf]_(k, l)) (t : Rf) : mcont (fun _ => A) t.
Proof. by move=> i j; exact: continuity_pt_const. Qed.

Variables (n q m : nat) (F : 'M[Rf]_n) (L : 'M[Rf]_(n, q)) (G : 'M[Rf]_(n, m)) (Qc : option 'M[Rf]_q) (dt : Rf).
Hypothesis dt0 : 0 <= dt.
Local Notation W := (L *m (if Qc is Some Q then Q else 1%:M) *m L^T).
Lemma discA : (lti_disc expmR F L Qc dt).1 = expmR (dt *: F).
Proof. by rewrite /lti_disc /= (expm_ul expmR_natural). Qed.
Lemma discB (x : 'cV[Rf]_n) (u : 'cV[Rf]_m) : let E := expmR (dt *: block_mx F G 0 0) in
  usubmx (E *m col_mx x u) = expmR (dt *: F) *m x + ursubmx E *m u.
Proof. by move=> E; rewrite -mul_usub_mx -[usubmx E]hsubmxK mul_row_col -/(ulsubmx E) /E (expm_ul expmR_natural). Qed.
Lemma disc_exists_u (x0 : 'cV[Rf]_n) (u : 'cV[Rf]_m) (t : Rf) : exists x, solves (fun x => F *m x + G *m u) x t (t + dt) /\ x t = x0.
Proof.
pose z (s : Rf) := expmR ((- t + 1 * s) *: block_mx F G 0 0) *m col_mx x0 u.
have dz s : mderiv z s (block_mx F G 0 0 *m z s).
  by have := mderiv_mulr (col_mx x0 u) (mderiv_aff (expm_deriv (block_mx F G 0 0) (- t + 1 * s))); rewrite scale1r -mulmxA.
have zt : z t = col_mx x0 u by rewrite /z mul1r addNr scale0r expm0 mul1mx.
have zl s : dsubmx (z s) = u.
  rewrite -[RHS](col_mxKd x0) -zt; apply: (mderiv0_const (f := fun s => dsubmx (z s))) => r.
  by have := mderiv_dsub (dz r); rewrite -[z r in X in mderiv _ _ X]vsubmxK mul_block_col col_mxKd !mul0mx addr0.
exists (fun s => usubmx (z s)); split; last by rewrite zt col_mxKu.
have du (s : Rf) : mderiv (fun s => usubmx (z s)) s (F *m usubmx (z s) + G *m u).
  have := mderiv_usub (dz s); congr (mderiv _ _ _).
  by rewrite -[z s in LHS]vsubmxK zl mul_block_col col_mxKu.
by split=> s _; [exact: mderiv_cont (du s) | exact: du].
Qed.
Lemma disc_u_exact (x : R -> 'cV[Rf]_n) (u : 'cV[Rf]_m) (t : Rf) : solves (fun x => F *m x + G *m u) x t (t + dt) ->
  let: (A, B, _) := lti_disc_u expmR F L G Qc dt in x (t + dt) = A *m x t + B *m u.
Proof.
move=> [hc hd]; rewrite /lti_disc_u; have := discA; case: (lti_disc _ _ _ _ _) => A Q /= ->.
have := @ode_unique _ _ (block_mx F G 0 0) (fun s => col_mx (x s) u) t (t + dt).
rewrite addrAC subrr add0r ler_addl => /(_ dt0) H.
have {H} /(congr1 usubmx) : col_mx (x (t + dt)) u = expmR (dt *: block_mx F G 0 0) *m col_mx (x t) u.
  apply: H => s hs; first by apply: mcont_col; [exact: hc | exact: mcont_const].
  by rewrite mul_block_col !mul0mx addr0; apply: mderiv_col; [exact: hd | exact: mderiv_const].
by rewrite col_mxKu discB.
Qed.
Local Notation lyap := (fun P : 'M[Rf]_n => F *m P + P *m F^T + W).
Lemma disc_noise_exact (P : R -> 'M[Rf]_n) (t : Rf) : solves lyap P t (t + dt) ->
  let: (A, Q) := lti_disc expmR F L Qc dt in P (t + dt) = A *m P t *m A^T + Q.
Proof.
move=> [hc hd]; rewrite /lti_disc; set E := expmR _.
have ulE : ulsubmx E = expmR (dt *: F) by rewrite /E (expm_ul expmR_natural).
pose Psi (s : Rf) := expmR ((t + - 1 * s) *: F^T).
have dPsi s : mderiv Psi s (- F^T *m Psi s).
  by have := mderiv_aff (expm_deriv F^T (t + - 1 * s)); rewrite scaleN1r -mulNmx.
have := @ode_unique _ _ (block_mx F W 0 (- F^T)) (fun s => col_mx (P s *m Psi s) (Psi s)) t (t + dt).
rewrite addrAC subrr add0r ler_addl => /(_ dt0) H.
have {H} /(congr1 usubmx) : col_mx (P (t + dt) *m Psi (t + dt)) (Psi (t + dt)) = E *m col_mx (P t *m Psi t) (Psi t).
  apply: H => s hs.
    by apply: mcont_col; [apply: mcont_mul; [exact: hc | exact: mderiv_cont (dPsi s)] | exact: mderiv_cont (dPsi s)].
  rewrite mul_block_col mul0mx add0r.
  apply: mderiv_col; last exact: dPsi.
  have := mderiv_mul (hd _ hs) (dPsi s); congr (mderiv _ _ _).
  by rewrite !mulmxDl mulNmx mulmxN !mulmxA addrAC addrK.
rewrite col_mxKu -mul_usub_mx -[usubmx E]hsubmxK mul_row_col -/(ulsubmx E) -/(ursubmx E) ulE.
have -> : Psi t = 1%:M by rewrite /Psi mulN1r subrr scale0r expm0.
rewrite !mulmx1 => H; rewrite -mulmxDl -H.
rewrite -mulmxA -expm_tr linearZ /=.
have -> : Psi (t + dt) = expmR (- dt *: F^T) by rewrite /Psi mulN1r opprD addrA subrr sub0r.
by rewrite -expm_add addNr scale0r expm0 mulmx1.
Qed.
Lemma disc_noise_exists (P0 : 'M[Rf]_n) (t : Rf) : exists P, solves lyap P t (t + dt) /\ P t = P0.
Proof.
pose Phi := block_mx F W 0 (- F^T).
pose Z (s : Rf) := expmR ((- t + 1 * s) *: Phi) *m col_mx P0 1%:M.
pose A' (s : Rf) := expmR ((- t + 1 * s) *: F^T).
have dZ s : mderiv Z s (Phi *m Z s).
  by have := mderiv_mulr (col_mx P0 1%:M) (mderiv_aff (expm_deriv Phi (- t + 1 * s))); rewrite scale1r -mulmxA.
have dA s : mderiv A' s (A' s *m F^T).
  by have := mderiv_aff (expm_deriv F^T (- t + 1 * s)); rewrite scale1r expm_comm.
have Dv s : dsubmx (Z s) *m A' s = 1%:M.
  have -> : dsubmx (Z s) = expmR (- (- t + 1 * s) *: F^T).
    have -> : dsubmx (Z s) = row_mx 0 1%:M *m Z s by rewrite -[Z s in RHS]vsubmxK mul_row_col mul0mx add0r mul1mx.
    rewrite /Z mulmxA -(@expm_natural _ _ (- (- t + 1 * s) *: F^T)).
      by rewrite -mulmxA mul_row_col mul0mx add0r !mulmx1.
    rewrite /Phi scale_block_mx mul_row_block !mul0mx !mul1mx !add0r mul_mx_row mulmx0 mulmx1 scaler0 scalerN scaleNr //.
  by rewrite -expm_add addNr scale0r expm0.
exists (fun s => usubmx (Z s) *m A' s); split; last first.
  by rewrite /Z /A' mul1r addNr !scale0r !expm0 mul1mx col_mxKu mulmx1.
have dP (s : Rf) : mderiv (fun s => usubmx (Z s) *m A' s) s (lyap (usubmx (Z s) *m A' s)).
  have := mderiv_mul (mderiv_usub (dZ s)) (dA s); congr (mderiv _ _ _).
  by rewrite /Phi -{1}[Z s]vsubmxK mul_block_col col_mxKu mulmxDl -[_ *m dsubmx _ *m _]mulmxA Dv mulmx1 !mulmxA addrAC.
by split=> s _; [exact: mderiv_cont (dP s) | exact: dP].
Qed.
End Disc.

(** ** the chain of masses *)
Lemma R_archi : Num.archimedean_axiom Rf.
Proof.
move=> x; exists (Z.to_nat (up (Rabs x))); rewrite -INRE; apply/RltP.
have [h _] := archimed (Rabs x); rewrite INR_IZR_INZ Z2Nat.id //.
by apply: le_IZR; apply: Rle_trans (Rabs_pos x) (Rlt_le _ _ h).
Qed.
Canonical R_archiFieldType := ArchiFieldType R R_archi.
Notation Ra := R_archiFieldType.
Lemma all_stages_sub n m (P Q : vstage Rf n m -> Prop) l : (forall s, P s -> Q s) -> all_stages P l -> all_stages Q l.
Proof. by move=> H; elim: l => //= s l IH [/H h /IH]. Qed.
Lemma mass_sampled N (dt Tf : Ra) : (0 < N)%N -> 0 < dt -> 0 <= Tf -> exists M P,
  [/\ mass_init Ra N = Some M, mass_getLQT (R := Ra) expmR N dt Tf = Some (P, mmx0 M) &
   all_stages (fun s => forall (x : R -> 'cV[Rf]_(2 * N)) u (t : Rf), solves (fun y => mmF M *m y + mmL M *m u) x t (t + dt) ->
     x (t + dt) = next s (x t) u) (stages P)].
Proof.
move=> N0 d0 T0; have [M [P [T [e [eP [_ [_ [_ [H _]]]]]]]]] := @mass_lqt Ra expmR N dt Tf N0 d0 T0.
exists M, P; split=> //; apply: all_stages_sub H => s Hs x u t /(disc_u_exact (mmL M) (Some 1%:M) (ltW d0)).
by rewrite Hs; case: (lti_disc_u _ _ _ _ _ _) => [[A B] Q] /=.
Qed.
