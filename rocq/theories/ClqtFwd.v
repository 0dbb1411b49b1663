(** The forward passes of the continuous-time tracker: one integration step is an affine map of the state, and both
    differential equations for (Psi, phi) compute its composition exactly. *)
From Coq Require Import Ring Field.
From mathcomp Require Import all_ssreflect all_algebra zify.
From Verif Require Import ScanModel ScanSpec ScanProofs ScanUse MxBase LqtModel LqtCore LqtElem LinComb Rk4Model Rk4Spec Rk4Proofs ClqtModel ClqtPack.
Import Order.TTheory GRing.Theory Num.Theory.
Set Implicit Arguments. Unset Strict Implicit. Unset Printing Implicit Defensive.
Local Open Scope ring_scope.

(** expand products of sums and scalar multiples *)
Ltac lexp := repeat progress rewrite ?mulmxDl ?mulmxDr ?mulmxN ?mulNmx ?mulmxA ?mulmx1 ?mul1mx ?mulmx0 ?mul0mx -?scalemxAl -?scalemxAr.

Section Step.
Variable R : realFieldType.
Variables n m p pT : nat.
Variable P : clqt R n m p pT.
Add Ring Rr : (mc_ring R).
Add Field Rf : (mc_field R).
Ltac sfield := rsn R; field; repeat split; num_neq0 R.

(** the step on pairs, written out *)
Definition rkp (g : 'M[R]_n * 'cV[R]_n -> R -> 'M[R]_n * 'cV[R]_n) (h : R) (e : 'M[R]_n * 'cV[R]_n) (t : R) : 'M[R]_n * 'cV[R]_n :=
  let k1 := g e t in
  let k2 := g (e.1 + (h / 2%:R) *: k1.1, e.2 + (h / 2%:R) *: k1.2) (t + h / 2%:R) in
  let k3 := g (e.1 + (h / 2%:R) *: k2.1, e.2 + (h / 2%:R) *: k2.2) (t + h / 2%:R) in
  let k4 := g (e.1 + h *: k3.1, e.2 + h *: k3.2) (t + h) in
  (e.1 + (h / 6%:R) *: (k1.1 + 2%:R *: k2.1 + 2%:R *: k3.1 + k4.1),
   e.2 + (h / 6%:R) *: (k1.2 + 2%:R *: k2.2 + 2%:R *: k3.2 + k4.2)).

Lemma psi_stepE ode g h t Kd e :
  (forall x s, ode x s Kd = Some (pack_Psiphi (g (unpack_Psiphi x) s))) ->
  @psi_step R n m ode h t Kd e = Some (rkp g h e t).
Proof.
move=> H; rewrite /psi_step form_xtp.
have E := @C41_affine_l R (matrix_lmodType R n (n + 1)) [lmodType R of ('M[R]_n * 'cV[R]_n)%type] (@unpack_Psiphi R n) 0
  (fun x s => ode x s Kd) (fun e s => Some (g e s)) h (pack_Psiphi e) t.
rewrite !addr0 Psiphi_unpack rk4_total in E; rewrite /obind /oapp.
have lin : linear_map (V := matrix_lmodType R n (n + 1)) (W := [lmodType R of ('M[R]_n * 'cV[R]_n)%type]) (@unpack_Psiphi R n).
  by move=> a x y; rewrite Psiphi_unpack_lin.
have cov z s : Some (g (unpack_Psiphi z + 0) s) = omap (@unpack_Psiphi R n) (ode z s Kd) by rewrite addr0 H /= Psiphi_unpack.
have := E lin cov; case: (rk4_xt _ _ _ _) => [y|]; last by [].
move=> {}E; have D : Some (unpack_Psiphi y + 0) = Some (unpack_Psiphi y) by rewrite addr0.
by apply: (eq_trans (esym D)); exact: (esym E).
Qed.

(** closed loop: one step of the state *)
Definition cstep (h t : R) (K : 'M[R]_(m, n)) (d : 'cV[R]_m) (x : 'cV[R]_n) : 'cV[R]_n :=
  let k1 := tF P t K *m x + tc P t d in
  let k2 := tF P (t + h / 2%:R) K *m (x + (h / 2%:R) *: k1) + tc P (t + h / 2%:R) d in
  let k3 := tF P (t + h / 2%:R) K *m (x + (h / 2%:R) *: k2) + tc P (t + h / 2%:R) d in
  let k4 := tF P (t + h) K *m (x + h *: k3) + tc P (t + h) d in
  x + (h / 6%:R) *: (k1 + 2%:R *: k2 + 2%:R *: k3 + k4).
Lemma cl_odeE K d u x t : cl_ode P false K d u x t = Some (tF P t K *m x + tc P t d).
Proof. by rewrite /cl_ode /tF /tc; congr Some; mxabel. Qed.
Lemma cstepE h t K d u x : rk4_xt (V := matrix_lmodType R n 1) (cl_ode P false K d u) h x t = Some (cstep h t K d x).
Proof.
apply/rk4_classical; do 4 eexists; split; [exact: cl_odeE|exact: cl_odeE|exact: cl_odeE|exact: cl_odeE|by []].
Qed.

Lemma fw_stepE h t K d e : exists e', psi_step (fwpass_fw_ode_f P) h t (K, d) e = Some e' /\
  forall z, e'.1 *m z + e'.2 = cstep h t K d (e.1 *m z + e.2).
Proof.
rewrite (@psi_stepE _ (fun e t => (tF P t K *m e.1, tF P t K *m e.2 + tc P t d))) //.
eexists; split; first by []; move=> z; case: e => Psi phi; rewrite /rkp /cstep /=.
move: (tF P t K) (tF P (t + h / 2%:R) K) (tF P (t + h) K) (tc P t d) (tc P (t + h / 2%:R) d) (tc P (t + h) d) => F1 F2 F4 c1 c2 c4.
lexp; lmod; sfield.
Qed.
Lemma bw_stepE h t K d e : exists e', psi_step (fwpass_bw_ode_f P) (- h) (t + h) (K, d) e = Some e' /\
  forall z, e'.1 *m z + e'.2 = e.1 *m cstep h t K d z + e.2.
Proof.
rewrite (@psi_stepE _ (fun e t => (- e.1 *m tF P t K, - e.1 *m tc P t d))) //.
eexists; split; first by []; move=> z; case: e => Psi phi; rewrite /rkp /cstep /=.
have -> : t + h + - h / 2%:R = t + h / 2%:R by sfield.
have -> : t + h + - h = t by sfield.
move: (tF P t K) (tF P (t + h / 2%:R) K) (tF P (t + h) K) (tc P t d) (tc P (t + h / 2%:R) d) (tc P (t + h) d) => F1 F2 F4 c1 c2 c4.
lexp; lmod; sfield.
Qed.
End Step.
