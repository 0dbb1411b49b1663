(** Concrete cases for the theorems about the Runge-Kutta step. *)
From Coq Require Import Ring Field.
From mathcomp Require Import all_ssreflect all_algebra.
From Verif Require Import MxBase LqtModel LqtCore LinComb Rk4Model Rk4Spec Rk4Proofs.
Import Order.TTheory GRing.Theory Num.Theory.
Set Implicit Arguments. Unset Strict Implicit. Unset Printing Implicit Defensive.
Local Open Scope ring_scope.

Section Ex.
Variable R : realFieldType.
Add Ring Rr : (mc_ring R).
Add Field Rf : (mc_field R).
Ltac sfield := rsn R; field; repeat split; num_neq0 R.
Local Notation V := [lmodType R of R^o].

(** dx/dt = -x from 1 with step 1 *)
Lemma ex_decay : rk4_x (fun z : V => Some (- z)) 1 1 = Some (3%:R / (4%:R * 2%:R) : R).
Proof. by rewrite (form_x _ _ _ 0) rk4_total /=; congr Some; rewrite /GRing.scale /=; sfield. Qed.
Lemma ex_classical : classical_step (fun (z : V) _ => Some (- z)) 1 1 0 (3%:R / (4%:R * 2%:R) : R).
Proof. exact/rk4_classical/ex_decay. Qed.
(** dx/dt = t^3 from 0 to 1 *)
Lemma ex_cubic : rk4_xt (fun _ s => Some (vpoly [:: 0; 0; 0; 1 : V] s)) 1 0 0 = Some (1 / 4%:R : R).
Proof.
rewrite (@C41_cubic_l R V) // /vpoly_int !big_ord_recl big_ord0 /= /bump /= !add1n !scaler0 !add0r addr0.
by congr Some; rewrite expr0n expr1n subr0 /GRing.scale /= mulr1.
Qed.
Lemma ex_linear : linear_map (fun z : V => - z) /\ exp_upto 4 (fun z : V => - z) 1 1 = 3%:R / (4%:R * 2%:R) :> R.
Proof.
have l : linear_map (fun z : V => - z) by move=> a x y; rewrite opprD scalerN.
split=> //; have := @C41_linear_l R V _ 1 1 0 l; rewrite -form_x ex_decay => -[<-] //.
Qed.
Lemma ex_affine :
  rk4_xt (fun (w : V) _ => Some (- (w - 1))) 1 ((2%:R : R) + 1) 0 = Some (2%:R * (3%:R / (4%:R * 2%:R)) + 1 : R).
Proof.
have l : linear_map (fun z : V => 2%:R *: z) by move=> a x y; rewrite scalerDr !scalerA mulrC.
have := @C41_affine_l R V V _ 1 (fun z _ => Some (- z)) (fun w _ => Some (- (w - 1))) 1 1 0 l.
have D := ex_decay; rewrite (form_x _ _ _ 0) in D; rewrite D => H.
rewrite -[X in rk4_xt _ _ (X + _)]mulr1; apply: H => z s /=.
by rewrite addrK scalerN.
Qed.
End Ex.
