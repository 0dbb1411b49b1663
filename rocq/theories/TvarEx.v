(** Concrete cases for the tracker with data that vary in time. *)
From Coq Require Import Reals Lra Ring Field.
From mathcomp Require Import all_ssreflect all_algebra.
From Verif Require Import RealF MxBase LqtModel LqtCore LinComb ClqtModel Rk4Model Rk4Proofs ClqtEx RealExpSpec RealExp ClqrOpt TrackOptSpec TvarSpec TvarInv Tvar RealDisc.
Import Order.TTheory GRing.Theory Num.Theory.
Set Implicit Arguments. Unset Strict Implicit. Unset Printing Implicit Defensive.
Local Open Scope ring_scope.

Add Field Rff : (mc_field Rf).
Ltac sfield := rsn Rf; field; repeat split; num_neq0 Rf.
Local Notation "'two'" := (2%:R : Rf).
Lemma dl_id (t : Rf) : derivable_pt_lim (fun s => s) t (1 : Rf). Proof. exact: derivable_pt_lim_id. Qed.
Lemma dl_c (a t : Rf) : derivable_pt_lim (fun _ => a) t (0 : Rf). Proof. exact: derivable_pt_lim_const. Qed.
Lemma dl_add f g (t a b : Rf) : derivable_pt_lim f t a -> derivable_pt_lim g t b -> derivable_pt_lim (fun s => (f s : Rf) + g s) t (a + b).
Proof. exact: (derivable_pt_lim_plus f g). Qed.
Lemma dl_opp f (t a : Rf) : derivable_pt_lim f t a -> derivable_pt_lim (fun s => - (f s : Rf)) t (- a).
Proof. exact: (derivable_pt_lim_opp f). Qed.
Lemma dl_mul f g (t a b : Rf) : derivable_pt_lim f t a -> derivable_pt_lim g t b -> derivable_pt_lim (fun s => (f s : Rf) * g s) t (a * (g t : Rf) + (f t : Rf) * b).
Proof. exact: (derivable_pt_lim_mult f g). Qed.
Lemma md_sc (f : R -> Rf) (t d : Rf) : derivable_pt_lim f t d -> mderiv (fun s => (f s)%:M : 'M[Rf]_1) t d%:M.
Proof.
by move=> H i j; rewrite !ord1; apply: (dlim_ext (f := f)) => [s|]; rewrite mxE eqxx mulr1n.
Qed.
Lemma mc_sc (f : R -> Rf) (t d : Rf) : derivable_pt_lim f t d -> mcont (fun s => (f s)%:M : 'M[Rf]_1) t.
Proof. by move=> H; exact: mderiv_cont (md_sc H). Qed.
Lemma qf_sc (a x : Rf) : qf (a%:M : 'M_1) (x%:M : 'cV_1) = x * a * x.
Proof. by rewrite /qf tr_scalar_mx -!scalar_mxM /sc mxE eqxx mulr1n. Qed.

(** dx/dt = u, running cost 1/2 ((x - (t - 1))^2 + u^2), terminal cost 1/2 (x - 1)^2, on [0, 1] *)
Definition ex_ramp : clqt Rf 1 1 1 1 :=
  Clqt (fun _ => 0%:M) (fun _ => 1%:M) (fun _ => 1%:M) (fun _ => 1%:M) 1%:M (fun _ => 0%:M) (fun _ => 1%:M) (fun t => (t - 1)%:M) 1%:M 1%:M 1.
Lemma ramp_w : tracking_weights ex_ramp 0.
Proof. by split=> [|t _]; rewrite /symm /= ?trmx1 //; split=> //; exact: pd1. Qed.
Lemma ramp_sol : backward_solution ex_ramp (fun _ => 1%:M) (fun t => t%:M) [::] 0.
Proof.
have e11 : (1%:M : 'M[Rf]_1)^T *m 1%:M = 1%:M by rewrite trmx1 mulmx1.
split=> [||t _|t ht _]; rewrite /= ?e11 ?mulmx1 //.
  by split; [exact: mcont_const | exact: mc_sc (dl_id t) | exact: trmx1].
exists 0, 1%:M; split; [|exact: mderiv_const|exact: md_sc (dl_id t)].
rewrite /riccati_ode_f (ULT_E ramp_w) ?ClqtFwd2.obindS; last by case/andP: ht => h1 h2; rewrite !ltW.
congr (Some (pack_Sv _)); rewrite ClqtPack.Sv_unpack /riccati_rhs /ulT /= invmx1 !tr_scalar_mx !mulNmx !sM !(sN, sD).
by rewrite s0; congr (_, _); congr (_%:M); sfield.
Qed.
(** a trajectory with the optimal feedback, and another one from the same state *)
Lemma ramp_steered : [/\ steered ex_ramp (fun t => (t - 1)%:M) (fun _ => 1%:M) (fun t => t / two) [::] 0,
  feedback ex_ramp (fun _ => 1%:M) (fun t => t%:M) (fun t => (t - 1)%:M) (fun _ => 1%:M) [::] 0,
  steered ex_ramp (fun _ => (- 1)%:M) (fun _ => 0) (fun t => t * t * t / (two * 3%:R)) [::] 0,
  tracking_cost ex_ramp (fun t => (t - 1)%:M) (fun t => t / two) 0 = 1 &
  tracking_cost ex_ramp (fun _ => (- 1)%:M) (fun t => t * t * t / (two * 3%:R)) 0 = 1 + 1 + (two * 3%:R)^-1].
Proof.
have d1 (t : Rf) : derivable_pt_lim (fun t => t - 1 : Rf) t (1 + - 0) := dl_add (dl_id t) (dl_opp (dl_c 1 t)).
have d2 (t : Rf) : derivable_pt_lim (fun t => t / two : Rf) t _ := dl_mul (dl_id t) (dl_c _ t).
have d3 (t : Rf) : derivable_pt_lim (fun t => t * t * t / (two * 3%:R) : Rf) t _ := dl_mul (dl_mul (dl_mul (dl_id t) (dl_id t)) (dl_id t)) (dl_c _ t).
split.
- split=> [t _|t _ _]; first by split; [exact: mc_sc (d1 t) | exact: dlim_cont (d2 t)].
  split; first by have := md_sc (d1 t); congr (mderiv _ _ _); rewrite /= !sM !sD; congr (_%:M); sfield.
  by have := d2 t; congr (derivable_pt_lim _ _ _); rewrite /= !sM !(sN, sD) !qf_sc; sfield.
- apply/(feedbackE ramp_w) => t ht _; rewrite /fb /ulT /= invmx1 !tr_scalar_mx !sM !sN !sM !sD; congr (_%:M); sfield.
- split=> [t _|t _ _]; first by split; [exact: mcont_const | exact: dlim_cont (d3 t)].
  split; first by have := mderiv_const ((- 1)%:M : 'M[Rf]_1) t; congr (mderiv _ _ _); rewrite /= !s0 !sM !sD; congr (_%:M); sfield.
  by have := d3 t; congr (derivable_pt_lim _ _ _); rewrite /= s0 !sM !(sN, sD) !qf_sc; sfield.
- rewrite /tracking_cost /= !sM !(sN, sD) !qf_sc; sfield.
- rewrite /tracking_cost /= !sM !(sN, sD) !qf_sc; sfield.
Qed.

(** dx/dt = 1 - 2 t + u, no running cost on the state, terminal cost 1/2 (x - 2)^2, on [0, 1] *)
Definition ex_push : clqt Rf 1 1 1 1 :=
  Clqt (fun _ => 0%:M) (fun _ => 1%:M) (fun _ => 0%:M) (fun _ => 1%:M) 1%:M (fun t => (1 - (t + t))%:M) (fun _ => 1%:M) (fun _ => 0%:M) 1%:M two%:M 1.
Definition pushS (t : R) : 'M[Rf]_1 := invmx (two - t)%:M.
Definition pushv (t : R) : 'cV[Rf]_1 := (t + 1)%:M.
Definition pushb (t : R) : 'cV[Rf]_1 := (1 + (t - t * t))%:M.
Definition pushC (t : R) : 'M[Rf]_1 := t%:M.
Lemma push_w : tracking_weights ex_push 0.
Proof. by split=> [|t _]; rewrite /symm /= ?tr_scalar_mx //; split=> //; rewrite ?tr_scalar_mx //; exact: pd1. Qed.
Lemma push_nz (t : Rf) : 0 <= t <= 1 -> two - t != 0.
Proof. by move=> /andP [_ h]; rewrite subr_eq0 gt_eqF // (le_lt_trans h) // ltr1n. Qed.
Lemma push_unit (t : Rf) : 0 <= t <= 1 -> (two - t)%:M \in @unitmx Rf 1.
Proof. by move=> /push_nz nz; rewrite unitmxE det_scalar1 unitfE. Qed.
Lemma inv_sc (a : Rf) : a != 0 -> invmx (a%:M : 'M[Rf]_1) = (a^-1)%:M.
Proof. by move=> nz; rewrite invmx_scalar. Qed.
Lemma push_sol : backward_solution ex_push pushS pushv [::] 0.
Proof.
have dv (t : Rf) : derivable_pt_lim (fun t => t + 1 : Rf) t _ := dl_add (dl_id t) (dl_c 1 t).
have d2 (t : Rf) : derivable_pt_lim (fun t => two - t : Rf) t _ := dl_add (dl_c two t) (dl_opp (dl_id t)).
split=> [||t ht|t ht _].
- by rewrite /pushS /= trmx1 !mul1mx inv_sc ?push_nz ?ler01 ?lexx // addrK invr1.
- by rewrite /pushv /= trmx1 !mul1mx.
- split; [|exact: mc_sc (dv t)|by rewrite /symm /pushS inv_sc ?push_nz // tr_scalar_mx].
  by apply: (mcont_invmx (M := fun t => (two - t)%:M)); [exact: push_unit | exact: mc_sc (d2 t)].
have ht' : 0 <= t <= 1 by case/andP: ht => h1 h2; rewrite !ltW.
have nz := push_nz ht'.
exists ((two - t)^-1 * (two - t)^-1)%:M, 1%:M; split.
- rewrite /riccati_ode_f (ULT_E push_w) // ClqtFwd2.obindS.
  congr (Some (pack_Sv _)); rewrite ClqtPack.Sv_unpack /riccati_rhs /ulT /pushS /pushv inv_sc //= invmx1 !tr_scalar_mx !mulNmx !sM !(sN, sD).
  have [w ew] : {w : Rf | w = two - t} by exists (two - t).
  rewrite -ew in nz *; have -> : t = two - w by rewrite ew; sfield.
  by congr (_, _); congr (_%:M); rsn Rf; field; apply/eqP.
- have := mderiv_invmx (M := fun t => (two - t)%:M) (push_unit ht') (md_sc (d2 t)); congr (mderiv _ _ _).
  by rewrite inv_sc // !sM sN; congr (_%:M); rewrite sub0r mulrN mulr1 mulNr opprK.
- by have := md_sc (dv t); congr (mderiv _ _ _); rewrite addr0.
Qed.
Lemma push_fsol : forward_solution ex_push pushb pushC 1%:M [::] 0.
Proof.
have d (t : Rf) : derivable_pt_lim (fun t => 1 + (t - t * t) : Rf) t _ := dl_add (dl_c 1 t) (dl_add (dl_id t) (dl_opp (dl_mul (dl_id t) (dl_id t)))).
split=> [||t ht|t ht _].
- by rewrite /pushb mulr0 subr0 addr0.
- by rewrite /pushC s0.
- by split; [exact: mc_sc (d t) | exact: mc_sc (dl_id t) | rewrite /symm tr_scalar_mx].
have ht' : 0 <= t <= 1 by case/andP: ht => h1 h2; rewrite !ltW.
exists 0, 0, (1 - (t + t))%:M, 1%:M; split; last 2 first.
- by have := md_sc (d t); congr (mderiv _ _ _); congr (_%:M); sfield.
- exact: md_sc (dl_id t).
rewrite /fwdbwdpass_ode_f (ULT_E push_w) // ClqtFwd2.obindS.
congr (Some (pack_abc _)); rewrite ClqtPack.abc_unpack /abc_rhs /ulT /pushb /pushC /= invmx1 s0 !tr_scalar_mx !sM !(sN, sD).
by congr (_, _, _); congr (_%:M); sfield.
Qed.
Lemma push_comb : [/\ (forall t : Rf, 0 <= t <= kT ex_push -> 1%:M + pushC t *m pushS t \in unitmx),
  feedback ex_push pushS pushv (xc pushS pushv pushb pushC) (fun _ => (two^-1)%:M) [::] 0 &
  accumulates ex_push (xc pushS pushv pushb pushC) (fun _ => (two^-1)%:M) (fun t => t / (two * two * two)) [::] 0].
Proof.
have e (t : Rf) : 0 <= t <= 1 -> 1%:M + pushC t *m pushS t = (two / (two - t))%:M.
  by move=> ht; rewrite /pushC /pushS inv_sc ?push_nz // sM sD; congr (_%:M); move/push_nz: ht => nz; rsn Rf; field; apply/eqP.
have u (t : Rf) : 0 <= t <= 1 -> two / (two - t) != 0 by move=> ht; rewrite mulf_neq0 ?invr_eq0 ?push_nz ?pnatr_eq0.
split=> [t ht||].
- by rewrite e // unitmxE det_scalar1 unitfE u.
- apply/(feedbackE push_w) => t ht _.
  have ht' : 0 <= t <= 1 by case/andP: ht => h1 h2; rewrite !ltW.
  rewrite /fb /xc e // /ulT /pushS /pushv /pushb /pushC /= !inv_sc ?u ?push_nz ?oner_neq0 // !tr_scalar_mx.
  rewrite !sM !sD !sM !sN !sM !sD; congr (_%:M).
  by move/push_nz: ht' => nz; rsn Rf; field; repeat split; try (by apply/eqP); num_neq0 Rf.
- have d2 (t : Rf) : derivable_pt_lim (fun t => t / (two * two * two) : Rf) t _ := dl_mul (dl_id t) (dl_c _ t).
  split=> [t _|t ht _]; first exact: dlim_cont (d2 t).
  have := d2 t; congr (derivable_pt_lim _ _ _); rewrite /= qf_sc.
  have -> y : qf (0%:M : 'M[Rf]_1) y = 0 by rewrite -s0 /qf mulmx0 mul0mx /sc mxE.
  by sfield.
Qed.
