(** Concrete instances for C60, C61 and C74. *)
From mathcomp Require Import all_ssreflect all_algebra zify.
From Verif Require Import MxBase LqtModel LqtSpec LinModModel LinModSpec LinModProofs LinModTrack LinModMain LinModMass.
Import Order.TTheory GRing.Theory Num.Theory.
Set Implicit Arguments. Unset Strict Implicit. Unset Printing Implicit Defensive.
Local Open Scope ring_scope.
Local Notation Qf := [realFieldType of rat].
Local Notation Qa := [archiFieldType of rat].

Lemma ex_expm : exists expm, expm_series (R := Qf) expm.
Proof. by exists (@trunc_exp Qf); exact: trunc_exp_series. Qed.
(** two reference points, three steps each *)
Definition ex_pts : seq 'cV[Qf]_2 := [:: const_mx 1; const_mx 2%:R].
Lemma ex_lm : exists P, lm_getLQT (@trunc_exp Qf) ex_pts 3 = Some (P, state (const_mx 1) 0) /\ size (stages P) = 6%N /\ problem_ok P.
Proof.
have ne : ex_pts <> [::] by [].
have [P [E [ok [sz _]]]] := @lm_l Qf (@trunc_exp Qf) ex_pts 3 (@trunc_exp_series Qf) isT ne.
by exists P.
Qed.
Definition ex_poses : seq 'cV[Qf]_3 := [:: const_mx 1; const_mx 2%:R].
Lemma ex_nm : exists P, nm_getLQT ex_poses 3 = Some (P, at_rest3 (const_mx 1)) /\ size (stages P) = 6%N /\ problem_ok P.
Proof.
have ne : ex_poses <> [::] by [].
have [P [E [ok [sz _]]]] := @nm_l Qf ex_poses 3 isT ne.
by exists P.
Qed.
(** three masses, step 1/2, final time 1 *)
Lemma ex_mass : exists M P, mass_init Qa 3 = Some M /\ mass_getLQT (@trunc_exp Qa) 3 (1 / 2%:R) 1 = Some (P, mmx0 M) /\
  size (stages P) = 2%N /\ [seq disp (mmx0 M) i | i <- [:: 0; 1; 2]%N] = [:: 1; 1; 0].
Proof.
have h0 : (0 : Qa) < 1 / 2%:R by [].
have h1 : (0 : Qa) <= 1 by [].
have [M [P [T [EM [EP [h [sz _]]]]]]] := @mass_lqt Qa (@trunc_exp Qa) 3 (1 / 2%:R) 1 isT h0 h1.
exists M, P; split=> //; split=> //; split.
  rewrite sz; case/andP: h; rewrite div1r ler_pdivr_mulr // mul1r => h2; rewrite ltr_pdivl_mulr // mul1r => h3.
  have a : (T <= 2)%N by rewrite -(ler_nat Qa).
  have b : (2 < T.+1)%N by rewrite -(ltr_nat Qa).
  by lia.
have [M' [EM' [_ hd]]] := mass_chain Qa (isT : 0 < 3)%N.
move: EM'; rewrite EM => -[E]; rewrite -E in hd.
by rewrite /= (hd 0%N isT).1 (hd 1%N isT).1 (hd 2%N isT).1.
Qed.
(** the double integrator *)
Lemma ex_disc : lm_F Qf *m lm_F Qf = 0 /\ lm_F Qf <> 0.
Proof.
split; first exact: lm_F2.
move/matrixP/(_ 0 (lift ord0 (lift ord0 ord0))); rewrite !mxE /=.
by apply/eqP; rewrite oner_eq0.
Qed.
