(** The hypotheses of C100 for a concrete problem. *)
From Coq Require Import Reals.
From mathcomp Require Import all_ssreflect all_algebra.
From Verif Require Import RealF MxBase LqtModel LqtCore LqtMore ClqtModel ClqtEx TrackSpec TrackEx.
Import Order.TTheory GRing.Theory Num.Theory.
Set Implicit Arguments. Unset Strict Implicit. Unset Printing Implicit Defensive.
Local Open Scope ring_scope.

Lemma ex_drift_real : let P := ex_drift Rf in
  [/\ constant P /\ weights_ok P, psd (kX P 0), psd (kXT P), 0 <= kT P & kc P 0 != 0 /\ kr P 0 != 0].
Proof.
have P1 : psd (1%:M : 'M[Rf]_1) by exact: pd_psd (@pd1 _ _).
have nz : (1%:M : 'M[Rf]_1) != 0 by apply/eqP => /matrixP /(_ 0 0); rewrite !mxE eqxx => /eqP; rewrite oner_eq0.
by split=> //; [exact: ex_drift_hyp | exact: ler01].
Qed.
