(** Concrete cases for the tracker with constant data. *)
From Coq Require Import Ring Field.
From mathcomp Require Import all_ssreflect all_algebra.
From Verif Require Import MxBase LqtModel LqtMore Rk4Model ClqtModel ClqtEx ClqrModel ClqrEx TrackSpec.
Import Order.TTheory GRing.Theory Num.Theory.
Set Implicit Arguments. Unset Strict Implicit. Unset Printing Implicit Defensive.
Local Open Scope ring_scope.

(** dx/dt = 1 + u, running cost 1/2 ((x - 1)^2 + u^2), terminal cost 1/2 (x - 1)^2, on [0, 1] *)
Definition ex_drift (R : realFieldType) : clqt R 1 1 1 1 :=
  Clqt (fun _ => 0) (fun _ => 1%:M) (fun _ => 1%:M) (fun _ => 1%:M) 1%:M (fun _ => 1%:M) (fun _ => 1%:M) (fun _ => 1%:M) 1%:M 1%:M 1.
Lemma ex_drift_hyp (R : realFieldType) : constant (ex_drift R) /\ weights_ok (ex_drift R).
Proof. by split; [split|split; rewrite /symm /= ?trmx1 //; exact: pd1]. Qed.
