(** The passes with combinations (C52), sequential and parallel. *)
From Coq Require Import List Arith Lia.
From Verif Require Import ScanModel ScanSpec ScanProofs ScanUse.
Import ListNotations.

(** with at most four elements the scan evaluates from the end, one element at a time, whatever the operator *)
Section Small.
Context {A : Type} (P : A -> Prop) (op : A -> A -> option A).
Hypothesis C : closed_on P op.
Lemma scan_small (l : list A) : l <> [] -> length l <= 4 -> Forall P l -> my_assoc_scan op l true = scanr_o op l.
Proof.
  intros H0 H4 F.
  destruct l as [|a [|b [|c [|d [|e l]]]]]; cbn in H4; try congruence; try lia; repeat rewrite Forall_cons_iff in F.
  - reflexivity.
  - destruct F as (Pa & Pb & _). destruct (C a b Pa Pb) as (ab & E1 & Pab).
    repeat progress (cbn; rewrite ?E1). reflexivity.
  - destruct F as (Pa & Pb & Pc & _). destruct (C b c Pb Pc) as (bc & E1 & Pbc). destruct (C a bc Pa Pbc) as (abc & E2 & Pabc).
    repeat progress (cbn; rewrite ?E1, ?E2). reflexivity.
  - destruct F as (Pa & Pb & Pc & Pd & _). destruct (C c d Pc Pd) as (cd & E1 & Pcd). destruct (C b cd Pb Pcd) as (bcd & E2 & Pbcd).
    destruct (C a bcd Pa Pbcd) as (abcd & E3 & _). destruct (C a b Pa Pb) as (ab & E4 & Pab). destruct (C ab cd Pab Pcd) as (r & E5 & _).
    repeat progress (cbn; rewrite ?E1, ?E2, ?E3, ?E4, ?E5). reflexivity.
Qed.
End Small.
