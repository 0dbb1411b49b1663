(** Hypotheses of the theorems about fsc_tf.py. *)
From Coq Require Import List Arith.
From Verif Require Import Ord FscModel.
Section S.
Variable K : ordcost.
(** the stage costs of a problem do not exceed the constant used for "impossible" *)
Definition costs_at_most (infty : K) (P : fsc K) : Prop := Forall (Forall (Forall (fun c => cleb c infty = true))) (fL P).
(** T + 1 vectors of values with one value for each of the n states *)
Definition value_vectors (n T : nat) (Vs : list (list K)) : Prop := length Vs = S T /\ Forall (fun v => length v = n) Vs.
End S.
Arguments costs_at_most {K}. Arguments value_vectors {K}.
(** T + 1 elements are within what the associative scan accepts with the argument max_parallel = mp *)
Definition scan_fits (T mp : nat) : Prop := 2 <= mp /\ S T < 2 ^ (Nat.log2_up mp + 1).
