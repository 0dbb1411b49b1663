(** C67: the scans with an arbitrary operator. *)
From Coq Require Import List Arith.
From Verif Require Import ScanModel TfScan BracketSpec ScanRel.
Import ListNotations.

(** whatever the operator (not associative, raising on some arguments): if the scan returns, position k holds the
    elements 0..k (or k..end for the reversed scan), each once and in order, combined with some placement of brackets *)
Theorem C67_scan_uses_each_element_once_in_order {A} (op : A -> A -> option A) (a r : list A) (reverse : bool) :
  my_assoc_scan op a reverse = Some r ->
  length r = length a /\
  forall k x, nth_error r k = Some x -> bracketing op (if reverse then skipn k a else firstn (S k) a) x.
Proof. exact (scan_bracketing op a r reverse). Qed.
Print Assumptions C67_scan_uses_each_element_once_in_order.

(** the library scan of the TensorFlow modules, within its length limit *)
Theorem C67_library_scan_uses_each_element_once_in_order {A} (op : A -> A -> option A) (L : nat) (a r : list A) :
  1 <= L -> length a < 2 ^ (L + 1) -> tfp_scan_associative op L a = Some r ->
  length r = length a /\ forall k x, nth_error r k = Some x -> bracketing op (firstn (S k) a) x.
Proof. exact (tfp_bracketing op L a r). Qed.
Print Assumptions C67_library_scan_uses_each_element_once_in_order.

Theorem C67_library_reversed_scan {A} (op : A -> A -> option A) (max_parallel : nat) (a r : list A) :
  1 <= max_parallel -> length a < 2 * max_parallel -> tfp_scan_rev op max_parallel a = Some r ->
  length r = length a /\ forall k x, nth_error r k = Some x -> bracketing op (skipn k a) x.
Proof. exact (tfp_rev_bracketing op max_parallel a r). Qed.
Print Assumptions C67_library_reversed_scan.

(** subtraction is not associative and raises when negative: the two scans place the brackets differently *)
Definition msub (x y : nat) : option nat := if y <=? x then Some (x - y) else None.
Example C67_example :
  my_assoc_scan msub [8; 3; 2; 1] false = Some [8; 5; 3; 2] /\ my_assoc_scan msub [2; 3] false = None.
Proof. exact (conj eq_refl eq_refl). Qed.
Example C67_library_example : tfp_scan_associative msub 2 [8; 3; 2; 1] = Some [8; 5; 3; 4].
Proof. exact eq_refl. Qed.
