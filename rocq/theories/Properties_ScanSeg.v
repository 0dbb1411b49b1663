(** C96: the scan only ever combines the results of adjacent runs of entries, so it needs no associativity to succeed. *)
From Coq Require Import List Arith.
From Verif Require Import ScanModel ScanSeg ScanSegEx.
Import ListNotations.

(** ** C96 *)
(** [Inv i j x] says that x is an acceptable result for the entries i, ..., j-1.  If acceptable results of adjacent runs can
    always be combined into an acceptable result of the joint run, the scan does not raise and every entry of its result is
    acceptable: entry k stands for the entries 0..k, or k..n-1 with reverse=True.  The operator may raise on every other pair
    of values and need not be associative. *)
Theorem C96_segments {A} (op : A -> A -> option A) (Inv : nat -> nat -> A -> Prop) (a : list A) (reverse : bool) : a <> [] ->
  (forall i j k x y, i < j -> j < k -> k <= length a -> Inv i j x -> Inv j k y -> exists z, op x y = Some z /\ Inv i k z) ->
  (forall i x, nth_error a i = Some x -> Inv i (S i) x) ->
  exists r, my_assoc_scan op a reverse = Some r /\ length r = length a /\
  forall k x, nth_error r k = Some x -> if reverse then Inv k (length a) x else Inv 0 (S k) x.
Proof. exact (@scan_seg A op Inv a reverse). Qed.
Print Assumptions C96_segments.
Example C96_segments_ex : let a := [(0, 1); (1, 2); (2, 3); (3, 4); (4, 5)] in let Inv i j x := x = (i, j) in
  a <> [] /\ (forall i j k x y, i < j -> j < k -> k <= length a -> Inv i j x -> Inv j k y -> exists z, join x y = Some z /\ Inv i k z) /\
  (forall i x, nth_error a i = Some x -> Inv i (S i) x) /\ join (2, 3) (0, 1) = None.
Proof. exact join_hyp. Qed.
Example C96_segments_scan_ex : my_assoc_scan join [(0, 1); (1, 2); (2, 3); (3, 4); (4, 5)] true = Some [(0, 5); (1, 5); (2, 5); (3, 5); (4, 5)].
Proof. exact join_scan. Qed.
