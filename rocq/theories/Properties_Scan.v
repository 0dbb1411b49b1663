(** Property theorems about my_assoc_scan (C01-C04). *)
From Coq Require Import List Arith Lia Permutation.
From Verif Require Import ScanModel ScanSpec ScanProofs ScanOrder.
Import ListNotations.

(** C01: forward scan = left-to-right prefix combinations, for a total associative operator. *)
Theorem C01_scan_is_prefix_fold :
  forall (A : Type) (op : A -> A -> A) (a : list A),
    (forall x y z, op (op x y) z = op x (op y z)) -> a <> [] ->
    exists r, my_assoc_scan (fun x y => Some (op x y)) a false = Some r /\ length r = length a /\
      forall k x t, k < length a -> firstn (S k) a = x :: t -> nth_error r k = Some (fold_left op t x).
Proof. exact @scan_total_prefix. Qed.
Print Assumptions C01_scan_is_prefix_fold.

Theorem C01_scan_empty_raises :
  forall (A : Type) (op : A -> A -> option A) (rev_flag : bool), my_assoc_scan op [] rev_flag = None.
Proof. exact @my_assoc_scan_empty. Qed.
Print Assumptions C01_scan_empty_raises.

(** C02: reverse scan = suffix combinations in list order. *)
Theorem C02_scan_reverse_is_suffix_fold :
  forall (A : Type) (op : A -> A -> A) (a : list A),
    (forall x y z, op (op x y) z = op x (op y z)) -> a <> [] ->
    exists r, my_assoc_scan (fun x y => Some (op x y)) a true = Some r /\ length r = length a /\
      forall k x t, k < length a -> skipn k a = x :: t -> nth_error r k = Some (fold_left op t x).
Proof. exact @scan_total_suffix. Qed.
Print Assumptions C02_scan_reverse_is_suffix_fold.

(** C03: any schedule of the iterations inside the levels gives the same result (op may even raise). *)
Theorem C03_scan_level_order_irrelevant :
  forall (A : Type) (op : A -> A -> option A) (su sd : nat -> list nat) (se : list nat) (a : list A),
    let n := 2 ^ Nat.log2_up (length a) in
    valid_schedule n su -> valid_schedule n sd -> Permutation (seq 0 n) se ->
    scan_fwd_sched op su sd se a = my_assoc_scan op a false.
Proof. exact @scan_any_schedule. Qed.
Print Assumptions C03_scan_level_order_irrelevant.

(** C04: partial operators: associativity and definedness on a closed set suffice. *)
Theorem C04_scan_on_closed_set :
  forall (A : Type) (P : A -> Prop) (op : A -> A -> option A) (a : list A) (reverse : bool),
    closed_on P op -> assoc_on P op -> a <> [] -> Forall P a ->
    exists r, my_assoc_scan op a reverse = Some r /\ length r = length a /\ Forall P r /\
      forall k, k < length a ->
        nth_error r k = total_of op (if reverse then skipn k a else firstn (S k) a) /\
        nth_error r k <> None.
Proof. exact @my_assoc_scan_spec. Qed.
Print Assumptions C04_scan_on_closed_set.

(** Non-vacuity. *)
Example C01_example : (* non-commutative operator, length not a power of two *)
  my_assoc_scan (fun x y : list nat => Some (x ++ y)) [[1];[2];[3];[4];[5]] false
  = Some [[1];[1;2];[1;2;3];[1;2;3;4];[1;2;3;4;5]]
  /\ (forall x y z : list nat, (x ++ y) ++ z = x ++ (y ++ z)).
Proof. split; [vm_compute; reflexivity|]. intros; symmetry; apply app_assoc. Qed.

Example C02_example :
  my_assoc_scan (fun x y : list nat => Some (x ++ y)) [[1];[2];[3];[4];[5];[6]] true
  = Some [[1;2;3;4;5;6];[2;3;4;5;6];[3;4;5;6];[4;5;6];[5;6];[6]].
Proof. vm_compute. reflexivity. Qed.

Example C03_example : (* running every level backwards is a valid schedule *)
  let n := 2 ^ Nat.log2_up 5 in
  valid_schedule n (fun d => rev (range_step n (2 ^ (d + 1)))) /\
  scan_fwd_sched (fun x y : list nat => Some (x ++ y))
     (fun d => rev (range_step n (2 ^ (d + 1)))) (fun d => rev (range_step n (2 ^ (d + 1))))
     (rev (seq 0 n)) [[1];[2];[3];[4];[5]]
  = Some [[1];[1;2];[1;2;3];[1;2;3;4];[1;2;3;4;5]].
Proof. split; [intros d; apply Permutation_rev | vm_compute; reflexivity]. Qed.

(** division of naturals that raises on 0, on the closed set of singleton {1}: a partial operator *)
Example C04_example :
  let op := fun x y : nat => match y with 0 => None | S _ => Some (Nat.div x y) end in
  closed_on (fun x => x = 1) op /\ assoc_on (fun x => x = 1) op /\ op 1 0 = None /\
  my_assoc_scan op [1;1;1] false = Some [1;1;1].
Proof.
  repeat split.
  - intros x y -> ->. exists 1. split; reflexivity.
  - intros x y z xy yz -> -> -> [= <-] [= <-]. reflexivity.
Qed.
