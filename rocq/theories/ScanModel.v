(** Model of parallel_control/my_assoc_scan.py (function my_assoc_scan, lines 10-82).

    A Python list is a [list]; a list cell is an [option A] because the code pads the list
    with [None] (lines 33-36).  List elements themselves are never [None] in the callers.
    The operator may raise, so it returns an [option]; a raised exception (also an IndexError
    of a list access, and math.log2(0)) is the outer [None]. *)
From Coq Require Import List Arith.
Import ListNotations.

Section Scan.
Variable A : Type.

(** a for loop over an index list whose body may raise *)
Fixpoint for_ {S : Type} (l : list nat) (body : nat -> S -> option S) (s : S) : option S :=
  match l with
  | [] => Some s
  | i :: l' => match body i s with None => None | Some s' => for_ l' body s' end
  end.

(** list assignment a[i] = v; IndexError when i is outside *)
Fixpoint upd {X : Type} (a : list X) (i : nat) (v : X) : option (list X) :=
  match a, i with
  | [], _ => None
  | _ :: t, 0 => Some (v :: t)
  | x :: t, S j => match upd t j v with None => None | Some t' => Some (x :: t') end
  end.

Variable op : A -> A -> option A.

(** The three-way test of lines 46-51, 64-69 and 73-78: combine two cells, where a missing
    cell is neutral.  [x] is the left operand. Outer None: op raised. *)
Definition comb (x y : option A) : option (option A) :=
  match y with
  | None => Some x
  | Some yv => match x with
               | None => Some y
               | Some xv => match op xv yv with None => None | Some z => Some (Some z) end
               end
  end.

(** Python range(0,n,s), s > 0 *)
Definition range_step (n s : nat) : list nat := map (fun j => j * s) (seq 0 ((n + s - 1) / s)).

(** lines 43-51: body of the up pass for level d, index i *)
Definition up_body (d i : nat) (a : list (option A)) : option (list (option A)) :=
  let i1 := i + 2 ^ d - 1 in
  let i2 := i + 2 ^ (d + 1) - 1 in
  match nth_error a i1, nth_error a i2 with
  | Some x, Some y => match comb x y with None => None | Some v => upd a i2 v end
  | _, _ => None
  end.

(** lines 58-69: body of the down pass for level d, index i *)
Definition down_body (d i : nat) (a : list (option A)) : option (list (option A)) :=
  let i1 := i + 2 ^ d - 1 in
  let i2 := i + 2 ^ (d + 1) - 1 in
  match nth_error a i1, nth_error a i2 with
  | Some t, Some y =>
      match upd a i1 y with
      | None => None
      | Some a1 => match comb y t with None => None | Some v => upd a1 i2 v end
      end
  | _, _ => None
  end.

(** lines 73-78: body of the extra pass *)
Definition extra_body (a0 : list (option A)) (i : nat) (a : list (option A)) : option (list (option A)) :=
  match nth_error a i, nth_error a0 i with
  | Some x, Some y => match comb x y with None => None | Some v => upd a i v end
  | _, _ => None
  end.

(** one level of each pass (the loops the comments in the code call parallel) *)
Definition up_level (n d : nat) (a : list (option A)) := for_ (range_step n (2 ^ (d + 1))) (up_body d) a.
Definition down_level (n d : nat) (a : list (option A)) := for_ (range_step n (2 ^ (d + 1))) (down_body d) a.
Definition extra_level (n : nat) (a0 a : list (option A)) := for_ (seq 0 n) (extra_body a0) a.

(** Lines 29-82.  math.ceil(math.log2(n)) is [Nat.log2_up n] (exact arithmetic); log2(0) raises. *)
Definition scan_fwd (a : list A) : option (list A) :=
  let orig_n := length a in
  match orig_n with
  | 0 => None
  | _ =>
    let log_n := Nat.log2_up orig_n in
    let n := 2 ^ log_n in
    let a0 := map Some a ++ repeat None (n - orig_n) in
    match for_ (seq 0 log_n) (up_level n) a0 with
    | None => None
    | Some a1 =>
      match upd a1 (n - 1) None with
      | None => None
      | Some a2 =>
        match for_ (rev (seq 0 log_n)) (down_level n) a2 with
        | None => None
        | Some a3 =>
          match extra_level n a0 a3 with
          | None => None
          | Some a4 =>
            (* the caller receives the cells; a None cell would be a None in the result *)
            (fix unwrap (l : list (option A)) : option (list A) :=
               match l with
               | [] => Some []
               | None :: _ => None
               | Some x :: l' => match unwrap l' with None => None | Some r => Some (x :: r) end
               end) (firstn orig_n a4)
          end
        end
      end
    end
  end.

End Scan.

Arguments comb {A}. Arguments up_body {A}. Arguments down_body {A}. Arguments extra_body {A}.
Arguments up_level {A}. Arguments down_level {A}. Arguments extra_level {A}. Arguments scan_fwd {A}.

(** Lines 10-27: the public function. For reverse=True the list is reversed, scanned with
    swapped operands and reversed back. *)
Definition my_assoc_scan {A} (op : A -> A -> option A) (a : list A) (reverse : bool) : option (list A) :=
  if reverse then
    match scan_fwd (fun x y => op y x) (rev a) with None => None | Some r => Some (rev r) end
  else scan_fwd op a.
