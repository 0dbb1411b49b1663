(** Specification of an all-prefix scan: plain left-to-right evaluation. *)
From Coq Require Import List.
Import ListNotations.

(** combination of x followed by the list l, evaluated from the left; None if op raises *)
Fixpoint fold1 {A} (op : A -> A -> option A) (x : A) (l : list A) : option A :=
  match l with
  | [] => Some x
  | y :: l' => match op x y with None => None | Some z => fold1 op z l' end
  end.

(** combination of a non-empty list, in list order *)
Definition total_of {A} (op : A -> A -> option A) (l : list A) : option A :=
  match l with [] => None | x :: t => fold1 op x t end.

(** op is defined, closed and associative on the elements satisfying P *)
Definition closed_on {A} (P : A -> Prop) (op : A -> A -> option A) : Prop :=
  forall x y, P x -> P y -> exists z, op x y = Some z /\ P z.

Definition assoc_on {A} (P : A -> Prop) (op : A -> A -> option A) : Prop :=
  forall x y z xy yz, P x -> P y -> P z ->
    op x y = Some xy -> op y z = Some yz -> op xy z = op x yz.
