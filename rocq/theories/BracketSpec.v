(** A value obtained from the elements of a list, each used once and in order, by some placement of brackets;
    no assumption on the operator. *)
From Coq Require Import List.
Import ListNotations.

Inductive bracketing {A} (op : A -> A -> option A) : list A -> A -> Prop :=
| br_leaf x : bracketing op [x] x
| br_node l1 l2 x y z : bracketing op l1 x -> bracketing op l2 y -> op x y = Some z -> bracketing op (l1 ++ l2) z.
