(** Property theorems about the constructor of the tracking problem (C29). *)
From Coq Require Import List Arith.
From Verif Require Import LqtCtorModel LqtCtorSpec LqtCtor.
Import ListNotations.

Theorem C29_constructor_accepts_exactly :
  forall a o, checkAndExpand a = Some o <->
  exists T n m q, is_horizon a T /\ sizes a n m q /\ expanded a T n m q o /\ consistent n m T o.
Proof. exact constructor_iff. Qed.
Print Assumptions C29_constructor_accepts_exactly.
Theorem C29_wrong_length_raises :
  forall a T l, is_horizon a T -> length l <> T ->
  In (Some (Many l)) [Some (aF a); Some (aL a); Some (aX a); Some (aU a); ac a; aH a; ar a; aZ a; as_ a; aM a] ->
  checkAndExpand a = None.
Proof. exact wrong_length_raises. Qed.
Print Assumptions C29_wrong_length_raises.

(** two states, one control, two outputs; L is a list of three, everything else single or left out *)
Definition ex_args : args :=
  Args (One (Given [2; 2] 0)) (Many [Given [2; 1] 1; Given [2; 1] 2; Given [2; 1] 3]) (One (Given [2; 2] 4))
       (One (Given [1; 1] 5)) None None None (Some (Many [Given [2] 6; Given [2] 7; Given [2] 8])) None None None None None None.
Example C29_accepted : checkAndExpand ex_args =
  Some (Obj (repeat (Given [2; 2] 0) 3) [Given [2; 1] 1; Given [2; 1] 2; Given [2; 1] 3] (repeat (Given [2; 2] 4) 3)
            (repeat (Given [1; 1] 5) 3) (Eye 2 2) (repeat (Zeros [2]) 3) (repeat (Eye 2 2) 3)
            [Given [2] 6; Given [2] 7; Given [2] 8] (Eye 2 2) (Zeros [2]) (repeat (Eye 1 1) 3) (repeat (Zeros [1]) 3)
            (repeat (Zeros [2; 1]) 3)).
Proof. exact eq_refl. Qed.
