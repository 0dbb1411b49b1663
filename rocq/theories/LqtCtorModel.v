(** Model of LQT.checkAndExpand (lqt_np.py 444-600).

    An array is its shape together with where it comes from: given by the caller, np.eye or np.zeros.  The
    constructor never looks at the entries.  Simplification: T is a natural number (a negative T behaves like 0). *)
From Coq Require Import List Arith Bool.
Import ListNotations.

Inductive arr : Type :=
| Given (shape : list nat) (name : nat)   (* an array of the caller *)
| Eye (r c : nat)                         (* np.eye(r, c) *)
| Zeros (shape : list nat).               (* np.zeros(shape) *)
Definition shape (a : arr) : list nat := match a with Given s _ => s | Eye r c => [r; c] | Zeros s => s end.

(** a parameter is an array or a list of arrays *)
Inductive param := One (a : arr) | Many (l : list arr).
Record args := Args { aF : param; aL : param; aX : param; aU : param; aXT : option arr; ac : option param;
  aH : option param; ar : option param; aHT : option arr; arT : option arr; aZ : option param;
  as_ : option param; aM : option param; aT : option nat }.
Record obj := Obj { oF : list arr; oL : list arr; oX : list arr; oU : list arr; oXT : arr; oc : list arr;
  oH : list arr; or_ : list arr; oHT : arr; orT : arr; oZ : list arr; os : list arr; oM : list arr }.

Notation "'let!' x := e1 'in' e2" := (match e1 with None => None | Some x => e2 end) (at level 200, x pattern).
Notation "'check!' b 'in' e2" := (if b then e2 else None) (at level 200).

Definition is_list (p : param) : bool := match p with Many _ => true | One _ => false end.
Definition len (p : param) : nat := match p with Many l => length l | One _ => 0 end.
(** 474-485 *)
Definition figure_T (a : args) : option nat :=
  if is_list (aF a) then Some (len (aF a))
  else if is_list (aL a) then Some (len (aL a))
  else if is_list (aX a) then Some (len (aX a))
  else if is_list (aU a) then Some (len (aU a))
  else aT a.
(** P[0].shape[i] or P.shape[i]; an empty list or a missing axis raises IndexError *)
Definition first (p : param) : option arr := match p with One a => Some a | Many l => hd_error l end.
Definition first_dim (p : param) (i : nat) : option nat := let! a := first p in nth_error (shape a) i.
Definition default {A} (o : option A) (d : A) : A := match o with Some x => x | None => d end.
(** 526-566: T * [P], or the list itself if it has length T *)
Definition expand (T : nat) (p : param) : option (list arr) :=
  match p with One a => Some (repeat a T) | Many l => if length l =? T then Some l else None end.

Definition has_shape (a : arr) (s : list nat) : bool :=
  if list_eq_dec Nat.eq_dec (shape a) s then true else false.
(** P[k] *)
Definition at_ (l : list arr) (k : nat) : option arr := nth_error l k.

(** 577-604: one iteration of the loop *)
Definition check_step (o : obj) (k : nat) : option unit :=
  let! F0 := at_ (oF o) 0 in let! xdim := nth_error (shape F0) 0 in
  let! L0 := at_ (oL o) 0 in let! udim := nth_error (shape L0) 1 in
  let! F := at_ (oF o) k in check! has_shape F [xdim; xdim] in
  let! L := at_ (oL o) k in check! has_shape L [xdim; udim] in
  let! X := at_ (oX o) k in let! rdim := nth_error (shape X) 0 in
  check! has_shape X [rdim; rdim] in
  let! U := at_ (oU o) k in check! has_shape U [udim; udim] in
  let! c := at_ (oc o) k in check! has_shape c [xdim] in
  let! H := at_ (oH o) k in check! has_shape H [rdim; xdim] in
  let! r := at_ (or_ o) k in check! has_shape r [rdim] in
  let! Z := at_ (oZ o) k in check! has_shape Z [udim; udim] in
  let! s := at_ (os o) k in check! has_shape s [udim] in
  let! M := at_ (oM o) k in check! has_shape M [rdim; udim] in
  Some tt.
Fixpoint check_loop (o : obj) (ks : list nat) : option unit :=
  match ks with [] => Some tt | k :: ks' => let! _ := check_step o k in check_loop o ks' end.

(** lqt_np.py 444-606 *)
Definition checkAndExpand (a : args) : option obj :=
  let! T := figure_T a in
  let! xdim := first_dim (aF a) 0 in
  let! udim := first_dim (aL a) 1 in
  let! rdim := first_dim (aX a) 0 in
  let XT := default (aXT a) (Eye rdim rdim) in
  let c := default (ac a) (One (Zeros [xdim])) in
  let H := default (aH a) (One (Eye rdim xdim)) in
  let r := default (ar a) (One (Zeros [rdim])) in
  let HT := default (aHT a) (Eye rdim xdim) in
  let rT := default (arT a) (Zeros [rdim]) in
  let Z := default (aZ a) (One (Eye udim udim)) in
  let s := default (as_ a) (One (Zeros [udim])) in
  let M := default (aM a) (One (Zeros [rdim; udim])) in
  let! F := expand T (aF a) in
  let! L := expand T (aL a) in
  let! X := expand T (aX a) in
  let! U := expand T (aU a) in
  let! c := expand T c in
  let! H := expand T H in
  let! r := expand T r in
  let! Z := expand T Z in
  let! s := expand T s in
  let! M := expand T M in
  let! rdim := nth_error (shape XT) 0 in
  check! has_shape XT [rdim; rdim] in
  check! has_shape HT [rdim; xdim] in
  check! has_shape rT [rdim] in
  let o := Obj F L X U XT c H r HT rT Z s M in
  let! _ := check_loop o (seq 0 T) in
  Some o.
