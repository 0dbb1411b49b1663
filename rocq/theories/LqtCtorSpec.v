(** What LQT.checkAndExpand documents: horizon, defaults, expansion and the shapes it demands. *)
From Coq Require Import List Arith.
From Verif Require Import LqtCtorModel.
Import ListNotations.

(** T is the length of the first list among F, L, X, U, or the argument T if none of them is a list *)
Definition is_horizon (a : args) (T : nat) : Prop :=
  match aF a, aL a, aX a, aU a with
  | Many l, _, _, _ | One _, Many l, _, _ | One _, One _, Many l, _ | One _, One _, One _, Many l => T = length l
  | One _, One _, One _, One _ => aT a = Some T
  end.

(** l is the expanded form of p: the list itself, which must have T entries, or T copies of the array *)
Definition expands (T : nat) (p : param) (l : list arr) : Prop :=
  length l = T /\ match p with Many l' => l = l' | One a => forall x, In x l -> x = a end.
(** the same with a documented default *)
Definition expands_d (T : nat) (p : option param) (d : arr) (l : list arr) : Prop :=
  match p with Some p' => expands T p' l | None => expands T (One d) l end.
Definition given_or {A} (p : option A) (d x : A) : Prop := match p with Some y => x = y | None => x = d end.

(** n = number of states, m = number of controls, q = output dimension of the first stage *)
Definition sizes (a : args) (n m q : nat) : Prop :=
  (exists x t, first (aF a) = Some x /\ shape x = n :: t) /\
  (exists x b t, first (aL a) = Some x /\ shape x = b :: m :: t) /\
  (exists x t, first (aX a) = Some x /\ shape x = q :: t).

(** the object holds the given arrays, expanded, or the defaults *)
Definition expanded (a : args) (T n m q : nat) (o : obj) : Prop :=
  (expands T (aF a) (oF o) /\ expands T (aL a) (oL o) /\ expands T (aX a) (oX o) /\ expands T (aU a) (oU o)) /\
  (expands_d T (ac a) (Zeros [n]) (oc o) /\ expands_d T (aH a) (Eye q n) (oH o) /\ expands_d T (ar a) (Zeros [q]) (or_ o)) /\
  (expands_d T (aZ a) (Eye m m) (oZ o) /\ expands_d T (as_ a) (Zeros [m]) (os o) /\ expands_d T (aM a) (Zeros [q; m]) (oM o)) /\
  (given_or (aXT a) (Eye q q) (oXT o) /\ given_or (aHT a) (Eye q n) (oHT o) /\ given_or (arT a) (Zeros [q]) (orT o)).

(** the k-th array of a list has shape s *)
Definition sh (l : list arr) (k : nat) (s : list nat) : Prop := exists x, nth_error l k = Some x /\ shape x = s.
(** all shapes agree: n states, m controls, an output dimension p for every step and one for the end *)
Definition consistent (n m T : nat) (o : obj) : Prop :=
  (exists p, shape (oXT o) = [p; p] /\ shape (oHT o) = [p; n] /\ shape (orT o) = [p]) /\
  forall k, k < T -> exists p,
    sh (oF o) k [n; n] /\ sh (oL o) k [n; m] /\ sh (oX o) k [p; p] /\ sh (oU o) k [m; m] /\ sh (oc o) k [n] /\
    sh (oH o) k [p; n] /\ sh (or_ o) k [p] /\ sh (oZ o) k [m; m] /\ sh (os o) k [m] /\ sh (oM o) k [p; m].
