(** Specification of maximum a posteriori state estimation, independent of the algorithms.

    prior[x] is the probability of the first state, Pi[x][x'] that of going from x to x', Po[x'][y] that of
    measuring y on arrival in x'.  With T measurements a state path has T+1 states. *)
From Coq Require Import List Arith Reals.
From Verif Require Import Ord FscModel FscSpec.
Import ListNotations.
Local Open Scope R_scope.

(** probability of going on from state x through the states xs while measuring ys *)
Fixpoint onward (Pi Po : list (list R)) (x : nat) (xs ys : list nat) : option R :=
  match xs, ys with
  | [], [] => Some 1
  | x' :: xs', y :: ys' => do p <- get2 Pi x x'; do o <- get2 Po x' y; do q <- onward Pi Po x' xs' ys'; Some (p * o * q)
  | _, _ => None
  end.
(** joint probability of the state path xs and the measurements ys *)
Definition joint (prior : list R) (Pi Po : list (list R)) (xs ys : list nat) : option R :=
  match xs with
  | [] => None
  | x :: xs' => do p <- nth_error prior x; do q <- onward Pi Po x xs' ys; Some (p * q)
  end.

Definition path (n T : nat) (xs : list nat) : Prop := length xs = S T /\ Forall (fun x => (x < n)%nat) xs.
(** xs has the largest joint probability *)
Definition MAP (n : nat) prior Pi Po ys xs : Prop :=
  path n (length ys) xs /\
  exists p, joint prior Pi Po xs ys = Some p /\
    forall xs', path n (length ys) xs' -> exists p', joint prior Pi Po xs' ys = Some p' /\ p' <= p.
(** v is the largest probability of a path ending in state x together with the measurements ys *)
Definition best_to (n : nat) prior Pi Po ys (x : nat) (v : R) : Prop :=
  (exists xs, path n (length ys) xs /\ last xs x = x /\ joint prior Pi Po xs ys = Some v) /\
  forall xs, path n (length ys) xs -> last xs x = x -> exists p, joint prior Pi Po xs ys = Some p /\ p <= v.
Definition unique_MAP (n : nat) prior Pi Po ys xs : Prop :=
  MAP n prior Pi Po ys xs /\ forall xs', MAP n prior Pi Po ys xs' -> xs' = xs.

(** a model with n >= 1 states and ny symbols whose entries satisfy Q *)
Definition model_ok {X} (Q : X -> Prop) (n ny : nat) (prior : list X) (Pi Po : list (list X)) : Prop :=
  (1 <= n)%nat /\ length prior = n /\ Forall Q prior /\ table n n Q Pi /\ table n ny Q Po.
Definition symbols (ny : nat) (ys : list nat) : Prop := Forall (fun y => (y < ny)%nat) ys.

(** Vs[k][x] is minus the logarithm of the largest probability of a path ending in x with the first k measurements *)
Definition log_values (n : nat) prior Pi Po ys (Vs : list (list R)) : Prop :=
  length Vs = S (length ys) /\
  forall k x, (k <= length ys)%nat -> (x < n)%nat ->
    exists v, 0 < v /\ best_to n prior Pi Po (firstn k ys) x v /\ get2 Vs k x = Some (- ln v).
(** a positive entry with logarithm between -b and b *)
Definition log_bounded (b e : R) : Prop := 0 < e /\ - b <= ln e <= b.
