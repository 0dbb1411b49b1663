(** Specification of the discrete example models, independent of the code. *)
From Coq Require Import List Arith ZArith Bool Reals.
From Verif Require Import Ord FscModel FscSpec.
Import ListNotations.
Local Open Scope R_scope.

(** ** the game *)

(** Position after the first k draws of a walk on 0..nx-1 that starts at x: a draw below 0.2 moves one
    place down, a draw above 0.8 one place up, and the ends of the track stop it. *)
Fixpoint walks (nx : nat) (u : nat -> R) (x k : nat) (y : nat) : Prop :=
  match k with
  | 0%nat => y = x
  | S k' => exists z, walks nx u x k' z /\
      ((u k' < 2/10 /\ y = (z - 1)%nat) \/
       (u k' > 8/10 /\ y = Nat.min (z + 1) (nx - 1)) \/
       (2/10 <= u k' <= 8/10 /\ y = z))
  end.

(** factor applied at distance d from the walker *)
Definition factor (d : nat) : R :=
  match d with 0%nat => 1/10 | 1%nat => 3/10 | 2%nat => 5/10 | _ => 1 end.
Definition dist (x y : nat) : nat := ((x - y) + (y - x))%nat.

(** the state reached by a control: 0 down, 1 stay, 2 up, stopped at the ends *)
Definition game_move (nx x u : nat) : nat :=
  match u with 0%nat => (x - 1)%nat | 1%nat => x | _ => Nat.min (x + 1) (nx - 1) end.
(** cost of a game: the track values at the states where the controls are applied, plus one for every
    control that is not "stay" *)
Fixpoint game_cost (nx : nat) (track : nat -> nat -> R) (k x : nat) (us : list nat) : R :=
  match us with
  | [] => 0
  | u :: us' => track x k + (if (u =? 1)%nat then 0 else 1) + game_cost nx track (S k) (game_move nx x u) us'
  end.

(** ** probability vectors and tables *)
Definition total (l : list R) : R := fold_right Rplus 0 l.
Definition distribution (l : list R) : Prop := Forall (fun p => 0 <= p) l /\ total l = 1.
Definition probability (p : R) : Prop := 0 <= p <= 1.

(** chain of one bit: from bit b, the other bit has probability p if b = 0 and p' if b = 1 *)
Definition flip (p p' : R) (b b' : nat) : R :=
  let q := if (b =? 0)%nat then p else p' in if (b =? b')%nat then 1 - q else q.

(** the half-open interval of draws that produce outcome i: its length is the i-th probability *)
Definition in_slot (p : list R) (i : nat) (u : R) : Prop :=
  total (firstn i p) <= u < total (firstn i p) + nth i p 0.

(** ** texts *)

(** the i-th string of length k over an alphabet, in lexicographic order: base-n digits of i, most
    significant first *)
Definition ith_string (alphabet : list nat) (k i : nat) : list nat :=
  map (fun j => nth ((i / length alphabet ^ (k - 1 - j)) mod length alphabet) alphabet 0)%nat (seq 0 k).

(** number of places where s occurs in text *)
Definition occurrences (s text : list nat) : nat :=
  length (filter (fun t => if list_eq_dec Nat.eq_dec (firstn (length s) (skipn t text)) s then true else false)
                 (seq 0 (length text + 1 - length s))).

(** s then s', when the text window moves on by one character *)
Definition overlap (s s' : list nat) : Prop := tl s = removelast s'.

(** xs and ys are the states and observations that the draws d produce from state x: each draw falls in the
    slot of the outcome *)
Fixpoint sampled (Pi Po : list (list R)) (x : nat) (d : list (R * R)) (xs ys : list nat) : Prop :=
  match d, xs, ys with
  | [], [], [] => True
  | (a, b) :: d', x' :: xs', y :: ys' =>
      (exists row, nth_error Pi x = Some row /\ in_slot row x' a) /\
      (exists row, nth_error Po x' = Some row /\ in_slot row y b) /\ sampled Pi Po x' d' xs' ys'
  | _, _, _ => False
  end.
Definition unit_draw (u : R) : Prop := 0 <= u < 1.

(** an n x m table of positive probabilities whose rows are proportional to the weights w i *)
Definition rows_proportional (n m : nat) (w : nat -> nat -> R) (P : list (list R)) : Prop :=
  table n m (fun p => 0 < p) P /\ Forall distribution P /\
  forall i j, (i < n)%nat -> (j < m)%nat -> get2 P i j = Some (w i j / total (map (w i) (seq 0 m))).
Definition proportional (n : nat) (w : nat -> R) (p : list R) : Prop :=
  length p = n /\ Forall (fun p => 0 < p) p /\ distribution p /\
  forall i, (i < n)%nat -> nth_error p i = Some (w i / total (map w (seq 0 n))).

Definition over (alphabet text : list nat) : Prop := Forall (fun c => In c alphabet) text.

(** one plus the number of times character j follows character i *)
Definition pair_weight (alphabet text : list nat) (i j : nat) : R :=
  1 + INR (occurrences [nth i alphabet 0; nth j alphabet 0]%nat text).
(** contexts of k characters: the floor 1e-12; contexts that overlap also get one plus the number of times
    the one is followed by the last character of the other *)
Definition context_weight (alphabet text : list nat) (k i j : nat) : R :=
  let s := ith_string alphabet k i in let s' := ith_string alphabet k j in
  / 10 ^ 12 + (if list_eq_dec Nat.eq_dec (tl s) (removelast s') then 1 + INR (occurrences (s ++ [last s' 0%nat]) text) else 0).
