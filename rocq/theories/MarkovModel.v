(** Model of the discrete example models: parallel_control/finite_model_np.py, ge_model_np.py and
    text_model.py.

    Numbers are reals (exact arithmetic).  Random numbers are arguments: a draw of rng.uniform(0,1) is any
    real, np.random.choice is modelled by its documented method from one draw.  2-d arrays are lists of
    rows; an index outside an array, and a missing dictionary key, raise (None). *)
From Coq Require Import List Arith ZArith Bool Reals.
From Verif Require Import ScanModel Ord FscModel.
Import ListNotations.
Local Open Scope R_scope.

Definition Rltb (a b : R) : bool := negb (Rleb b a).

(** * finite_model_np.py *)

(** finite_model_np.py 39-40: mask *)
Definition mask : list R := [5/10; 3/10; 1/10; 3/10; 5/10].

(** finite_model_np.py 49-54: one step of the random walk (u: the draw).  nx - 1 is truncated at 0 here;
    for nx = 0 the position is 0 and both comparisons are false. *)
Definition walk_step (nx : nat) (u : R) (x : nat) : nat :=
  if Rltb u (2/10) then (if (0 <? x)%nat then x - 1 else x)%nat
  else if Rltb (1 - 2/10) u then (if (x <? nx - 1)%nat then x + 1 else x)%nat
  else x.

(** finite_model_np.py 56-59: multiplying the mask into column k around x; y may be negative *)
Definition apply_mask (nx k x : nat) (track : list (list R)) : option (list (list R)) :=
  for_ (seq 0 (length mask))
    (fun i track =>
       let y := (Z.of_nat x - 2 + Z.of_nat i)%Z in
       if ((0 <=? y) && (y <? Z.of_nat nx))%Z then
         do c <- get2 track (Z.to_nat y) k; do m <- nth_error mask i; upd2 track (Z.to_nat y) k (c * m)
       else Some track) track.

(** finite_model_np.py 22-61: genData.  u r k is the draw in round r, step k.  The array `trace` (line 42)
    is never used and is left out. *)
Definition fm_genData (u : nat -> nat -> R) (T nx : nat) : option (list (list R) * nat) :=
  let x0 := (nx / 2)%nat in
  do track <- for_ (seq 0 2)
    (fun r track =>
       do s <- for_ (seq 0 T)
          (fun k s => let '(x, track) := s in
             let x' := walk_step nx (u r k) x in
             do track' <- apply_mask nx k x' track; Some (x', track')) (x0, track);
       Some (snd s)) (repeat (repeat 1 T) nx);
  Some (track, x0).

(** finite_model_np.py 77-81: the transition table *)
Definition fm_f (xdim : nat) : list (list nat) :=
  map (fun x => [Nat.max 0 (x - 1); x; Nat.min (xdim - 1) (x + 1)])%nat (seq 0 xdim).
Definition u_cost : list R := [1; 0; 1].

(** finite_model_np.py 64-95: getFSC *)
Definition fm_getFSC (track : arr R) : option (fsc Rcost) :=
  let xdim := shape0 track in
  let udim := 3%nat in
  let T := shape1 track in
  let f := Arr xdim udim (fm_f xdim) in
  let LT := repeat 0 xdim in
  do L <- mapM (fun k =>
       do d <- mapM (fun x => mapM (fun u => do t <- get2 (adata track) x k; do c <- nth_error u_cost u; Some (t + c))
                                   (seq 0 udim)) (seq 0 xdim);
       Some (Arr xdim udim d)) (seq 0 T);
  checkAndExpand (K := Rcost) 1 (One f) (Many L) (Some LT) None.

(** * random choice *)

Definition Rsum (l : list R) : R := fold_right Rplus 0 l.

(** np.random.choice(a=len(p), size=1, p=p)[0]: ValueError unless the entries are non-negative and sum to
    one (numpy tolerates 1.5e-8; exactly here); then the first index whose cumulative sum exceeds the
    uniform draw u (cdf.searchsorted(u, side='right')). *)
Fixpoint search (acc : R) (p : list R) (u : R) : nat :=
  match p with
  | [] => 0%nat
  | a :: p' => if Rltb u (acc + a) then 0%nat else S (search (acc + a) p' u)
  end.
Definition choice (p : list R) (u : R) : option nat :=
  if forallb (Rleb 0) p && Rleb (Rsum p) 1 && Rleb 1 (Rsum p) then Some (search 0 p u) else None.

(** * ge_model_np.py *)

(** ge_model_np.py 15-29: get_b_list *)
Definition get_b_list (xs : list Z) : list Z := map (fun x => if ((x =? 2) || (x =? 3))%Z then 1%Z else 0%Z) xs.

(** ge_model_np.py 52-64: the tables, as functions of the five probabilities of lines 46-50 *)
Section GE.
Variables p0 p1 p2 q0 q1 : R.
Definition ge_Pi : list (list R) :=
  [[(1 - p0) * (1 - p2); p0 * (1 - p2); (1 - p0) * p2; p0 * p2];
   [p1 * (1 - p2); (1 - p1) * (1 - p2); p1 * p2; (1 - p1) * p2];
   [(1 - p0) * p2; p0 * p2; (1 - p0) * (1 - p2); p0 * (1 - p2)];
   [p1 * p2; (1 - p1) * p2; p1 * (1 - p2); (1 - p1) * (1 - p2)]].
Definition ge_Po : list (list R) := [[1 - q0; q0]; [1 - q1; q1]; [q0; 1 - q0]; [q1; 1 - q1]].
Definition ge_prior : list R := map (fun a => a / 4) [1; 1; 1; 1].
End GE.
(** ge_model_np.py 46-50: the values *)
Definition gePi := ge_Pi (3/100) (1/10) (5/100).
Definition gePo := ge_Po (1/10) (3/10).

(** ge_model_np.py 69-95: genData.  v is the draw for the first state, u k the two draws of step k. *)
Definition gen_data (prior : list R) (Pi Po : list (list R)) (v : R) (u : nat -> R * R) (T : nat) :
    option (list nat * list nat) :=
  do x <- choice prior v;
  do s <- for_ (seq 0 T)
     (fun k s => let '(x, xs, ys) := s in
        do row <- nth_error Pi x; do x' <- choice row (fst (u k));
        do row' <- nth_error Po x'; do y <- choice row' (snd (u k));
        Some (x', xs ++ [x'], ys ++ [y])) (x, [], []);
  let '(_, xs, ys) := s in Some (xs, ys).
Definition ge_genData (v : R) (u : nat -> R * R) (T : nat) := gen_data ge_prior gePi gePo v u T.

(** * text_model.py *)

(** A character is its code point, a string a list of characters.  Slices s[a:b] are skipn/firstn. *)
Definition str := list nat.
Fixpoint str_eqb (a b : str) : bool :=
  match a, b with
  | [], [] => true
  | x :: a', y :: b' => (x =? y)%nat && str_eqb a' b'
  | _, _ => false
  end.

(** dictionaries: the most recent assignment to a key wins; KeyError is None *)
Definition dict (X : Type) := list (X * nat).
Definition put {X} (k : X) (v : nat) (d : dict X) : dict X := (k, v) :: d.
Fixpoint lookup {X} (eqb : X -> X -> bool) (d : dict X) (k : X) : option nat :=
  match d with
  | [] => None
  | (k', v) :: d' => if eqb k k' then Some v else lookup eqb d' k
  end.

Record text_model := TextModel {
  chars : str; errp : R; order : nat; char_dict : dict nat; cond_chars : list str; cond_dict : dict str }.

(** text_model.py 38-46: the while loop that counts index_list up; j is the code's j + 1 *)
Fixpoint odometer (n : nat) (l : list nat) (j : nat) : option (list nat) :=
  match j with
  | 0%nat => Some l
  | S j' => do v <- nth_error l j';
            if (n <=? v + 1)%nat then do l' <- upd l j' 0%nat; odometer n l' j'
            else upd l j' (v + 1)%nat
  end.

(** text_model.py 10-48: the constructor (order >= 0: a negative order raises and is not modelled) *)
Definition text_init (chars : str) (errp : R) (order : nat) : option text_model :=
  let n := length chars in
  do cd <- for_ (seq 0 n) (fun i d => do c <- nth_error chars i; Some (put c i d)) [];
  do s <- for_ (seq 0 (n ^ order))
     (fun i s => let '(index_list, cc, d) := s in
        do st <- mapM (fun ix => nth_error chars ix) index_list;
        do index_list' <- odometer n index_list (length index_list);
        Some (index_list', cc ++ [st], put st i d)) (repeat 0%nat order, [], []);
  let '(_, cc, d) := s in
  Some (TextModel chars errp order cd cc d).

Section Text.
Variable M : text_model.
Let n := length (chars M).
Definition char_index (c : nat) : option nat := lookup Nat.eqb (char_dict M) c.
Definition cond_index (s : str) : option nat := lookup str_eqb (cond_dict M) s.

(** A[i] = A[i] + v and A[i,j] = A[i,j] + v *)
Definition add1 (A : list R) (i : nat) (v : R) : option (list R) := do a <- nth_error A i; upd A i (a + v).
Definition add2 (A : list (list R)) (i j : nat) (v : R) : option (list (list R)) :=
  do a <- get2 A i j; upd2 A i j (a + v).
(** p / p.sum() *)
Definition normalise (p : list R) : list R := map (fun e => e / Rsum p) p.

(** text_model.py 51-63: get1stOrderPo *)
Definition get1stOrderPo : list (list R) :=
  let pr := normalise (repeat 1 n) in
  map (fun i => map (fun j => (if (i =? j)%nat then 1 - errp M else 0) + errp M * nth j pr 0) (seq 0 n)) (seq 0 n).

(** text_model.py 65-88: get1stOrderPi *)
Definition get1stOrderPi (train_text : str) : option (list (list R)) :=
  do c <- nth_error train_text 0;
  do s <- for_ (seq 1 (length train_text - 1))
     (fun i s => let '(c0, Pi) := s in
        do c1 <- nth_error train_text i;
        do i0 <- char_index c0; do i1 <- char_index c1;
        do Pi' <- add2 Pi i0 i1 1; Some (c1, Pi')) (c, repeat (repeat 1 n) n);
  Some (map normalise (snd s)).

(** text_model.py 90-105: get1stOrderPrior *)
Definition get1stOrderPrior (train_text : str) : option (list R) :=
  do p <- for_ (seq 0 (length train_text))
     (fun i p => do c <- nth_error train_text i; do j <- char_index c; add1 p j 1) (repeat 1 n);
  Some (normalise p).

(** text_model.py 108-118: getNthOrderPo (np.tile along the first axis) *)
Definition getNthOrderPo : list (list R) :=
  if (1 <? order M)%nat then concat (repeat get1stOrderPo (n ^ (order M - 1))) else get1stOrderPo.

(** text_model.py 121-150: getNthOrderPi.  The floor is 1e-12. *)
Definition floor_weight : R := / 10 ^ 12.
Definition slice_drop1 (s : str) : str := skipn 1 s.
Definition slice_droplast (s : str) : str := firstn (length s - 1) s.
Definition getNthOrderPi (train_text : str) : option (list (list R)) :=
  let N := (n ^ order M)%nat in
  do Pi <- for_ (seq 0 N) (fun i => for_ (seq 0 N) (fun j Pi =>
        do c0 <- nth_error (cond_chars M) i; do c1 <- nth_error (cond_chars M) j;
        if str_eqb (slice_drop1 c0) (slice_droplast c1) then add2 Pi i j 1 else Some Pi))
     (repeat (repeat floor_weight N) N);
  do s <- for_ (seq (order M) (length train_text - order M))
     (fun i s => let '(c0, Pi) := s in
        do c <- nth_error train_text i;
        let c1 := slice_drop1 c0 ++ [c] in
        do i0 <- cond_index c0; do i1 <- cond_index c1;
        do Pi' <- add2 Pi i0 i1 1; Some (c1, Pi')) (firstn (order M) train_text, Pi);
  Some (map normalise (snd s)).

(** text_model.py 153-168: getNthOrderPrior *)
Definition getNthOrderPrior (train_text : str) : option (list R) :=
  let N := (n ^ order M)%nat in
  do p <- for_ (seq 0 (length train_text + 1 - order M))
     (fun i p => do j <- cond_index (firstn (order M) (skipn i train_text)); add1 p j 1) (repeat 1 N);
  Some (normalise p).

(** text_model.py 171-190: makeNoisyText; u i is the draw for position i *)
Definition makeNoisyText (u : nat -> R) (test_text : str) : option str :=
  for_ (seq 0 (length test_text))
    (fun i text =>
       do c <- nth_error test_text i; do j <- char_index c;
       do p <- nth_error get1stOrderPo j; do k <- choice p (u i); do c' <- nth_error (chars M) k;
       Some (text ++ [c'])) [].

(** text_model.py 192-207: textToIndex *)
Definition textToIndex (text : str) : option (list nat) := mapM char_index text.

(** text_model.py 209-223: indexToText (indices >= 0; an index modulo 0 leaves an index outside) *)
Definition indexToText (ys : list nat) : option str := mapM (fun y => nth_error (chars M) (y mod n)%nat) ys.
End Text.
