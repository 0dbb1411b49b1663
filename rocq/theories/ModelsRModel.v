(** Models of the parts of the example models that use cosine and sine: LinearModel.genData (linear_model_np.py), the
    functions of NonlinearModel (nonlinear_model_np.py) and their batched versions (nonlinear_model_tf.py).  Floating-point
    numbers are real numbers. *)
From Coq Require Import Reals List Arith.
From Verif Require Import ScanModel FscModel.
Import ListNotations.
Local Open Scope R_scope.

(** ** linear_model_np.py 45-95: LinearModel.genData; the k-th call of rng.uniform(0.0, 1.0) returns [draw k] *)
Definition bx0 : R := 0.
Definition bx1 : R := 10.
Definition br : R := 1.
Definition bs : R := br / 2.
Definition bda : R := / 2 * PI.
Record walker := Walker { w_angle : R; w_x : R; w_y : R }.
(** 75-79 *)
Definition turn (angle u : R) : R :=
  let angle := angle + bda * 2 * (u - / 2) in
  let angle := if Rlt_dec angle 0 then angle + 2 * PI else angle in
  if Rlt_dec (2 * PI) angle then angle - 2 * PI else angle.
(** 84-87: one coordinate *)
Definition bounce (old new : R) : R :=
  if Rle_dec new (bx0 + bs) then 2 * old - new else if Rle_dec (bx1 - bs) new then 2 * old - new else new.
(** 74-93: the loop body *)
Definition walk (u : R) (w : walker) : walker :=
  let angle := turn (w_angle w) u in
  let new_x := w_x w + br * cos angle in
  let new_y := w_y w + br * sin angle in
  Walker angle (bounce (w_x w) new_x) (bounce (w_y w) new_y).
Fixpoint walk_from (draw : nat -> R) (k n : nat) (w : walker) : list (R * R) :=
  match n with
  | O => []
  | S n' => let w' := walk (draw k) w in (w_x w', w_y w') :: walk_from draw (S k) n' w'
  end.
(** xy[0, 0] = x raises an IndexError when N is zero *)
Definition genData (draw : nat -> R) (N : nat) : option (list (R * R)) :=
  match N with
  | O => None
  | S n =>
      let x := bx0 + (bx1 - bx0) / 2 in
      Some ((x, x) :: walk_from draw 0 n (Walker 0 x x))
  end.

(** ** nonlinear_model_np.py 30-80: f, Fx, Fu of NonlinearModel; a vector is its entries *)
Definition vect := nat -> R.
Definition nl_f (dt : R) (x u : vect) : list R :=
  [x 0%nat + x 3%nat * cos (x 2%nat) * dt; x 1%nat + x 3%nat * sin (x 2%nat) * dt; x 2%nat + u 1%nat * dt; x 3%nat + u 0%nat * dt].
Definition nl_Fx (dt : R) (x u : vect) : list (list R) :=
  [[1; 0; - x 3%nat * sin (x 2%nat) * dt; cos (x 2%nat) * dt];
   [0; 1; x 3%nat * cos (x 2%nat) * dt; sin (x 2%nat) * dt];
   [0; 0; 1; 0];
   [0; 0; 0; 1]].
Definition nl_Fu (dt : R) (x u : vect) : list (list R) := [[0; 0]; [0; 0]; [0; dt]; [dt; 0]].

(** ** nonlinear_model_tf.py 19-54: batches; a batch is the list of its vectors.  Simplification: xs and us have one length. *)
(** xs[:, i] *)
Definition tcol (xs : list vect) (i : nat) : list R := map (fun x => x i) xs.
Definition tmap2 (g : R -> R -> R) (a b : list R) : list R := map (fun z => g (fst z) (snd z)) (combine a b).
Definition tscale (dt : R) (a : list R) : list R := map (fun z => z * dt) a.
Definition tones (a : list R) : list R := map (fun _ => 1) a.
Definition tzeros (a : list R) : list R := map (fun _ => 0) a.
(** tf.stack of columns along axis 1, and of batches of columns along axis 2 *)
Definition stack1 (cols : list (list R)) : list (list R) :=
  map (fun b => map (fun c => nth b c 0) cols) (seq 0 (length (hd [] cols))).
Definition stack2 (mats : list (list (list R))) : list (list (list R)) :=
  map (fun b => map (fun i => map (fun m => nth i (nth b m []) 0) mats) (seq 0 (length (nth b (hd [] mats) []))))
      (seq 0 (length (hd [] mats))).
Definition tf_nl_f (dt : R) (xs us : list vect) : list (list R) :=
  stack1 [tmap2 Rplus (tcol xs 0) (tscale dt (tmap2 Rmult (tcol xs 3) (map cos (tcol xs 2))));
          tmap2 Rplus (tcol xs 1) (tscale dt (tmap2 Rmult (tcol xs 3) (map sin (tcol xs 2))));
          tmap2 Rplus (tcol xs 2) (tscale dt (tcol us 1));
          tmap2 Rplus (tcol xs 3) (tscale dt (tcol us 0))].
Definition tf_nl_Fx (dt : R) (xs us : list vect) : list (list (list R)) :=
  let z := tzeros (tcol xs 0) in
  let o := tones (tcol xs 0) in
  stack2 [stack1 [o; z; z; z];
          stack1 [z; o; z; z];
          stack1 [tscale dt (tmap2 Rmult (map Ropp (tcol xs 3)) (map sin (tcol xs 2)));
                  tscale dt (tmap2 Rmult (tcol xs 3) (map cos (tcol xs 2))); o; z];
          stack1 [tscale dt (map cos (tcol xs 2)); tscale dt (map sin (tcol xs 2)); z; o]].
Definition tf_nl_Fu (dt : R) (xs us : list vect) : list (list (list R)) :=
  let z := tzeros (tcol us 0) in
  let o := tscale dt (tones (tcol us 0)) in
  stack2 [stack1 [z; z; z; o]; stack1 [z; z; o; z]].

(** ** linear_model_np.py 182-208: the reference curve of LinearModel.getCLQT, its horizon, last reference and initial state *)
Definition cl_cx : list R := [57770/10000; -(26692/10000); 11187/10000; 1379/10000; 5718/10000; 11214/10000; 2998/10000; 3325/10000;
  7451/10000; 2117/10000; 6595/10000; 401/10000; -(2995/10000)].
Definition cl_cy : list R := [43266/10000; -(14584/10000); -(12457/10000); 11804/10000; 2035/10000; 5123/10000; 10588/10000; 2616/10000;
  -(6286/10000); -(3802/10000); 2750/10000; -(70/10000); -(22/10000)].
Definition np_wave (c : list R) (t : R) : R :=
  nth 0 c 0 +
  nth 1 c 0 * cos (2 * PI * t / 50) + nth 2 c 0 * sin (2 * PI * t / 50) +
  nth 3 c 0 * cos (4 * PI * t / 50) + nth 4 c 0 * sin (4 * PI * t / 50) +
  nth 5 c 0 * cos (6 * PI * t / 50) + nth 6 c 0 * sin (6 * PI * t / 50) +
  nth 7 c 0 * cos (8 * PI * t / 50) + nth 8 c 0 * sin (8 * PI * t / 50) +
  nth 9 c 0 * cos (10 * PI * t / 50) + nth 10 c 0 * sin (10 * PI * t / 50) +
  nth 11 c 0 * cos (12 * PI * t / 50) + nth 12 c 0 * sin (12 * PI * t / 50).
Definition np_cl_r (t : R) : list R := [np_wave cl_cx t; np_wave cl_cy t].
Definition cl_T : R := 50.
Definition cl_rT : list R := [49514/10000; 44353/10000; 0; 0].
(** linear_model_tf.py 44-67: the same, in TensorFlow *)
Definition tf_wave (c : list R) (t : R) : R :=
  let a := 2 * PI / 50 in
  nth 0 c 0 +
  nth 1 c 0 * cos (1 * a * t) + nth 2 c 0 * sin (1 * a * t) +
  nth 3 c 0 * cos (2 * a * t) + nth 4 c 0 * sin (2 * a * t) +
  nth 5 c 0 * cos (3 * a * t) + nth 6 c 0 * sin (3 * a * t) +
  nth 7 c 0 * cos (4 * a * t) + nth 8 c 0 * sin (4 * a * t) +
  nth 9 c 0 * cos (5 * a * t) + nth 10 c 0 * sin (5 * a * t) +
  nth 11 c 0 * cos (6 * a * t) + nth 12 c 0 * sin (6 * a * t).
Definition tf_cl_r (t : R) : list R := [tf_wave cl_cx t; tf_wave cl_cy t].

(** ** nonlinear_model_np.py 114-156: NonlinearModel.initialGuess.  The LQT object is given by what is read of it: [dims], the
    numbers of rows of F[k] and of columns of L[k], and the references r[k].  None is an IndexError. *)
Definition zeros (n : nat) : list R := repeat 0 n.
Definition guess_zero (dims : list (nat * nat)) (x0 : list R) : list (list R) * list (list R) :=
  (map (fun d => zeros (snd d)) dims, x0 :: map (fun d => zeros (fst d)) dims).
(** 140-154; count is the number of stages since the last jump *)
Fixpoint guess_loop (dt : R) (dims : list (nat * nat)) (rs : list (list R)) (k : nat) (cx cy cs : R) (count : nat) :
    option (list (list R) * list (list R)) :=
  match dims with
  | [] => Some ([], [])
  | d :: dims' =>
      do r <- nth_error rs k;
      do r0 <- nth_error r 0; do r1 <- nth_error r 1; do r2 <- nth_error r 2;
      do x <- upd (zeros (fst d)) 0 r0; do x <- upd x 1 r1; do x <- upd x 2 r2;
      let count := S count in
      let jump := if Rlt_dec (1 / 10) (Rabs (r0 - cx)) then if Rlt_dec (1 / 10) (Rabs (r1 - cy)) then true else false else false in
      let cs := if jump then sqrt ((r0 - cx) ^ 2 + (r1 - cy) ^ 2) / (INR count * dt) else cs in
      do x <- upd x 3 cs;
      do (us, xs) <- guess_loop dt dims' rs (S k) (if jump then r0 else cx) (if jump then r1 else cy) cs (if jump then O else count);
      Some (zeros (snd d) :: us, x :: xs)
  end.
Definition guess_ref (dt : R) (dims : list (nat * nat)) (rs : list (list R)) (x0 : list R) : option (list (list R) * list (list R)) :=
  do r <- nth_error rs 0; do cx <- nth_error r 0; do cy <- nth_error r 1;
  do (us, xs) <- guess_loop dt dims rs 0 cx cy 0 0;
  Some (us, x0 :: xs).
