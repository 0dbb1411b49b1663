(** Model of parallel_control/fsc_tf.py (finite-state control in TensorFlow) and of the first half of
    viterbi_tf.py (maximum a posteriori estimation through it).

    Tensors of rank 3 are lists of tables; numbers as in FscModel.v.  Indices are naturals; tf.gather and
    tf.tensor_scatter_nd_update raise on an index outside the tensor (None), and so does any operation on tensors
    of unequal shape.  tf.argmin returns the first smallest entry.  fsc_np_to_tf (17-32) stacks the lists of the
    NumPy object and changes nothing else; it is not modelled.  An empty horizon is not modelled. *)
From Coq Require Import List Arith Bool Reals.
From Verif Require Import ScanModel Ord FscModel TfScan VitModel.
Import ListNotations.

(** one pass over two stacked tensors; unequal lengths raise *)
Fixpoint map2M {A B C} (g : A -> B -> option C) (l1 : list A) (l2 : list B) : option (list C) :=
  match l1, l2 with
  | [], [] => Some []
  | a :: l1', b :: l2' => do c <- g a b; do r <- map2M g l1' l2'; Some (c :: r)
  | _, _ => None
  end.

(** tf.scan over two stacked tensors; [carry] after every step, in order *)
Fixpoint tf_scan {A B C} (body : C -> A -> B -> option C) (carry : C) (l1 : list A) (l2 : list B) : option (list C) :=
  match l1, l2 with
  | [], [] => Some []
  | a :: l1', b :: l2' => do c <- body carry a b; do r <- tf_scan body c l1' l2'; Some (c :: r)
  | _, _ => None
  end.
(** reverse=True: runs from the last step to the first and returns the results in the order of the steps *)
Definition tf_scan_reverse {A B C} (body : C -> A -> B -> option C) (carry : C) (l1 : list A) (l2 : list B) : option (list C) :=
  do r <- tf_scan body carry (rev l1) (rev l2); Some (rev r).

Section FscTf.
Variable K : ordcost.
Variable infty : K.

(** tf.gather_nd(V, tf.expand_dims(f, -1)) *)
Definition gather {X} (V : list X) (f : list (list nat)) : option (list (list X)) := mapM (mapM (nth_error V)) f.
(** L + tf.gather_nd(V, ..) *)
Definition tf_vu (V : list K) (f : list (list nat)) (L : list (list K)) : option (list (list K)) :=
  do g <- gather V f; map2M vadd L g.

(** fsc_tf.py 39-70: fsc_seq_backwardpass *)
Definition fsc_seq_backwardpass (fs : list (list (list nat))) (Ls : list (list (list K))) (LT : list K) : option (list (list nat) * list (list K)) :=
  do f0 <- nth_error fs 0;
  do r <- tf_scan_reverse
      (fun c f L => do Vu <- tf_vu (fst c) f L; do u <- mapM argmin Vu; do V <- mapM vmin Vu; Some (V, u))
      (LT, repeat 0 (length f0)) fs Ls;
  Some (map snd r, map fst r ++ [LT]).

(** fsc_tf.py 72-99: fsc_seq_forwardpass; states first *)
Definition fsc_seq_forwardpass (x0 : nat) (fs : list (list (list nat))) (us : list (list nat)) : option (list nat * list nat) :=
  do _ <- nth_error fs 0;
  do r <- tf_scan (fun c f u => do mu <- nth_error u (fst c); do mx <- get2 f (fst c) mu; Some (mx, mu)) (x0, 0) fs us;
  Some (x0 :: map fst r, map snd r).

(** fsc_tf.py 106-133: fsc_par_backwardpass_init_most, for one stage: Vu[x,u,:] is the constant except at f[x,u];
    minimum over u.  nx is the number of states *)
Definition tf_elem (nx : nat) (f : list (list nat)) (L : list (list K)) : option (list (list K)) :=
  map2M (fun fx Lx =>
    do Vu <- map2M (fun xp l => upd (repeat infty nx) xp l) fx Lx;
    mapM (fun xp => do c <- column Vu xp; vmin c) (seq 0 nx)) f L.
Definition init_most (fs : list (list (list nat))) (Ls : list (list (list K))) : option (list (list (list K))) :=
  do f0 <- nth_error fs 0; map2M (tf_elem (length f0)) fs Ls.
(** 135-145: fsc_par_backwardpass_init_last *)
Definition init_last (LT : list K) : list (list K) := map (fun v => repeat v (length LT)) LT.

(** 173-202: fsc_par_backwardpass.  fsc_par_comb_V (147-158) is combine_V of fsc_np; [levels] is
    math.ceil(math.log2(max_parallel)) *)
Definition fsc_par_backwardpass (fs : list (list (list nat))) (Ls : list (list (list K))) (LT : list K) (max_parallel : nat) : option (list (list nat) * list (list K)) :=
  do most <- init_most fs Ls;
  do r <- tfp_scan_associative (fun Vjk Vij => combine_V Vij Vjk) (levels max_parallel) (rev (most ++ [init_last LT]));
  do Vs <- mapM (fun e => column e 0) (rev r);
  do g <- map2M gather (tl Vs) fs;
  do Vus <- map2M (map2M vadd) Ls g;
  do us <- mapM (mapM argmin) Vus;
  Some (us, Vs).

(** 208-219: fsc_par_forwardpass_init_first *)
Definition fwd_init_first (x0 nx : nat) : list nat := repeat x0 nx.
(** 221-239: fsc_par_forwardpass_init_most, es[k][x] = fs[k][x][us[k][x]] for x < nx *)
Definition fwd_init_most (fs : list (list (list nat))) (us : list (list nat)) : option (list (list nat)) :=
  do f0 <- nth_error fs 0;
  map2M (fun f u => mapM (fun x => do ux <- nth_error u x; get2 f x ux) (seq 0 (length f0))) fs us.
(** tf.gather(us, min_xs[:-1], axis=-1, batch_dims=1) *)
Definition pick_controls (us : list (list nat)) (xs : list nat) : option (list nat) := map2M (fun u x => nth_error u x) us (removelast xs).
(** 254-282: fsc_par_forwardpass; controls first.  fsc_par_comb_f (241-252) is combine_f of fsc_np *)
Definition fsc_par_forwardpass (x0 : nat) (fs : list (list (list nat))) (us : list (list nat)) (max_parallel : nat) : option (list nat * list nat) :=
  do f0 <- nth_error fs 0;
  do most <- fwd_init_most fs us;
  do r <- tfp_scan_associative combine_f (levels max_parallel) (fwd_init_first x0 (length f0) :: most);
  do xs <- mapM (fun e => nth_error e 0) r;
  do mus <- pick_controls us xs;
  Some (mus, xs).

(** 288-306: fsc_par_fwdbwdpass_init_first *)
Definition fb_init_first (x0 : nat) (L0 : list (list K)) : option (list (list K)) :=
  mapM (fun _ => upd (repeat infty (length L0)) x0 czero) (seq 0 (length L0)).
(** 308-352: fsc_par_fwdbwdpass; init_most (308-319) is the one of the backward pass *)
Definition fsc_par_fwdbwdpass (x0 : nat) (fs : list (list (list nat))) (Ls : list (list (list K))) (us : list (list nat)) (Vs : list (list K)) (max_parallel : nat) : option (list nat * list nat) :=
  do L0 <- nth_error Ls 0;
  do first <- fb_init_first x0 L0;
  do most <- init_most fs Ls;
  do r <- tfp_scan_associative combine_V (levels max_parallel) (first :: most);
  do Vfs <- mapM (fun e => nth_error e 0) r;
  do sums <- map2M vadd Vfs Vs;
  do xs <- mapM argmin sums;
  do mus <- pick_controls us xs;
  Some (mus, xs).

(** ** viterbi_tf.py 48-63: get_viterbi_from_fsc *)
Definition get_viterbi_from_fsc (xs : list nat) (Vs : list (list K)) := (rev xs, rev Vs).
(** 69-85: viterbi_fsc_seq_bwfw *)
Definition viterbi_fsc_seq_bwfw (fs : list (list (list nat))) (Ls : list (list (list K))) (LT : list K) : option (list nat * list (list K)) :=
  do r <- fsc_seq_backwardpass fs Ls LT; let '(us, Vs) := r in
  do V0 <- nth_error Vs 0; do x0 <- argmin V0;
  do s <- fsc_seq_forwardpass x0 fs us; let '(xs, _) := s in
  Some (get_viterbi_from_fsc xs Vs).
(** 87-103: viterbi_fsc_par_bwfw *)
Definition viterbi_fsc_par_bwfw (fs : list (list (list nat))) (Ls : list (list (list K))) (LT : list K) : option (list nat * list (list K)) :=
  do r <- fsc_par_backwardpass fs Ls LT (length fs); let '(us, Vs) := r in
  do V0 <- nth_error Vs 0; do x0 <- argmin V0;
  do s <- fsc_par_forwardpass x0 fs us (length fs); let '(_, xs) := s in
  Some (get_viterbi_from_fsc xs Vs).
(** 105-122: viterbi_fsc_par_bwfwbw *)
Definition viterbi_fsc_par_bwfwbw (fs : list (list (list nat))) (Ls : list (list (list K))) (LT : list K) : option (list nat * list (list K)) :=
  do r <- fsc_par_backwardpass fs Ls LT (length fs); let '(us, Vs) := r in
  do V0 <- nth_error Vs 0; do x0 <- argmin V0;
  do s <- fsc_par_fwdbwdpass x0 fs Ls us Vs (length fs); let '(_, xs) := s in
  Some (get_viterbi_from_fsc xs Vs).
End FscTf.
Arguments tf_vu {K}. Arguments fsc_seq_backwardpass {K}. Arguments tf_elem {K}. Arguments init_most {K}. Arguments init_last {K}.
Arguments fsc_par_backwardpass {K}. Arguments fb_init_first {K}. Arguments fsc_par_fwdbwdpass {K}.
Arguments get_viterbi_from_fsc {K}. Arguments viterbi_fsc_seq_bwfw {K}. Arguments viterbi_fsc_par_bwfw {K}. Arguments viterbi_fsc_par_bwfwbw {K}.

(** viterbi_tf.py 25-46: make_viterbi_fsc *)
Definition make_viterbi_fsc (prior : list R) (Pi Po : list (list R)) (ys : list nat) :
    option (list (list (list nat)) * list (list (list Rcost)) * list Rcost) :=
  do P <- getFSC prior Pi Po ys; Some (ff P, fL P, fLT P).
