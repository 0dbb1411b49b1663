(** Model of parallel_control/viterbi_np.py and of the direct recursions of viterbi_tf.py.

    A hidden Markov model is a prior (list), a transition table Pi and an output table Po (lists of rows).
    The algorithms use two operations on numbers: combining (product of probabilities, sum of negative
    logarithms) and choosing the better of two (larger probability, smaller negative logarithm).  They are
    written once over an [ordcost]; [Prob] below (non-negative reals, product, larger is better) gives
    ref_viterbi, [Rcost] (reals, sum, smaller is better) gives the logarithmic versions. *)
From Coq Require Import List Arith Bool Reals Lra Eqdep_dec.
From Verif Require Import ScanModel Ord FscModel TfScan.
Import ListNotations.

(** Non-negative reals under multiplication; "cleb a b" means that a is at least as large as b. *)
Record nnreal := NN { nnv : R; nn_pos : Rleb 0 nnv = true }.
Lemma nn_ext (a b : nnreal) : nnv a = nnv b -> a = b.
Proof. destruct a as [a ha], b as [b hb]; cbn. intros <-. f_equal. apply UIP_dec, bool_dec. Qed.
Lemma nn_nonneg (a : nnreal) : (0 <= nnv a)%R. Proof. apply Rleb_le, nn_pos. Qed.
Lemma nn_mul_pos (a b : nnreal) : Rleb 0 (nnv a * nnv b) = true.
Proof. apply Rleb_le, Rmult_le_pos; apply nn_nonneg. Qed.
Definition nn_mul (a b : nnreal) : nnreal := NN (nnv a * nnv b) (nn_mul_pos a b).
Lemma nn_one_pos : Rleb 0 1 = true. Proof. apply Rleb_le. lra. Qed.
Definition nn_one : nnreal := NN 1 nn_one_pos.
Definition Prob : ordcost.
Proof.
  refine (OrdCost nnreal nn_mul nn_one (fun a b => Rleb (nnv b) (nnv a)) _ _ _ _ _ _ _).
  - intros; apply nn_ext; cbn; ring.
  - intros; apply nn_ext; cbn; ring.
  - intros; apply nn_ext; cbn; ring.
  - intros. rewrite !Rleb_le. lra.
  - intros a b c. rewrite !Rleb_le. lra.
  - intros a b. rewrite !Rleb_le. intros. apply nn_ext. lra.
  - intros a b c. rewrite !Rleb_le. cbn. intros. apply Rmult_le_compat_l; [apply nn_nonneg|assumption].
Defined.

Section Gen.
Variable K : ordcost.
Implicit Types Pi Po : list (list K).
Implicit Types prior : list K.

(** psi = Po[:,y][None,:] * Pi; temp = psi * V[:,None]   (47-48, 85-86, 125-126; sums in the log versions) *)
Definition temp_table Pi Po (y : nat) (V : list K) : option (list (list K)) :=
  mapM (fun i => mapM (fun j => do o <- get2 Po j y; do p <- get2 Pi i j; do v <- nth_error V i;
                                Some (cadd (cadd o p) v)) (seq 0 (ncols Pi)))
       (seq 0 (length Pi)).
(** the columns of a table, for reductions along axis 0 *)
Definition columns {X} (M : list (list X)) : option (list (list X)) := mapM (column M) (seq 0 (ncols M)).

(** the forward loop (45-51, 83-89): V_list *)
Definition vit_values prior Pi Po (ys : list nat) : option (list (list K)) :=
  do s <- for_ ys (fun y s => let '(V, Vs) := s in
       do t <- temp_table Pi Po y V; do cs <- columns t; do V' <- mapM vmin cs;
       Some (V', Vs ++ [V'])) (prior, [prior]);
  Some (snd s).

(** viterbi_np.py 32-64: ref_viterbi.  Backtracking without the output probability. *)
Definition vit_ref prior Pi Po (ys : list nat) : option (list nat * list (list K)) :=
  do Vs <- vit_values prior Pi Po ys;
  do VT <- nth_error Vs (length ys); do xT <- argmin VT;
  do s <- for_ (rev (seq 0 (length ys)))
      (fun k s => let '(x, path) := s in
         do V <- nth_error Vs k; do c <- column Pi x; do w <- vadd c V; do x' <- argmin w;
         Some (x', x' :: path)) (xT, [xT]);
  Some (snd s, Vs).

(** viterbi_np.py 66-101: ref_viterbi_log.  Backtracking with the output probability. *)
Definition vit_log prior Pi Po (ys : list nat) : option (list nat * list (list K)) :=
  do Vs <- vit_values prior Pi Po ys;
  do VT <- nth_error Vs (length ys); do xT <- argmin VT;
  do s <- for_ (rev (seq 0 (length ys)))
      (fun k s => let '(x, path) := s in
         do y <- nth_error ys k; do V <- nth_error Vs k; do c <- column Pi x; do o <- get2 Po x y;
         do w <- vadd (map (cadd o) c) V; do x' <- argmin w;
         Some (x', x' :: path)) (xT, [xT]);
  Some (snd s, Vs).

(** viterbi_np.py 104-141: ref_viterbi_log_v2; viterbi_tf.py 233-271: viterbi_seq_forwardpass.
    Returns the tables of best predecessors and the values. *)
Definition vit_tables prior Pi Po (ys : list nat) : option (list (list nat) * list (list K)) :=
  do s <- for_ ys (fun y s => let '(V, us, Vs) := s in
       do t <- temp_table Pi Po y V; do cs <- columns t; do V' <- mapM vmin cs; do u <- mapM argmin cs;
       Some (V', us ++ [u], Vs ++ [V'])) (prior, [], [prior]);
  let '(_, us, Vs) := s in Some (us, Vs).
(** viterbi_np.py 134-139; viterbi_tf.py 273-294: viterbi_seq_backwardpass *)
Definition vit_back (us : list (list nat)) (VT : list K) : option (list nat) :=
  do xT <- argmin VT;
  do s <- for_ (rev (seq 0 (length us)))
      (fun k s => let '(x, path) := s in
         do u <- nth_error us k; do x' <- nth_error u x; Some (x', x' :: path)) (xT, [xT]);
  Some (snd s).
Definition vit_v2 prior Pi Po (ys : list nat) : option (list nat * list (list K)) :=
  do r <- vit_tables prior Pi Po ys; let '(us, Vs) := r in
  do VT <- nth_error Vs (length ys); do path <- vit_back us VT; Some (path, Vs).

(** ** viterbi_tf.py: parallel versions *)
(** 315-329: viterbi_par_forwardpass_init; the element of a measurement is -log Pi[i,j] - log Po[j,y] *)
Definition par_elem Pi Po (y : nat) : option (list (list K)) :=
  mapM (fun i => mapM (fun j => do p <- get2 Pi i j; do o <- get2 Po j y; Some (cadd p o)) (seq 0 (ncols Pi)))
       (seq 0 (length Pi)).
Definition par_forward_init prior Pi Po (ys : list nat) : option (list (list (list K))) :=
  do es <- mapM (par_elem Pi Po) ys; Some (repeat prior (length prior) :: es).
(** math.ceil(math.log2(max_parallel)) *)
Definition levels (max_parallel : nat) : nat := Nat.log2_up max_parallel.
(** 359-383: viterbi_par_forwardpass.  viterbi_par_comb_V (332-343) is combine_V of fsc_np. *)
Definition par_forward prior Pi Po (ys : list nat) (max_parallel : nat) : option (list (list nat) * list (list K)) :=
  do elems1 <- par_forward_init prior Pi Po ys;
  do elems2 <- tfp_scan_associative combine_V (levels max_parallel) elems1;
  do Vs <- mapM (fun e => nth_error e 0) elems2;
  do us <- mapM (fun k => do L <- nth_error elems1 (S k); do V <- nth_error Vs k;
       do Vus <- mapM (fun i => do row <- nth_error L i; do v <- nth_error V i; Some (map (fun l => cadd l v) row))
                      (seq 0 (length L));
       do cs <- columns Vus; mapM argmin cs) (seq 0 (length elems1 - 1));
  Some (us, Vs).
(** 386-399, 402-413: viterbi_par_comb_f(fij, fjk) = fjk[fij] *)
Definition par_back_init (us : list (list nat)) (VT : list K) : option (list (list nat)) :=
  do xT <- argmin VT; Some (us ++ [repeat xT (length VT)]).
(** 416-435: viterbi_par_backwardpass; the scan runs over the reversed list without swapping the operator *)
Definition par_backward (us : list (list nat)) (VT : list K) (max_parallel : nat) : option (list nat) :=
  do elems <- par_back_init us VT;
  do r <- tfp_scan_associative combine_f (levels max_parallel) (rev elems);
  mapM (fun e => nth_error e 0) (rev r).
(** 296-312: viterbi_seq_fwbw *)
Definition tf_seq_fwbw prior Pi Po (ys : list nat) : option (list nat * list (list K)) :=
  do r <- vit_tables prior Pi Po ys; let '(us, Vs) := r in
  do VT <- nth_error Vs (length Vs - 1); do path <- vit_back us VT; Some (path, Vs).
(** 438-454: viterbi_par_fwbw *)
Definition tf_par_fwbw prior Pi Po (ys : list nat) : option (list nat * list (list K)) :=
  do r <- par_forward prior Pi Po ys (length ys); let '(us, Vs) := r in
  do VT <- nth_error Vs (length Vs - 1); do path <- par_backward us VT (length ys); Some (path, Vs).
(** 457-473: viterbi_seqpar_fwbw *)
Definition tf_seqpar_fwbw prior Pi Po (ys : list nat) : option (list nat * list (list K)) :=
  do r <- vit_tables prior Pi Po ys; let '(us, Vs) := r in
  do VT <- nth_error Vs (length Vs - 1); do path <- par_backward us VT (length ys); Some (path, Vs).
(** 476-522: viterbi_par_bwfwpass; the last element is a table of zeros *)
Definition par_bwfw prior Pi Po (ys : list nat) (Vs : list (list K)) (max_parallel : nat) : option (list nat * list (list K)) :=
  do es <- mapM (par_elem Pi Po) ys;
  let elems := es ++ [repeat (repeat czero (length prior)) (length prior)] in
  do r <- tfp_scan_associative (fun Vjk Vij => combine_V Vij Vjk) (levels max_parallel) (rev elems);
  do Vfs <- mapM (fun e => column e 0) (rev r);
  do xs <- mapM (fun k => do Vf <- nth_error Vfs k; do V <- nth_error Vs k; do w <- vadd Vf V; argmin w) (seq 0 (length Vfs));
  Some (xs, Vfs).
(** 525-541: viterbi_par_fwbwfw *)
Definition tf_par_fwbwfw prior Pi Po (ys : list nat) : option (list nat * list (list K)) :=
  do r <- par_forward prior Pi Po ys (length ys); let '(_, Vs) := r in
  do s <- par_bwfw prior Pi Po ys Vs (length ys); let '(xs, _) := s in Some (xs, Vs).
End Gen.
Arguments temp_table {K}. Arguments vit_values {K}. Arguments vit_ref {K}. Arguments vit_log {K}. Arguments vit_tables {K}.
Arguments vit_back {K}. Arguments vit_v2 {K}. Arguments par_elem {K}. Arguments par_forward {K}. Arguments par_forward_init {K}.
Arguments par_back_init {K}. Arguments par_backward {K}. Arguments tf_seq_fwbw {K}. Arguments tf_par_fwbw {K}.
Arguments tf_seqpar_fwbw {K}. Arguments par_bwfw {K}. Arguments tf_par_fwbwfw {K}.

(** ** viterbi_np.py on numbers *)
Definition nl (x : R) : Rcost := (- ln x)%R.
Section Np.
Implicit Types prior : list R.
Implicit Types Pi Po : list (list R).
Definition ref_viterbi (prior : list Prob) (Pi Po : list (list Prob)) (ys : list nat) := vit_ref prior Pi Po ys.
Definition ref_viterbi_log prior Pi Po (ys : list nat) := vit_log (map nl prior) (map (map nl) Pi) (map (map nl) Po) ys.
Definition ref_viterbi_log_v2 prior Pi Po (ys : list nat) := vit_v2 (map nl prior) (map (map nl) Pi) (map (map nl) Po) ys.

(** 144-164: getFSC.  f[x,u] = u; L[x,u] = -log(Pi[u,x] Po[x,y]); the measurements are taken in reverse. *)
Definition fsc_L Pi Po (n y : nat) : option (list (list Rcost)) :=
  mapM (fun x => mapM (fun u => do p <- get2 Pi u x; do o <- get2 Po x y; Some (nl (p * o))) (seq 0 n)) (seq 0 n).
Definition getFSC prior Pi Po (ys : list nat) : option (fsc Rcost) :=
  let n := length prior in
  do Ls <- mapM (fsc_L Pi Po n) (rev ys);
  checkAndExpand (K := Rcost) 1%R (Many (repeat (Arr n n (repeat (seq 0 n) n)) (length ys)))
    (Many (map (fun L => Arr n n L) Ls)) (Some (map nl prior)) None.
(** 185-204: seqViterbi; fscToViterbi (167-182) reverses both lists *)
Definition seqViterbi prior Pi Po (ys : list nat) : option (list nat * list (list Rcost)) :=
  do P <- getFSC prior Pi Po ys;
  do r <- seqBackwardPass P; let '(us, Vs) := r in
  do V0 <- nth_error Vs 0; do x0 <- argmin V0;
  do s <- seqForwardPass P x0 us; let '(_, xs) := s in Some (rev xs, rev Vs).
(** the constant _FSC_NP_INFTY of fsc_np.py *)
Definition infty : Rcost := (10 ^ 20)%R.
(** 206-225: parBwdFwdViterbi *)
Definition parBwdFwdViterbi prior Pi Po (ys : list nat) : option (list nat * list (list Rcost)) :=
  do P <- getFSC prior Pi Po ys;
  do r <- parBackwardPass infty P; let '(us, Vs) := r in
  do V0 <- nth_error Vs 0; do x0 <- argmin V0;
  do s <- parForwardPass P x0 us; let '(_, xs) := s in Some (rev xs, rev Vs).
(** 227-249: parBwdFwdBwdViterbi *)
Definition parBwdFwdBwdViterbi prior Pi Po (ys : list nat) : option (list nat * list (list Rcost)) :=
  do P <- getFSC prior Pi Po ys;
  do r <- parBackwardPass infty P; let '(us, Vs) := r in
  do V0 <- nth_error Vs 0; do x0 <- argmin V0;
  do s <- parFwdBwdPass infty P x0 us Vs; let '(_, xs) := s in Some (rev xs, rev Vs).

(** viterbi_tf.py 296-541 on numbers *)
Definition logs prior Pi Po {A} (g : list Rcost -> list (list Rcost) -> list (list Rcost) -> A) : A :=
  g (map nl prior) (map (map nl) Pi) (map (map nl) Po).
Definition viterbi_seq_fwbw prior Pi Po ys := logs prior Pi Po tf_seq_fwbw ys.
Definition viterbi_par_fwbw prior Pi Po ys := logs prior Pi Po tf_par_fwbw ys.
Definition viterbi_seqpar_fwbw prior Pi Po ys := logs prior Pi Po tf_seqpar_fwbw ys.
Definition viterbi_par_fwbwfw prior Pi Po ys := logs prior Pi Po tf_par_fwbwfw ys.
End Np.
