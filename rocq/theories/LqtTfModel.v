(** Model of parallel_control/lqt_tf.py.

    The batched tensors Fs, cs, Ls, Hs, rs, Xs, Us, all of leading dimension T, are one list of records; the
    output dimension p is the same for every step ("We only support constant dimensional Hs, Xs, and rs").
    tf.scan is a fold, tfp.math.scan_associative is [tfp_scan_associative] of TfScan.v.
    tf.linalg.cholesky reads the lower triangle and raises unless the pivots are positive; tf.linalg.solve,
    lu and lu_solve raise on a singular matrix. *)
From mathcomp Require Import all_ssreflect all_algebra.
From Verif Require Import ScanModel TfScan MxBase LqtModel.
Import Order.TTheory GRing.Theory Num.Theory.
Set Implicit Arguments. Unset Strict Implicit. Unset Printing Implicit Defensive.
Local Open Scope ring_scope.

Section Tf.
Variable R : realFieldType.
Variables n m p : nat.

(** CF = tf.linalg.cholesky(A); tf.linalg.cholesky_solve(CF, B) *)
Definition chol_solve k q (A : 'M[R]_k) (B : 'M[R]_(k, q)) : option 'M[R]_(k, q) := solve_pos A^T B.

Record cstage := CStage { cF : 'M[R]_n; cc : 'cV[R]_n; cL : 'M[R]_(n, m); cH : 'M[R]_(p, n); cr : 'cV[R]_p;
                          cX : 'M[R]_p; cU : 'M[R]_m }.
Record cfinal := CFinal { cHT : 'M[R]_(p, n); crT : 'cV[R]_p; cXT : 'M[R]_p }.

(** lqt_tf.py 32-60: lqt_np_to_tf; Z, s and M of the LQT object are not converted *)
Definition lqt_np_to_tf (sts : seq (stage R n m p)) : seq cstage :=
  [seq CStage (sF s) (scc s) (sL s) (sH s) (sr s) (sX s) (sU s) | s <- sts].

(** lqt_tf.py 138-139 *)
Definition tf_vT (f : cfinal) : 'cV[R]_n := (cHT f)^T *m (cXT f *m crT f).
Definition tf_ST (f : cfinal) : 'M[R]_n := (cHT f)^T *m (cXT f *m cHT f).

(** lqt_tf.py 128-131 (323-326): gain and offset *)
Definition tf_gain (s : cstage) (Sv : 'M[R]_n) (v : 'cV[R]_n) : option ('M[R]_(m, n) * 'cV[R]_m) :=
  let W := cU s + (cL s)^T *m Sv *m cL s in
  let? K := chol_solve W ((cL s)^T *m Sv *m cF s) in
  let? d := chol_solve W ((cL s)^T *m (v - Sv *m cc s)) in
  Some (K, d).

(** lqt_tf.py 103-152: lqt_seq_backwardpass; returns Ss, vs, Kxs, ds *)
Definition tf_bwd_body (s : cstage)
    (acc : option ('M[R]_n * 'cV[R]_n * (seq 'M[R]_n * seq 'cV[R]_n * seq 'M[R]_(m, n) * seq 'cV[R]_m))) :=
  let? '(Sv, v, (Ss, vs, Ks, ds)) := acc in
  let? '(K, d) := tf_gain s Sv v in
  let v' := (cH s)^T *m (cX s *m cr s) + (cF s - cL s *m K)^T *m (v - Sv *m cc s) in
  let Sv' := (cF s)^T *m (Sv *m (cF s - cL s *m K)) + (cH s)^T *m (cX s *m cH s) in
  Some (Sv', v', (Sv' :: Ss, v' :: vs, K :: Ks, d :: ds)).
Definition lqt_seq_backwardpass (sts : seq cstage) (f : cfinal) :=
  let? '(_, _, (Ss, vs, Ks, ds)) := foldr tf_bwd_body (Some (tf_ST f, tf_vT f, ([::], [::], [::], [::]))) sts in
  Some (Ss ++ [:: tf_ST f], vs ++ [:: tf_vT f], Ks, ds).

(** lqt_tf.py 155-197: lqt_seq_forwardpass; Ls[0,0,:] raises without steps *)
Fixpoint tf_fwd (sts : seq cstage) (Ks : seq 'M[R]_(m, n)) (ds : seq 'cV[R]_m) (x : 'cV[R]_n) :
    option (seq 'cV[R]_n * seq 'cV[R]_m) :=
  match sts, Ks, ds with
  | [::], [::], [::] => Some ([::], [::])
  | s :: sts', K :: Ks', d :: ds' =>
      let u := - (K *m x) + d in
      let x' := cF s *m x + cc s + cL s *m u in
      let? '(xs, us) := tf_fwd sts' Ks' ds' x' in Some (x' :: xs, u :: us)
  | _, _, _ => None
  end.
Definition lqt_seq_forwardpass (x0 : 'cV[R]_n) (sts : seq cstage) Ks ds :=
  if sts is [::] then None else let? '(xs, us) := tf_fwd sts Ks ds x0 in Some (x0 :: xs, us).

(** lqt_tf.py 203-228 and 405-426: lqt_par_backwardpass_init_most, lqt_par_fwdbwdpass_init_most, per step *)
Definition tf_elem (s : cstage) : option (elem R n) :=
  let? c := solve (cU s) (cL s)^T in
  Some (Elem (cF s) (cc s) (cL s *m c) ((cH s)^T *m (cX s *m cr s)) ((cH s)^T *m (cX s *m cH s))).
(** lqt_tf.py 230-252: lqt_par_backwardpass_init_last *)
Definition tf_elem_last (f : cfinal) : elem R n := Elem 0 0 0 (tf_vT f) (tf_ST f).

(** lqt_tf.py 254-277: lqt_par_comb_V *)
Definition lqt_par_comb_V (e f : elem R n) : option (elem R n) :=
  let LU := 1%:M + eC e *m eJ f in
  let? x1 := solve LU (eA e) in
  let? x2 := solve LU (eb e + eC e *m eeta f) in
  let? x3 := solve LU (eC e *m (eA f)^T) in
  let LU' := 1%:M + eJ f *m eC e in
  let? y1 := solve LU' (eeta f - eJ f *m eb e) in
  let? y2 := solve LU' (eJ f *m eA e) in
  Some (Elem (eA f *m x1) (eA f *m x2 + eb f) (eA f *m x3 + eC f)
             ((eA e)^T *m y1 + eeta e) ((eA e)^T *m y2 + eJ e)).

(** lqt_tf.py 323-326: batched over all steps *)
Fixpoint tf_gains (sts : seq cstage) (Ss : seq 'M[R]_n) (vs : seq 'cV[R]_n) : option (seq 'M[R]_(m, n) * seq 'cV[R]_m) :=
  match sts, Ss, vs with
  | [::], [::], [::] => Some ([::], [::])
  | s :: sts', Sv :: Ss', v :: vs' =>
      let? '(K, d) := tf_gain s Sv v in let? '(Ks, ds) := tf_gains sts' Ss' vs' in Some (K :: Ks, d :: ds)
  | _, _, _ => None
  end.
(** lqt_tf.py 292-335: lqt_par_backwardpass *)
Definition lqt_par_backwardpass (sts : seq cstage) (f : cfinal) (max_parallel : nat) :=
  let? em := omap_seq tf_elem sts in
  let? es := tfp_scan_rev lqt_par_comb_V max_parallel (em ++ [:: tf_elem_last f]) in
  let vs := [seq eeta e | e <- es] in
  let Ss := [seq eJ e | e <- es] in
  let? '(Ks, ds) := tf_gains sts (behead Ss) (behead vs) in
  Some (Ss, vs, Ks, ds).

(** lqt_tf.py 341-379 *)
Definition lqt_par_comb_f (x y : 'M[R]_n * 'cV[R]_n) : 'M[R]_n * 'cV[R]_n := (y.1 *m x.1, y.1 *m x.2 + y.2).
Fixpoint tf_fwd_most (sts : seq cstage) (Ks : seq 'M[R]_(m, n)) (ds : seq 'cV[R]_m) : option (seq ('M[R]_n * 'cV[R]_n)) :=
  match sts, Ks, ds with
  | [::], [::], [::] => Some [::]
  | s :: sts', K :: Ks', d :: ds' =>
      let? es := tf_fwd_most sts' Ks' ds' in Some ((cF s - cL s *m K, cc s + cL s *m d) :: es)
  | _, _, _ => None
  end.
(** us = -mv(Kxs, xs[:-1,...]) + ds *)
Fixpoint tf_controls (Ks : seq 'M[R]_(m, n)) (xs : seq 'cV[R]_n) (ds : seq 'cV[R]_m) : option (seq 'cV[R]_m) :=
  match Ks, xs, ds with
  | [::], [:: _], [::] => Some [::]
  | K :: Ks', x :: xs', d :: ds' => let? us := tf_controls Ks' xs' ds' in Some (- (K *m x) + d :: us)
  | _, _, _ => None
  end.
(** lqt_tf.py 381-412: lqt_par_forwardpass *)
Definition lqt_par_forwardpass (x0 : 'cV[R]_n) (sts : seq cstage) (Ks : seq 'M[R]_(m, n)) (ds : seq 'cV[R]_m) (max_parallel : nat) :=
  match sts, Ks, ds with
  | s :: sts', K :: Ks', d :: ds' =>
      let? em := tf_fwd_most sts' Ks' ds' in
      let e0 := (0, (cF s - cL s *m K) *m x0 + cc s + cL s *m d) in
      let? es := tfp_scan_associative (fun x y => Some (lqt_par_comb_f x y)) (num_levels max_parallel) (e0 :: em) in
      let xs := x0 :: [seq e.2 | e <- es] in
      let? us := tf_controls Ks xs ds in
      Some (xs, us)
  | _, _, _ => None
  end.

(** lqt_tf.py 431-518: lqt_par_fwdbwdpass *)
Fixpoint tf_fb_states (es : seq (elem R n)) (Ss : seq 'M[R]_n) (vs : seq 'cV[R]_n) : option (seq 'cV[R]_n) :=
  match es, Ss, vs with
  | [::], [::], [::] => Some [::]
  | e :: es', Sv :: Ss', v :: vs' =>
      let? x := solve (1%:M + eC e *m Sv) (eb e + eC e *m v) in
      let? xs := tf_fb_states es' Ss' vs' in Some (x :: xs)
  | _, _, _ => None
  end.
Definition lqt_par_fwdbwdpass (x0 : 'cV[R]_n) (sts : seq cstage) Ss vs (Ks : seq 'M[R]_(m, n)) (ds : seq 'cV[R]_m) (max_parallel : nat) :=
  let? em := omap_seq tf_elem sts in
  let? es := tfp_scan_associative lqt_par_comb_V (num_levels max_parallel) (Elem 0 x0 0 0 0 :: em) in
  let? xs := tf_fb_states es Ss vs in
  let? us := tf_controls Ks xs ds in
  Some (xs, us).

(** lqt_tf.py 524-546: lqt_cost; tf.reduce_sum(mv(X, d) * d) is the sum of all entries over all steps *)
Fixpoint tf_run (sts : seq cstage) (xs : seq 'cV[R]_n) (us : seq 'cV[R]_m) : option (R * R) :=
  match sts, xs, us with
  | [::], [:: _], [::] => Some (0, 0)
  | s :: sts', x :: xs', u :: us' =>
      let? '(a, b) := tf_run sts' xs' us' in
      let dr := cH s *m x - cr s in
      Some (\sum_i (cX s *m dr) i 0 * dr i 0 + a, \sum_i (cU s *m u) i 0 * u i 0 + b)
  | _, _, _ => None
  end.
Definition tf_lqt_cost (xs : seq 'cV[R]_n) (us : seq 'cV[R]_m) (sts : seq cstage) (f : cfinal) : option R :=
  match xs with
  | [::] => None
  | x :: t =>
      let drT := cHT f *m last x t - crT f in
      let? '(a, b) := tf_run sts xs us in
      Some (2%:R^-1 * (\sum_i (cXT f *m drT) i 0 * drT i 0) + 2%:R^-1 * a + 2%:R^-1 * b)
  end.

(** lqt_tf.py 553-578: lqt_gen_to_canon, per step (all steps must be factorisable).  The general form has no Z:
    lqt_np_to_tf_gen (62-97) does not convert it. *)
Definition lqt_gen_to_canon1 (s : stage R n m p) : option cstage :=
  let? a := chol_solve (sU s) ((sM s)^T *m sH s) in
  let? tmp := chol_solve (sU s) ((sM s)^T *m sr s) in
  let? b := chol_solve (sU s) (sM s)^T in
  Some (CStage (sF s - sL s *m a) (scc s + sL s *m (tmp + ss s)) (sL s) (sH s) (sr s) (sX s - sM s *m b) (sU s)).
Definition lqt_gen_to_canon (sts : seq (stage R n m p)) := omap_seq lqt_gen_to_canon1 sts.
(** lqt_tf.py 581-602: lqt_canon_to_gen *)
Fixpoint lqt_canon_to_gen (Ks : seq 'M[R]_(m, n)) (ds : seq 'cV[R]_m) (sts : seq (stage R n m p)) :=
  match Ks, ds, sts with
  | [::], [::], [::] => Some ([::], [::])
  | K :: Ks', d :: ds', s :: sts' =>
      let? a := chol_solve (sU s) ((sM s)^T *m sH s) in
      let? tmp := chol_solve (sU s) ((sM s)^T *m sr s) in
      let? '(Ks'', ds'') := lqt_canon_to_gen Ks' ds' sts' in
      Some (K + a :: Ks'', d + tmp + ss s :: ds'')
  | _, _, _ => None
  end.
End Tf.
