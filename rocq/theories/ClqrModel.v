(** Model of the class CLQR of parallel_control/clqt_np.py over an arbitrary real field (exact arithmetic).

    State dimension [n], control dimension [m].  NumPy vectors are columns.  None is a raised exception.  An optional
    argument left out is None too.  scipy's linalg.expm is a parameter. *)
From mathcomp Require Import all_ssreflect all_algebra.
From Verif Require Import ScanModel MxBase LqtModel Rk4Model ClqtModel LinModModel.
Import Order.TTheory GRing.Theory Num.Theory.
Set Implicit Arguments. Unset Strict Implicit. Unset Printing Implicit Defensive.
Local Open Scope ring_scope.

(** the argument method: 'rk4', 'exact' or another string *)
Inductive method := Rk4 | Exact | Unknown.

Section Clqr.
Variable R : realFieldType.
Variable expm : forall n, 'M[R]_n -> 'M[R]_n.
Variables n m : nat.

(** clqt_np.py 163-179 *)
Record clqr := Clqr { qF : 'M[R]_n; qL : 'M[R]_(n, m); qX : 'M[R]_n; qU : 'M[R]_m; qXT : 'M[R]_n; qT : R }.
Variable q : clqr.
Local Notation elem := (elem R n).

(** linalg.solve(self.U, self.L.T, assume_a='pos'): lines 214, 326, 427, 452 *)
Definition qULT : option 'M[R]_(m, n) := solve_pos (qU q) (qL q)^T.
(** default dt: self.T / k1 / k2 ..., raising for a zero divisor *)
Definition qdt_or (dt : option R) (ks : seq nat) : option R := if dt is Some h then Some h else div_nats (qT q) ks.

(** clqt_np.py 220: the right-hand side of the Riccati equation *)
Definition qriccati (LULT Q : 'M[R]_n) : 'M[R]_n := - (qF q)^T *m Q - Q *m qF q + Q *m LULT *m Q - qX q.
(** clqt_np.py 217-224: the loop with method 'rk4'; appending and reversing at the end is consing *)
Fixpoint qbwd_rk4 (ult : 'M[R]_(m, n)) (dt : R) (k : nat) (Q : 'M[R]_n) (acc : seq 'M[R]_(m, n) * seq 'M[R]_n) :
    option (seq 'M[R]_(m, n) * seq 'M[R]_n) :=
  match k with
  | 0%N => Some acc
  | k'.+1 =>
      let? Q' := rk4_x (V := matrix_lmodType R n n) (fun Q => Some (qriccati (qL q *m ult) Q)) (- dt) Q in
      let Q' := symz Q' in
      qbwd_rk4 ult dt k' Q' (ult *m Q' :: acc.1, Q' :: acc.2)
  end.
(** clqt_np.py 237-238: H *)
Definition qham (LULT : 'M[R]_n) : 'M[R]_(n + n) := block_mx (qF q) (- LULT) (- qX q) (- (qF q)^T).
(** clqt_np.py 241-247: the loop with method 'exact'; solve(a, b, transposed=True) solves a.T x = b *)
Fixpoint qbwd_exact (ult : 'M[R]_(m, n)) (Psi : 'M[R]_(n + n)) (k : nat) (CD : 'M[R]_(n + n, n)) (acc : seq 'M[R]_(m, n) * seq 'M[R]_n) :
    option (seq 'M[R]_(m, n) * seq 'M[R]_n) :=
  match k with
  | 0%N => Some acc
  | k'.+1 =>
      let CD' := Psi *m CD in
      let? Q' := solve (usubmx CD')^T (dsubmx CD')^T in
      let Q' := symz Q' in
      qbwd_exact ult Psi k' CD' (ult *m Q' :: acc.1, Q' :: acc.2)
  end.
(** clqt_np.py 185-255: seqBackwardPass; returns Kx_list, S_list *)
Definition clqr_seqBackwardPass (steps : nat) (dt : option R) (Q : option 'M[R]_n) (meth : method) : option (seq 'M[R]_(m, n) * seq 'M[R]_n) :=
  let Q := or_else Q (qXT q) in
  let? dt := qdt_or dt [:: steps] in
  let? ult := qULT in
  match meth with
  | Rk4 => qbwd_rk4 ult dt steps Q ([::], [:: Q])
  | Exact => qbwd_exact ult (expm (- dt *: qham (qL q *m ult))) steps (col_mx 1%:M Q) ([::], [:: Q])
  | Unknown => None
  end.

(** clqt_np.py 287-295, 297-307: the loops over Kx_list; [step K u x] is the next state *)
Fixpoint qfwd_loop (step : 'M[R]_(m, n) -> 'cV[R]_m -> 'cV[R]_n -> option 'cV[R]_n) (Ks : seq 'M[R]_(m, n)) (x : 'cV[R]_n) :
    option (seq 'cV[R]_m * seq 'cV[R]_n) :=
  match Ks with
  | [::] => Some ([::], [::])
  | K :: Ks' =>
      let u := - K *m x in
      let? x' := step K u x in
      let? '(us, xs) := qfwd_loop step Ks' x' in Some (u :: us, x' :: xs)
  end.
(** clqt_np.py 289-293 *)
Definition qfwd_rk4 (dt : R) (zoh : bool) (K : 'M[R]_(m, n)) (u : 'cV[R]_m) (x : 'cV[R]_n) : option 'cV[R]_n :=
  rk4_x (V := matrix_lmodType R n 1)
    (if zoh then fun x => Some (qF q *m x + qL q *m u) else fun x => Some ((qF q - qL q *m K) *m x)) dt x.
(** clqt_np.py 299-305; A, B = disc.lti_disc_u(self.F, self.L, self.L, dt=dt) *)
Definition qfwd_exact (dt : R) (zoh : bool) (K : 'M[R]_(m, n)) (u : 'cV[R]_m) (x : 'cV[R]_n) : option 'cV[R]_n :=
  let: (A, B, _) := lti_disc_u expm (qF q) (qL q) (qL q) None dt in
  if zoh then Some (A *m x + B *m u) else Some (expm (dt *: (qF q - qL q *m K)) *m x).
(** clqt_np.py 257-314: seqForwardPass; returns u_list, x_list *)
Definition clqr_seqForwardPass (x0 : 'cV[R]_n) (Ks : seq 'M[R]_(m, n)) (dt : option R) (meth : method) (zoh : bool) :
    option (seq 'cV[R]_m * seq 'cV[R]_n) :=
  let? dt := qdt_or dt [:: size Ks] in
  match meth with
  | Rk4 => let? '(us, xs) := qfwd_loop (qfwd_rk4 dt zoh) Ks x0 in Some (us, x0 :: xs)
  | Exact => let? '(us, xs) := qfwd_loop (qfwd_exact dt zoh) Ks x0 in Some (us, x0 :: xs)
  | Unknown => None
  end.

(** clqt_np.py 316-336: fwdbwdpass_ode_f *)
Definition qabc_rhs (LULT : 'M[R]_n) (e : 'M[R]_n * 'cV[R]_n * 'M[R]_n) : 'M[R]_n * 'cV[R]_n * 'M[R]_n :=
  let: (A, b, C) := e in
  (qF q *m A - C *m qX q *m A, qF q *m b - C *m qX q *m b, qF q *m C - C *m qX q *m C + C *m (qF q)^T + LULT).
Definition qfwdbwdpass_ode_f (x : 'M[R]_(n, 2 * n + 1)) : option 'M[R]_(n, 2 * n + 1) :=
  let? ult := qULT in Some (pack_abc (qabc_rhs (qL q *m ult) (unpack_abc x))).
(** clqt_np.py 366-373 *)
Definition qabc_step (dt : R) (e : 'M[R]_n * 'cV[R]_n * 'M[R]_n) : option ('M[R]_n * 'cV[R]_n * 'M[R]_n) :=
  let? x := rk4_x (V := matrix_lmodType R n (2 * n + 1)) qfwdbwdpass_ode_f dt (pack_abc e) in
  let: (A, b, C) := unpack_abc x in Some (A, b, symz C).
Fixpoint qabc_loop (dt : R) (steps : nat) (e : 'M[R]_n * 'cV[R]_n * 'M[R]_n) : option (seq ('M[R]_n * 'cV[R]_n * 'M[R]_n)) :=
  match steps with
  | 0%N => Some [:: e]
  | s.+1 => let? e' := qabc_step dt e in let? l := qabc_loop dt s e' in Some (e :: l)
  end.
(** clqt_np.py 338-382: seqFwdBwdPass; the three lists are one list of triples *)
Definition clqr_seqFwdBwdPass (x0 : 'cV[R]_n) (steps : nat) (dt : option R) (A b C : option _) (meth : method) :=
  let? dt := qdt_or dt [:: steps] in
  match meth with
  | Rk4 => qabc_loop dt steps (or_else A 0, or_else b x0, or_else C 0)
  | Exact | Unknown => None
  end.

(** clqt_np.py 384-411: combineForwardBackward; the loop runs over S_list *)
Fixpoint qcombineForwardBackward (Ks : seq 'M[R]_(m, n)) (Ss : seq 'M[R]_n) (es : seq ('M[R]_n * 'cV[R]_n * 'M[R]_n)) :
    option (seq 'cV[R]_m * seq 'cV[R]_n) :=
  match Ss with
  | [::] => Some ([::], [::])
  | Q :: Ss' =>
      if es is (_, b, C) :: es' then
        let? x := solve (1%:M + C *m Q) b in
        let? '(us, xs) := qcombineForwardBackward (behead Ks) Ss' es' in
        if Ks is K :: _ then Some (- K *m x :: us, x :: xs) else Some (us, x :: xs)
      else None
  end.

(** clqt_np.py 418-440: bwpass_bw_ode_f *)
Definition qbw_rhs (LULT : 'M[R]_n) (e : elem) : elem :=
  let: Elem A b C eta J := e in
  Elem (A *m LULT *m J - A *m qF q) (- A *m LULT *m eta) (- A *m LULT *m A^T)
       (J *m LULT *m eta - (qF q)^T *m eta) (- J *m qF q + J *m LULT *m J - (qF q)^T *m J - qX q).
Definition qbwpass_bw_ode_f (x : 'M[R]_(n, 3 * n + 2)) : option 'M[R]_(n, 3 * n + 2) :=
  let? ult := qULT in Some (pack_abcej (qbw_rhs (qL q *m ult) (unpack_abcej x))).
(** clqt_np.py 442-464: bwpass_fw_ode_f *)
Definition qfw_rhs (LULT : 'M[R]_n) (e : elem) : elem :=
  let: Elem A b C eta J := e in
  Elem (qF q *m A - C *m qX q *m A) (qF q *m b - C *m qX q *m b)
       (qF q *m C - C *m qX q *m C + C *m (qF q)^T + LULT) (- A^T *m qX q *m b) (A^T *m qX q *m A).
Definition qbwpass_fw_ode_f (x : 'M[R]_(n, 3 * n + 2)) : option 'M[R]_(n, 3 * n + 2) :=
  let? ult := qULT in Some (pack_abcej (qfw_rhs (qL q *m ult) (unpack_abcej x))).
(** clqt_np.py 488-512, 803-829: the block element *)
Definition qelem_step (ode : 'M[R]_(n, 3 * n + 2) -> option 'M[R]_(n, 3 * n + 2)) (h : R) (e : elem) : option elem :=
  let? x := rk4_x (V := matrix_lmodType R n (3 * n + 2)) ode h (pack_abcej e) in
  let: Elem A b C eta J := unpack_abcej x in Some (Elem A b (symz C) eta (symz J)).
Definition qblock_elem (dt : R) (steps : nat) (forward : bool) : option elem :=
  let e0 := Elem 1%:M 0 0 0 0 in
  if forward then for_ (iota 0 steps) (fun _ e => qelem_step qbwpass_fw_ode_f dt e) e0
  else for_ (rev (iota 0 steps)) (fun _ e => qelem_step qbwpass_bw_ode_f (- dt) e) e0.
(** clqt_np.py 466-527: parBackwardPass_init *)
Definition clqr_parBackwardPass_init (blocks steps : nat) (meth : method) (forward : bool) : option (seq elem) :=
  match meth with
  | Rk4 =>
      let? dt := div_nats (qT q) [:: steps; blocks] in
      let? e := qblock_elem dt steps forward in
      Some (rcons (nseq blocks e) (Elem 0 0 0 0 (qXT q)))
  | Exact | Unknown => None
  end.
(** clqt_np.py 529-561: parBackwardPass_extract; [es] are elems[k+1:] *)
Fixpoint qpar_extract_loop (dt : R) (steps : nat) (meth : method) (es : seq elem) : option (seq 'M[R]_(m, n) * seq 'M[R]_n) :=
  match es with
  | [::] => Some ([::], [::])
  | e :: es' =>
      let? '(bKs, bSs) := clqr_seqBackwardPass steps (Some dt) (Some (eJ e)) meth in
      let? '(Ks, Ss) := qpar_extract_loop dt steps meth es' in
      Some (bKs ++ Ks, behead bSs ++ Ss)
  end.
Definition clqr_parBackwardPass_extract (es : seq elem) (steps : nat) (meth : method) : option (seq 'M[R]_(m, n) * seq 'M[R]_n) :=
  match es with
  | [::] => None
  | e :: es' =>
      let? dt := div_nats (qT q) [:: steps; size es'] in
      let? '(Ks, Ss) := qpar_extract_loop dt steps meth es' in Some (Ks, eJ e :: Ss)
  end.
(** clqt_np.py 563-594: parBackwardPass *)
Definition clqr_parBackwardPass (blocks steps : nat) (init_meth extract_meth : method) : option (seq 'M[R]_(m, n) * seq 'M[R]_n) :=
  let? es := clqr_parBackwardPass_init blocks steps init_meth false in
  let? es' := par_backward_pass_scan es in
  clqr_parBackwardPass_extract es' steps extract_meth.

(** clqt_np.py 600-614, 616-630: fwpass_fw_ode_f, fwpass_bw_ode_f *)
Definition qfwpass_fw_ode_f (x : 'M[R]_(n, n + 1)) (K : 'M[R]_(m, n)) : option 'M[R]_(n, n + 1) :=
  let: (Psi, phi) := unpack_Psiphi x in
  let tF := qF q - qL q *m K in Some (pack_Psiphi (tF *m Psi, tF *m phi)).
Definition qfwpass_bw_ode_f (x : 'M[R]_(n, n + 1)) (K : 'M[R]_(m, n)) : option 'M[R]_(n, n + 1) :=
  let: (Psi, phi) := unpack_Psiphi x in
  let tF := qF q - qL q *m K in Some (pack_Psiphi (- Psi *m tF, 0)).
(** clqt_np.py 669-690: one block of parForwardPass_init with method 'rk4' *)
Definition qpsi_step (ode : 'M[R]_(n, n + 1) -> 'M[R]_(m, n) -> option 'M[R]_(n, n + 1)) (h : R) K (e : 'M[R]_n * 'cV[R]_n) :
    option ('M[R]_n * 'cV[R]_n) :=
  let? x := rk4_xp (V := matrix_lmodType R n (n + 1)) ode h (pack_Psiphi e) K in Some (unpack_Psiphi x).
Definition qblock_psi (dt : R) (Ks : seq 'M[R]_(m, n)) (steps : nat) (forward : bool) (k : nat) : option ('M[R]_n * 'cV[R]_n) :=
  let e0 := (1%:M, 0) in
  if forward then
    for_ (iota 0 steps) (fun i e => let? K := List.nth_error Ks (k * steps + i) in qpsi_step qfwpass_fw_ode_f dt K e) e0
  else
    for_ (rev (iota 0 steps)) (fun i e => let? K := List.nth_error Ks (k * steps + i) in qpsi_step qfwpass_bw_ode_f (- dt) K e) e0.
(** clqt_np.py 632-692: parForwardPass_init; another method raises in the loop over the blocks *)
Definition clqr_parForwardPass_init x0 Ks (blocks steps : nat) (meth : method) (forward : bool) : option (seq ('M[R]_n * 'cV[R]_n)) :=
  if (blocks * steps != size Ks)%N then None
  else
    let? dt := div_nats (qT q) [:: steps; blocks] in
    let? es := omap_seq (fun k => if meth is Rk4 then qblock_psi dt Ks steps forward k else None) (iota 0 blocks) in
    Some ((1%:M, x0) :: es).
(** clqt_np.py 694-734: parForwardPass_extract *)
Fixpoint qpar_fwd_loop (dt : R) (meth : method) (zoh : bool) (steps k : nat) (Ks : seq 'M[R]_(m, n)) (es : seq ('M[R]_n * 'cV[R]_n)) :
    option (seq 'cV[R]_m * seq 'cV[R]_n) :=
  match es with
  | [::] => None
  | e :: es' =>
      match es' with
      | [::] => Some ([::], [:: e.2])
      | _ =>
          let? '(bus, bxs) := clqr_seqForwardPass e.2 (slice (k * steps) ((k + 1) * steps) Ks) (Some dt) meth zoh in
          let? '(us, xs) := qpar_fwd_loop dt meth zoh steps k.+1 Ks es' in
          Some (bus ++ us, take (size bus) bxs ++ xs)
      end
  end.
Definition clqr_parForwardPass_extract Ks (es : seq ('M[R]_n * 'cV[R]_n)) (steps : nat) (meth : method) (zoh : bool) :=
  if ((size es).-1 * steps != size Ks)%N then None
  else
    let? dt := div_nats (qT q) [:: steps; (size es).-1] in
    qpar_fwd_loop dt meth zoh steps 0 Ks es.
(** clqt_np.py 736-771: parForwardPass *)
Definition clqr_parForwardPass x0 Ks (blocks steps : nat) (init_meth extract_meth : method) (zoh : bool) :=
  let? es := clqr_parForwardPass_init x0 Ks blocks steps init_meth true in
  let? es' := par_forward_pass_scan es in
  clqr_parForwardPass_extract Ks es' steps extract_meth zoh.

(** clqt_np.py 773-841: parFwdBwdPass_init *)
Definition clqr_parFwdBwdPass_init x0 (blocks steps : nat) (meth : method) (forward : bool) : option (seq elem) :=
  match meth with
  | Rk4 =>
      let? dt := div_nats (qT q) [:: steps; blocks] in
      let? e := qblock_elem dt steps forward in
      Some (Elem 0 x0 0 0 0 :: nseq blocks e)
  | Exact | Unknown => None
  end.
(** clqt_np.py 868-876: the loop of parFwdBwdPass_extract, over all elements but the last; after the last pass
    bx_list[-1] is appended *)
Fixpoint qpar_fb_loop (dt : R) (meth : method) (steps k : nat) (Ks : seq 'M[R]_(m, n)) (Ss : seq 'M[R]_n) (es : seq elem) :
    option (seq 'cV[R]_m * seq 'cV[R]_n) :=
  match es with
  | e :: ((_ :: es'') as es') =>
      let? l := clqr_seqFwdBwdPass 0 steps (Some dt) (Some (eA e)) (Some (eb e)) (Some (eC e)) meth in
      let? '(bus, bxs) := qcombineForwardBackward (slice (k * steps) ((k + 1) * steps) Ks) (slice (k * steps) ((k + 1) * steps + 1) Ss) l in
      if es'' is [::] then
        if bxs is x :: t then Some (bus, rcons (take (size bus) bxs) (last x t)) else None
      else let? '(us, xs) := qpar_fb_loop dt meth steps k.+1 Ks Ss es' in Some (bus ++ us, take (size bus) bxs ++ xs)
  | _ => None
  end.
(** clqt_np.py 843-878: parFwdBwdPass_extract *)
Definition clqr_parFwdBwdPass_extract Ks Ss (es : seq elem) (steps : nat) (meth : method) :=
  if ((size es).-1 * steps != size Ks)%N then None
  else if ((size es).-1 * steps != (size Ss).-1)%N || (size Ss == 0%N) then None
  else
    let? dt := div_nats (qT q) [:: steps; (size es).-1] in
    qpar_fb_loop dt meth steps 0 Ks Ss es.
(** clqt_np.py 880-902: parFwdBwdPass *)
Definition clqr_parFwdBwdPass x0 Ks Ss (blocks steps : nat) (init_meth extract_meth : method) :=
  let? es := clqr_parFwdBwdPass_init x0 blocks steps init_meth true in
  let? es' := par_fwdbwd_pass_scan es in
  clqr_parFwdBwdPass_extract Ks Ss es' steps extract_meth.
End Clqr.
