(** Model of the class CLQT of parallel_control/clqt_np.py over an arbitrary real field (exact arithmetic).

    State dimension [n], control dimension [m], output dimensions [p] and [pT].  NumPy vectors are columns.  None is
    a raised exception.  An optional argument left out is None too (type option in the argument list). *)
From mathcomp Require Import all_ssreflect all_algebra.
From Verif Require Import ScanModel MxBase LqtModel Rk4Model.
Import Order.TTheory GRing.Theory Num.Theory.
Set Implicit Arguments. Unset Strict Implicit. Unset Printing Implicit Defensive.
Local Open Scope ring_scope.

Section Cols.
Variable R : realFieldType.
Variable n : nat.
(** M[i, j] for a column number j *)
Definition ent k (M : 'M[R]_(n, k)) (i : 'I_n) (j : nat) : R := if insub j is Some j' then M i j' else 0.
(** x[:, lo:(lo+k)] = M, and x[:, lo] = M for k = 1 *)
Definition set_cols w k (lo : nat) (M : 'M[R]_(n, k)) (x : 'M[R]_(n, w)) : 'M[R]_(n, w) :=
  \matrix_(i, j) (if (lo <= j < lo + k)%N then ent M i (j - lo) else x i j).
(** x[:, lo:(lo+k)], and x[:, lo] for k = 1 *)
Definition get_cols w (lo k : nat) (x : 'M[R]_(n, w)) : 'M[R]_(n, k) := \matrix_(i, j) ent x i (lo + j).

(** clqt_np.py 21-54 *)
Definition pack_abcej (e : elem R n) : 'M[R]_(n, 3 * n + 2) :=
  set_cols (3 * n + 1) (eeta e) (set_cols (3 * n) (eb e)
    (set_cols (2 * n) (eJ e) (set_cols n (eC e) (set_cols 0 (eA e) 0)))).
Definition unpack_abcej (x : 'M[R]_(n, 3 * n + 2)) : elem R n :=
  Elem (get_cols 0 n x) (get_cols (3 * n) 1 x) (get_cols n n x) (get_cols (3 * n + 1) 1 x) (get_cols (2 * n) n x).
(** clqt_np.py 56-82 *)
Definition pack_Psiphi (e : 'M[R]_n * 'cV[R]_n) : 'M[R]_(n, n + 1) := set_cols n e.2 (set_cols 0 e.1 0).
Definition unpack_Psiphi (x : 'M[R]_(n, n + 1)) : 'M[R]_n * 'cV[R]_n := (get_cols 0 n x, get_cols n 1 x).
(** clqt_np.py 84-112; the tuple is (A, b, C) *)
Definition pack_abc (e : 'M[R]_n * 'cV[R]_n * 'M[R]_n) : 'M[R]_(n, 2 * n + 1) :=
  let: (A, b, C) := e in set_cols (2 * n) b (set_cols n C (set_cols 0 A 0)).
Definition unpack_abc (x : 'M[R]_(n, 2 * n + 1)) : 'M[R]_n * 'cV[R]_n * 'M[R]_n :=
  (get_cols 0 n x, get_cols (2 * n) 1 x, get_cols n n x).
(** clqt_np.py 114-143 *)
Definition pack_Sv (e : 'M[R]_n * 'cV[R]_n) : 'M[R]_(n, n + 1) := set_cols n e.2 (set_cols 0 e.1 0).
Definition unpack_Sv (x : 'M[R]_(n, n + 1)) : 'M[R]_n * 'cV[R]_n := (get_cols 0 n x, get_cols n 1 x).
End Cols.

Section Clqt.
Variable R : realFieldType.
Variables n m p pT : nat.

(** clqt_np.py 921-951 *)
Record clqt := Clqt { kF : R -> 'M[R]_n; kL : R -> 'M[R]_(n, m); kX : R -> 'M[R]_p; kU : R -> 'M[R]_m;
  kXT : 'M[R]_pT; kc : R -> 'cV[R]_n; kH : R -> 'M[R]_(p, n); kr : R -> 'cV[R]_p;
  kHT : 'M[R]_(pT, n); krT : 'cV[R]_pT; kT : R }.
Variable P : clqt.
Local Notation elem := (elem R n).
Local Notation half := (2%:R^-1 : R).

(** 0.5 * (S + S.T) *)
Definition symz (M : 'M[R]_n) : 'M[R]_n := half *: (M + M^T).
(** linalg.solve(U, L.T, assume_a='pos') at time t: lines 970, 1030, 1112, 1222, 1256 *)
Definition ULT (t : R) : option 'M[R]_(m, n) := solve_pos (kU P t) (kL P t)^T.
(** default arguments: dt = T / k1 / k2 ..., raising for a zero divisor; t0 = 0.0 *)
Fixpoint div_nats (x : R) (ks : seq nat) : option R :=
  match ks with [::] => Some x | k :: ks' => if k == 0%N then None else div_nats (x / k%:R) ks' end.
Definition dt_or (dt : option R) (ks : seq nat) : option R := if dt is Some h then Some h else div_nats (kT P) ks.
Definition or_else {X} (x : option X) (d : X) : X := if x is Some y then y else d.

(** clqt_np.py 954-983: riccati_ode_f *)
Definition riccati_rhs (t : R) (LULT : 'M[R]_n) (Sv : 'M[R]_n * 'cV[R]_n) : 'M[R]_n * 'cV[R]_n :=
  let: (Q, v) := Sv in
  let F := kF P t in let X := kX P t in let H := kH P t in let r := kr P t in let c := kc P t in
  (- F^T *m Q - Q *m F + Q *m LULT *m Q - H^T *m X *m H,
   - H^T *m X *m r + Q *m c - F^T *m v + Q *m LULT *m v).
Definition riccati_ode_f (x : 'M[R]_(n, n + 1)) (t : R) : option 'M[R]_(n, n + 1) :=
  let? ult := ULT t in Some (pack_Sv (riccati_rhs t (kL P t *m ult) (unpack_Sv x))).

(** clqt_np.py 1023-1038: one pass through the loop of seqBackwardPass, and the gains *)
Definition bwd_step (dt t0 : R) (k : nat) (Sv : 'M[R]_n * 'cV[R]_n) : option ('M[R]_n * 'cV[R]_n) :=
  let? x := rk4_xt (V := matrix_lmodType R n (n + 1)) riccati_ode_f (- dt) (pack_Sv Sv) (t0 + k.+1%:R * dt) in
  let: (Q, v) := unpack_Sv x in Some (symz Q, v).
Definition bwd_gain (dt t0 : R) (k : nat) (Sv : 'M[R]_n * 'cV[R]_n) : option ('M[R]_(m, n) * 'cV[R]_m) :=
  let? ult := ULT (t0 + k%:R * dt) in Some (ult *m Sv.1, ult *m Sv.2).
(** clqt_np.py 1021-1047: the loop over reversed(range(steps)); appending and reversing at the end is consing *)
Definition bwd_res := (seq 'M[R]_(m, n) * seq 'cV[R]_m * seq 'M[R]_n * seq 'cV[R]_n)%type.
Fixpoint bwd_loop (dt t0 : R) (k : nat) (Sv : 'M[R]_n * 'cV[R]_n) (acc : bwd_res) : option bwd_res :=
  match k with
  | 0%N => Some acc
  | k'.+1 =>
      let? Sv' := bwd_step dt t0 k' Sv in
      let? '(K, d) := bwd_gain dt t0 k' Sv' in
      let: (Ks, ds, Ss, vs) := acc in
      bwd_loop dt t0 k' Sv' (K :: Ks, d :: ds, Sv'.1 :: Ss, Sv'.2 :: vs)
  end.
(** clqt_np.py 986-1047: seqBackwardPass *)
Definition ST : 'M[R]_n := (kHT P)^T *m kXT P *m kHT P.
Definition vT : 'cV[R]_n := (kHT P)^T *m kXT P *m krT P.
Definition clqt_seqBackwardPass (steps : nat) (dt t0 : option R) (Q : option 'M[R]_n) (v : option 'cV[R]_n) : option bwd_res :=
  let Q := or_else Q ST in let v := or_else v vT in
  let? dt := dt_or dt [:: steps] in
  bwd_loop dt (or_else t0 0) steps (Q, v) ([::], [::], [:: Q], [:: v]).

(** clqt_np.py 1079-1095: seqForwardPass; the loop runs over Kx_list *)
Definition cl_ode (zoh : bool) (K : 'M[R]_(m, n)) (d u : 'cV[R]_m) (x : 'cV[R]_n) (t : R) : option 'cV[R]_n :=
  if zoh then Some (kF P t *m x + kL P t *m u + kc P t)
  else Some (kF P t *m x + kL P t *m (- K *m x + d) + kc P t).
Fixpoint fwd_loop (dt t0 : R) (zoh : bool) (Ks : seq 'M[R]_(m, n)) (ds : seq 'cV[R]_m) (k : nat) (x : 'cV[R]_n) :
    option (seq 'cV[R]_m * seq 'cV[R]_n) :=
  match Ks with
  | [::] => Some ([::], [::])
  | K :: Ks' =>
      match ds with
      | [::] => None
      | d :: ds' =>
          let u := - K *m x + d in
          let? x' := rk4_xt (V := matrix_lmodType R n 1) (cl_ode zoh K d u) dt x (t0 + k%:R * dt) in
          let? '(us, xs) := fwd_loop dt t0 zoh Ks' ds' k.+1 x' in
          Some (u :: us, x' :: xs)
      end
  end.
Definition clqt_seqForwardPass (x0 : 'cV[R]_n) Ks ds (dt t0 : option R) (zoh : bool) :=
  let? dt := dt_or dt [:: size Ks] in
  let? '(us, xs) := fwd_loop dt (or_else t0 0) zoh Ks ds 0 x0 in Some (us, x0 :: xs).

(** clqt_np.py 1097-1127: fwdbwdpass_ode_f *)
Definition abc_rhs (t : R) (LULT : 'M[R]_n) (e : 'M[R]_n * 'cV[R]_n * 'M[R]_n) : 'M[R]_n * 'cV[R]_n * 'M[R]_n :=
  let: (A, b, C) := e in
  let F := kF P t in let X := kX P t in let H := kH P t in let r := kr P t in let c := kc P t in
  (F *m A - C *m H^T *m X *m H *m A,
   F *m b + C *m H^T *m X *m r - C *m H^T *m X *m H *m b + c,
   F *m C - C *m H^T *m X *m H *m C + C *m F^T + LULT).
Definition fwdbwdpass_ode_f (x : 'M[R]_(n, 2 * n + 1)) (t : R) : option 'M[R]_(n, 2 * n + 1) :=
  let? ult := ULT t in Some (pack_abc (abc_rhs t (kL P t *m ult) (unpack_abc x))).
(** clqt_np.py 1160-1169 *)
Definition abc_step (dt t : R) (e : 'M[R]_n * 'cV[R]_n * 'M[R]_n) : option ('M[R]_n * 'cV[R]_n * 'M[R]_n) :=
  let? x := rk4_xt (V := matrix_lmodType R n (2 * n + 1)) fwdbwdpass_ode_f dt (pack_abc e) t in
  let: (A, b, C) := unpack_abc x in Some (A, b, symz C).
(** clqt_np.py 1129-1171: seqFwdBwdPass; the three lists are one list of triples.  [A0], [b0], [C0] are the arguments
    A, b, C; the caller that leaves them out gets zeros, x0, zeros. *)
Fixpoint abc_loop (dt t0 : R) (steps k : nat) (e : 'M[R]_n * 'cV[R]_n * 'M[R]_n) :
    option (seq ('M[R]_n * 'cV[R]_n * 'M[R]_n)) :=
  match steps with
  | 0%N => Some [:: e]
  | s.+1 => let? e' := abc_step dt (t0 + k%:R * dt) e in let? l := abc_loop dt t0 s k.+1 e' in Some (e :: l)
  end.
Definition clqt_seqFwdBwdPass (x0 : 'cV[R]_n) (steps : nat) (dt t0 : option R) (A b C : option _) :=
  let? dt := dt_or dt [:: steps] in
  abc_loop dt (or_else t0 0) steps 0 (or_else A 0, or_else b x0, or_else C 0).

(** clqt_np.py 1173-1204: combineForwardBackward; the loop runs over S_list *)
Fixpoint combineForwardBackward (Ks : seq 'M[R]_(m, n)) (ds : seq 'cV[R]_m) (Ss : seq 'M[R]_n) (vs : seq 'cV[R]_n)
    (es : seq ('M[R]_n * 'cV[R]_n * 'M[R]_n)) : option (seq 'cV[R]_m * seq 'cV[R]_n) :=
  match Ss with
  | [::] => Some ([::], [::])
  | Q :: Ss' =>
      match vs, es with
      | v :: vs', (_, b, C) :: es' =>
          let? x := solve (1%:M + C *m Q) (b + C *m v) in
          match Ks with
          | [::] => let? '(us, xs) := combineForwardBackward [::] ds Ss' vs' es' in Some (us, x :: xs)
          | K :: Ks' =>
              match ds with
              | [::] => None
              | d :: ds' =>
                  let? '(us, xs) := combineForwardBackward Ks' ds' Ss' vs' es' in Some (- K *m x + d :: us, x :: xs)
              end
          end
      | _, _ => None
      end
  end.

(** clqt_np.py 1210-1241: bwpass_bw_ode_f *)
Definition bw_rhs (t : R) (LULT : 'M[R]_n) (e : elem) : elem :=
  let: Elem A b C eta J := e in
  let F := kF P t in let X := kX P t in let H := kH P t in let r := kr P t in let c := kc P t in
  Elem (A *m LULT *m J - A *m F) (- A *m LULT *m eta - A *m c) (- A *m LULT *m A^T)
       (- H^T *m X *m r + J *m LULT *m eta - F^T *m eta + J *m c)
       (- H^T *m X *m H + J *m LULT *m J - J *m F - F^T *m J).
Definition bwpass_bw_ode_f (x : 'M[R]_(n, 3 * n + 2)) (t : R) : option 'M[R]_(n, 3 * n + 2) :=
  let? ult := ULT t in Some (pack_abcej (bw_rhs t (kL P t *m ult) (unpack_abcej x))).
(** clqt_np.py 1243-1276: bwpass_fw_ode_f *)
Definition fw_rhs (t : R) (LULT : 'M[R]_n) (e : elem) : elem :=
  let: Elem A b C eta J := e in
  let F := kF P t in let X := kX P t in let H := kH P t in let r := kr P t in let c := kc P t in
  Elem (F *m A - C *m H^T *m X *m H *m A)
       (F *m b + C *m H^T *m X *m r - C *m H^T *m X *m H *m b + c)
       (F *m C - C *m H^T *m X *m H *m C + C *m F^T + LULT)
       (A^T *m H^T *m X *m r - A^T *m H^T *m X *m H *m b)
       (A^T *m H^T *m X *m H *m A).
Definition bwpass_fw_ode_f (x : 'M[R]_(n, 3 * n + 2)) (t : R) : option 'M[R]_(n, 3 * n + 2) :=
  let? ult := ULT t in Some (pack_abcej (fw_rhs t (kL P t *m ult) (unpack_abcej x))).

(** clqt_np.py 1315-1332 (1671-1688): one block; [for_] is the for loop of ScanModel.v *)
Definition elem_step (ode : 'M[R]_(n, 3 * n + 2) -> R -> option 'M[R]_(n, 3 * n + 2)) (h t : R) (e : elem) : option elem :=
  let? x := rk4_xt (V := matrix_lmodType R n (3 * n + 2)) ode h (pack_abcej e) t in
  let: Elem A b C eta J := unpack_abcej x in Some (Elem A b (symz C) eta (symz J)).
Definition block_elem (dt t0 : R) (steps : nat) (forward : bool) (k : nat) : option elem :=
  let e0 := Elem 1%:M 0 0 0 0 in
  if forward then
    for_ (iota 0 steps) (fun i e => elem_step bwpass_fw_ode_f dt (t0 + (k * steps + i)%:R * dt) e) e0
  else
    for_ (rev (iota 0 steps)) (fun i e => elem_step bwpass_bw_ode_f (- dt) (t0 + (k * steps + i + 1)%:R * dt) e) e0.
(** clqt_np.py 1278-1343: parBackwardPass_init *)
Definition clqt_parBackwardPass_init (blocks steps : nat) (dt t0 : R) (forward : bool) : option (seq elem) :=
  let? es := omap_seq (block_elem dt t0 steps forward) (iota 0 blocks) in
  Some (rcons es (Elem 0 0 0 vT ST)).
(** clqt_np.py 1371-1389: parBackwardPass_extract; [es] are elems[k+1:] *)
Fixpoint par_extract_loop (dt t0 : R) (steps k : nat) (es : seq elem) : option bwd_res :=
  match es with
  | [::] => Some ([::], [::], [::], [::])
  | e :: es' =>
      let? '(bKs, bds, bSs, bvs) := clqt_seqBackwardPass steps (Some dt) (Some (t0 + k%:R * dt * steps%:R)) (Some (eJ e)) (Some (eeta e)) in
      let? '(Ks, ds, Ss, vs) := par_extract_loop dt t0 steps k.+1 es' in
      Some (bKs ++ Ks, bds ++ ds, behead bSs ++ Ss, behead bvs ++ vs)
  end.
Definition clqt_parBackwardPass_extract (es : seq elem) (steps : nat) (dt t0 : R) : option bwd_res :=
  match es with
  | [::] => None
  | e :: es' => let? '(Ks, ds, Ss, vs) := par_extract_loop dt t0 steps 0 es' in Some (Ks, ds, eJ e :: Ss, eeta e :: vs)
  end.
(** clqt_np.py 1391-1425: parBackwardPass *)
Definition clqt_parBackwardPass (blocks steps : nat) (dt t0 : option R) (forward : bool) : option bwd_res :=
  let t0 := or_else t0 0 in
  let? dt := dt_or dt [:: steps; blocks] in
  let? es := clqt_parBackwardPass_init blocks steps dt t0 forward in
  let? es' := par_backward_pass_scan es in
  clqt_parBackwardPass_extract es' steps dt t0.

(** clqt_np.py 1431-1451, 1453-1474: fwpass_fw_ode_f, fwpass_bw_ode_f *)
Definition tF (t : R) (K : 'M[R]_(m, n)) : 'M[R]_n := kF P t - kL P t *m K.
Definition tc (t : R) (d : 'cV[R]_m) : 'cV[R]_n := kc P t + kL P t *m d.
Definition fwpass_fw_ode_f (x : 'M[R]_(n, n + 1)) (t : R) (Kd : 'M[R]_(m, n) * 'cV[R]_m) : option 'M[R]_(n, n + 1) :=
  let: (Psi, phi) := unpack_Psiphi x in
  Some (pack_Psiphi (tF t Kd.1 *m Psi, tF t Kd.1 *m phi + tc t Kd.2)).
Definition fwpass_bw_ode_f (x : 'M[R]_(n, n + 1)) (t : R) (Kd : 'M[R]_(m, n) * 'cV[R]_m) : option 'M[R]_(n, n + 1) :=
  let: (Psi, phi) := unpack_Psiphi x in
  Some (pack_Psiphi (- Psi *m tF t Kd.1, - Psi *m tc t Kd.2)).

(** clqt_np.py 1516-1532: one block of parForwardPass_init *)
Definition psi_step (ode : 'M[R]_(n, n + 1) -> R -> 'M[R]_(m, n) * 'cV[R]_m -> option 'M[R]_(n, n + 1)) (h t : R) Kd (e : 'M[R]_n * 'cV[R]_n) :
    option ('M[R]_n * 'cV[R]_n) :=
  let? x := rk4_xtp (V := matrix_lmodType R n (n + 1)) ode h (pack_Psiphi e) t Kd in Some (unpack_Psiphi x).
Definition block_psi (dt t0 : R) (Ks : seq 'M[R]_(m, n)) (ds : seq 'cV[R]_m) (steps : nat) (forward : bool) (k : nat) :
    option ('M[R]_n * 'cV[R]_n) :=
  let e0 := (1%:M, 0) in
  if forward then
    for_ (iota 0 steps) (fun i e =>
      let? K := List.nth_error Ks (k * steps + i) in let? d := List.nth_error ds (k * steps + i) in
      psi_step fwpass_fw_ode_f dt (t0 + (k * steps + i)%:R * dt) (K, d) e) e0
  else
    for_ (rev (iota 0 steps)) (fun i e =>
      let? K := List.nth_error Ks (k * steps + i) in let? d := List.nth_error ds (k * steps + i) in
      psi_step fwpass_bw_ode_f (- dt) (t0 + (k * steps + i + 1)%:R * dt) (K, d) e) e0.
(** clqt_np.py 1476-1536: parForwardPass_init *)
Definition clqt_parForwardPass_init x0 Ks ds (blocks steps : nat) (dt t0 : R) (forward : bool) : option (seq ('M[R]_n * 'cV[R]_n)) :=
  if (blocks * steps != size Ks)%N then None
  else let? es := omap_seq (block_psi dt t0 Ks ds steps forward) (iota 0 blocks) in Some ((1%:M, x0) :: es).
(** l[a:b] *)
Definition slice {X} (a b : nat) (l : seq X) : seq X := take (b - a) (drop a l).
(** clqt_np.py 1564-1586: parForwardPass_extract *)
Fixpoint par_fwd_loop (dt t0 : R) (zoh : bool) (steps k : nat) (Ks : seq 'M[R]_(m, n)) (ds : seq 'cV[R]_m)
    (es : seq ('M[R]_n * 'cV[R]_n)) : option (seq 'cV[R]_m * seq 'cV[R]_n) :=
  match es with
  | [::] => None
  | e :: es' =>
      match es' with
      | [::] => Some ([::], [:: e.2])
      | _ =>
          let? '(bus, bxs) := clqt_seqForwardPass e.2 (slice (k * steps) ((k + 1) * steps) Ks) (slice (k * steps) ((k + 1) * steps) ds)
                                 (Some dt) (Some (t0 + k%:R * steps%:R * dt)) zoh in
          let? '(us, xs) := par_fwd_loop dt t0 zoh steps k.+1 Ks ds es' in
          Some (bus ++ us, take (size bus) bxs ++ xs)
      end
  end.
Definition clqt_parForwardPass_extract Ks ds (es : seq ('M[R]_n * 'cV[R]_n)) (steps : nat) (dt t0 : R) (zoh : bool) :=
  if ((size es).-1 * steps != size Ks)%N then None else par_fwd_loop dt t0 zoh steps 0 Ks ds es.
(** clqt_np.py 1588-1623: parForwardPass *)
Definition clqt_parForwardPass x0 Ks ds (blocks steps : nat) (dt t0 : option R) (forward zoh : bool) :=
  let t0 := or_else t0 0 in
  let? dt := dt_or dt [:: steps; blocks] in
  let? es := clqt_parForwardPass_init x0 Ks ds blocks steps dt t0 forward in
  let? es' := par_forward_pass_scan es in
  clqt_parForwardPass_extract Ks ds es' steps dt t0 zoh.

(** clqt_np.py 1629-1693: parFwdBwdPass_init *)
Definition clqt_parFwdBwdPass_init x0 (blocks steps : nat) (dt t0 : R) (forward : bool) : option (seq elem) :=
  let? es := omap_seq (block_elem dt t0 steps forward) (iota 0 blocks) in Some (Elem 0 x0 0 0 0 :: es).
(** clqt_np.py 1726-1738: the loop of parFwdBwdPass_extract, over all elements but the last; after the last pass
    bx_list[-1] is appended *)
Fixpoint par_fb_loop (dt t0 : R) (steps k : nat) (Ks : seq 'M[R]_(m, n)) (ds : seq 'cV[R]_m) (Ss : seq 'M[R]_n) (vs : seq 'cV[R]_n)
    (es : seq elem) : option (seq 'cV[R]_m * seq 'cV[R]_n) :=
  match es with
  | e :: ((_ :: es'') as es') =>
      let? l := abc_loop dt (t0 + k%:R * steps%:R * dt) steps 0 (eA e, eb e, eC e) in
      let? '(bus, bxs) := combineForwardBackward (slice (k * steps) ((k + 1) * steps) Ks) (slice (k * steps) ((k + 1) * steps) ds)
                             (slice (k * steps) ((k + 1) * steps + 1) Ss) (slice (k * steps) ((k + 1) * steps + 1) vs) l in
      if es'' is [::] then
        if bxs is x :: t then Some (bus, rcons (take (size bus) bxs) (last x t)) else None
      else let? '(us, xs) := par_fb_loop dt t0 steps k.+1 Ks ds Ss vs es' in Some (bus ++ us, take (size bus) bxs ++ xs)
  | _ => None
  end.
(** clqt_np.py 1695-1740; without blocks bx_list is undefined *)
Definition clqt_parFwdBwdPass_extract Ks ds Ss vs (es : seq elem) (steps : nat) (dt t0 : R) :=
  if ((size es).-1 * steps != size Ks)%N then None
  else if ((size es).-1 * steps != (size Ss).-1)%N || (size Ss == 0%N) then None
  else par_fb_loop dt t0 steps 0 Ks ds Ss vs es.
(** clqt_np.py 1742-1773: parFwdBwdPass *)
Definition clqt_parFwdBwdPass x0 Ks ds Ss vs (blocks steps : nat) (dt t0 : option R) (forward : bool) :=
  let t0 := or_else t0 0 in
  let? dt := dt_or dt [:: steps; blocks] in
  let? es := clqt_parFwdBwdPass_init x0 blocks steps dt t0 forward in
  let? es' := par_fwdbwd_pass_scan es in
  clqt_parFwdBwdPass_extract Ks ds Ss vs es' steps dt t0.
End Clqt.
