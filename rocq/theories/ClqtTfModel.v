(** Model of parallel_control/clqt_tf.py over an arbitrary real field (exact arithmetic).

    A tensor with a leading batch or time index is a sequence.  tf.scan is [tf_scan] or [tf_scan_rev],
    tf.vectorized_map is [omap_seq], tf.reshape to (blocks, steps, ...) is [reshape2].  None is a raised exception. *)
From mathcomp Require Import all_ssreflect all_algebra.
From Verif Require Import ScanModel TfScan MxBase LqtModel LqtTfModel Rk4Model ClqtModel.
Import Order.TTheory GRing.Theory Num.Theory.
Set Implicit Arguments. Unset Strict Implicit. Unset Printing Implicit Defensive.
Local Open Scope ring_scope.

Section Tf.
(** tf.scan(body, elems, initializer): all the carries after the initial one *)
Fixpoint tf_scan {X Y} (body : X -> Y -> option X) (x : X) (l : seq Y) : option (seq X) :=
  match l with [::] => Some [::] | y :: l' => let? x' := body x y in let? r := tf_scan body x' l' in Some (x' :: r) end.
(** the same with reverse=True: from the last element, the carry of element k at place k *)
Definition tf_scan_rev {X Y} (body : X -> Y -> option X) (x : X) (l : seq Y) : option (seq X) :=
  omap rev (tf_scan body x (rev l)).
(** tf.reshape(l, (blocks, steps, ...)) *)
Fixpoint chunks {X} (blocks steps : nat) (l : seq X) : seq (seq X) :=
  match blocks with 0%N => [::] | b.+1 => take steps l :: chunks b steps (drop steps l) end.
Definition reshape2 {X} (blocks steps : nat) (l : seq X) : option (seq (seq X)) :=
  if size l == (blocks * steps)%N then Some (chunks blocks steps l) else None.
End Tf.

Section Pack.
Variable R : realFieldType.
Variable n : nat.
(** clqt_tf.py 25-54 *)
Definition tf_pack_abcej (e : elem R n) : 'M[R]_(n, n + (n + (n + (1 + 1)))) :=
  row_mx (eA e) (row_mx (eC e) (row_mx (eJ e) (row_mx (eb e) (eeta e)))).
Definition tf_unpack_abcej (x : 'M[R]_(n, n + (n + (n + (1 + 1))))) : elem R n :=
  Elem (get_cols 0 n x) (get_cols (3 * n) 1 x) (get_cols n n x) (get_cols (3 * n + 1) 1 x) (get_cols (2 * n) n x).
(** clqt_tf.py 56-81 *)
Definition tf_pack_Psiphi (e : 'M[R]_n * 'cV[R]_n) : 'M[R]_(n, n + 1) := row_mx e.1 e.2.
Definition tf_unpack_Psiphi (x : 'M[R]_(n, n + 1)) : 'M[R]_n * 'cV[R]_n := (get_cols 0 n x, get_cols n 1 x).
(** clqt_tf.py 83-109 *)
Definition tf_pack_abc (e : 'M[R]_n * 'cV[R]_n * 'M[R]_n) : 'M[R]_(n, n + (n + 1)) :=
  let: (A, b, C) := e in row_mx A (row_mx C b).
Definition tf_unpack_abc (x : 'M[R]_(n, n + (n + 1))) : 'M[R]_n * 'cV[R]_n * 'M[R]_n :=
  (get_cols 0 n x, get_cols (2 * n) 1 x, get_cols n n x).
(** clqt_tf.py 111-135 *)
Definition tf_pack_Sv (e : 'M[R]_n * 'cV[R]_n) : 'M[R]_(n, n + 1) := row_mx e.1 e.2.
Definition tf_unpack_Sv (x : 'M[R]_(n, n + 1)) : 'M[R]_n * 'cV[R]_n := (get_cols 0 n x, get_cols n 1 x).
End Pack.

Section Clqt.
Variable R : realFieldType.
Variables n m p pT : nat.
(** the functions F_f, L_f, ..., and XT, HT, rT, T, as one record *)
Variable P : clqt R n m p pT.
Local Notation elem := (elem R n).

(** tf.linalg.solve(U, top(L)) at time t: clqt_tf.py 206, 233, 470, 632, 760 *)
Definition tf_ULT (t : R) : option 'M[R]_(m, n) := solve (kU P t) (kL P t)^T.
(** t0 + tf.range(0, k) * dt *)
Definition tf_times (t0 dt : R) (k : nat) : seq R := [seq t0 + i%:R * dt | i <- iota 0 k].
(** t0 + tf.range(0, blocks) * steps * dt *)
Definition tf_blocks (t0 dt : R) (blocks steps : nat) : seq R := [seq t0 + k%:R * steps%:R * dt | k <- iota 0 blocks].

(** clqt_tf.py 141-160, 567-584: default arguments; the division T / 0 gives inf *)
Definition tf_ST : 'M[R]_n := (kHT P)^T *m (kXT P *m kHT P).
Definition tf_vT : 'cV[R]_n := (kHT P)^T *m (kXT P *m krT P).

(** clqt_tf.py 188-212: f *)
Definition tf_riccati_f (x : 'M[R]_(n, n + 1)) (t : R) (_ : unit) : option 'M[R]_(n, n + 1) :=
  let: (Q, v) := tf_unpack_Sv x in
  let F := kF P t in let X := kX P t in let H := kH P t in let r := kr P t in let c := kc P t in
  let? ult := tf_ULT t in
  let LULT := kL P t *m ult in
  Some (tf_pack_Sv (- (F^T *m Q) - Q *m F + Q *m LULT *m Q - H^T *m X *m H,
                    - (H^T *m (X *m r)) + Q *m c - F^T *m v + Q *m (LULT *m v))).
(** clqt_tf.py 214-240: body *)
Definition tf_bwd_body (dt : R) (carry : 'M[R]_n * 'cV[R]_n * 'M[R]_(m, n) * 'cV[R]_m) (t : R) :=
  let: (Q, v, _, _) := carry in
  let? x := tf_rk4 (V := matrix_lmodType R n (n + 1)) tf_riccati_f (- dt) (tf_pack_Sv (Q, v)) (t + dt) tt in
  let: (Q, v) := tf_unpack_Sv x in
  let Q := symz Q in
  let? ult := tf_ULT t in
  Some (Q, v, ult *m Q, ult *m v).
(** clqt_tf.py 162-279: clqt_seq_backwardpass without a batch index; returns Ss, vs, Kxs, ds *)
Definition tf_bwd_res := (seq 'M[R]_n * seq 'cV[R]_n * seq 'M[R]_(m, n) * seq 'cV[R]_m)%type.
Definition tf_seq_backwardpass (steps : nat) (dt t0 : R) (Q : 'M[R]_n) (v : 'cV[R]_n) : option tf_bwd_res :=
  let? r := tf_scan_rev (tf_bwd_body dt) (Q, v, 0, 0) (tf_times t0 dt steps) in
  Some (rcons [seq e.1.1.1 | e <- r] Q, rcons [seq e.1.1.2 | e <- r] v, [seq e.1.2 | e <- r], [seq e.2 | e <- r]).

(** clqt_tf.py 311-371: f_zoh, f_no_zoh, body *)
Definition tf_f_zoh (x : 'cV[R]_n) (t : R) (u : 'cV[R]_m) : option 'cV[R]_n :=
  Some (kF P t *m x + kL P t *m u + kc P t).
Definition tf_f_no_zoh (x : 'cV[R]_n) (t : R) (Kd : 'M[R]_(m, n) * 'cV[R]_m) : option 'cV[R]_n :=
  Some (kF P t *m x + kL P t *m (- (Kd.1 *m x) + Kd.2) + kc P t).
Definition tf_fwd_body (zoh : bool) (dt : R) (carry : 'cV[R]_n * 'cV[R]_m) (inp : R * 'M[R]_(m, n) * 'cV[R]_m) :=
  let: (t, K, d) := inp in
  let: (x, _) := carry in
  let u := - (K *m x) + d in
  let? x' := (if zoh then tf_rk4 (V := matrix_lmodType R n 1) tf_f_zoh dt x t u
              else tf_rk4 (V := matrix_lmodType R n 1) tf_f_no_zoh dt x t (K, d)) in
  Some (x', u).
(** clqt_tf.py 281-405: clqt_seq_forwardpass without a batch index; returns xs, us; ds[0, :] raises without steps, tf.scan
    for lists of different lengths *)
Definition tf_seq_forwardpass (x0 : 'cV[R]_n) (Ks : seq 'M[R]_(m, n)) (ds : seq 'cV[R]_m) (dt t0 : R) (zoh : bool) :
    option (seq 'cV[R]_n * seq 'cV[R]_m) :=
  match ds with
  | [::] => None
  | d0 :: _ =>
      if size Ks != size ds then None
      else
        let? r := tf_scan (tf_fwd_body zoh dt) (x0, d0) (zip (zip (tf_times t0 dt (size ds)) Ks) ds) in
        Some (x0 :: [seq e.1 | e <- r], [seq e.2 | e <- r])
  end.

(** clqt_tf.py 454-505: f and body of clqt_seq_fwdbwdpass *)
Definition tf_abc_f (x : 'M[R]_(n, n + (n + 1))) (t : R) (_ : unit) : option 'M[R]_(n, n + (n + 1)) :=
  let: (A, b, C) := tf_unpack_abc x in
  let F := kF P t in let X := kX P t in let H := kH P t in let r := kr P t in let c := kc P t in
  let? ult := tf_ULT t in
  let LULT := kL P t *m ult in
  Some (tf_pack_abc (F *m A - C *m H^T *m X *m H *m A,
                     F *m b + C *m (H^T *m (X *m r)) - C *m (H^T *m (X *m (H *m b))) + c,
                     F *m C - C *m H^T *m X *m H *m C + C *m F^T + LULT)).
Definition tf_abc_body (dt : R) (e : 'M[R]_n * 'cV[R]_n * 'M[R]_n) (t : R) : option ('M[R]_n * 'cV[R]_n * 'M[R]_n) :=
  let? x := tf_rk4 (V := matrix_lmodType R n (n + (n + 1))) tf_abc_f dt (tf_pack_abc e) t tt in
  let: (A, b, C) := tf_unpack_abc x in Some (A, b, symz C).
(** clqt_tf.py 428-538: clqt_seq_fwdbwdpass; As, bs, Cs as one sequence of triples *)
Definition tf_seq_fwdbwdpass (steps : nat) (dt t0 : R) (e0 : 'M[R]_n * 'cV[R]_n * 'M[R]_n) :=
  let? r := tf_scan (tf_abc_body dt) e0 (tf_times t0 dt steps) in Some (e0 :: r).

(** clqt_tf.py 540-559: clqt_combine_fwdbwd; the batched solve, mv and + need equal lengths (broadcasting of a
    list of length one is left out).  Returns xs, us. *)
Definition tf_combine_fwdbwd (Ks : seq 'M[R]_(m, n)) (ds : seq 'cV[R]_m) (Ss : seq 'M[R]_n) (vs : seq 'cV[R]_n)
    (es : seq ('M[R]_n * 'cV[R]_n * 'M[R]_n)) : option (seq 'cV[R]_n * seq 'cV[R]_m) :=
  if (size Ss != size es) || (size vs != size es) || (size Ks != (size es).-1) || (size ds != (size es).-1) then None
  else
    let? xs := omap_seq (fun z : 'M[R]_n * 'cV[R]_n * ('M[R]_n * 'cV[R]_n * 'M[R]_n) =>
                 let: (Q, v, (_, b, C)) := z in solve (1%:M + C *m Q) (b + C *m v)) (zip (zip Ss vs) es) in
    Some (xs, [seq - (z.1.1 *m z.1.2) + z.2 | z <- zip (zip Ks (take (size xs).-1 xs)) ds]).

(** clqt_tf.py 604-668: f and body of par_backwardpass_init_bw *)
Definition tf_bw_f (x : 'M[R]_(n, n + (n + (n + (1 + 1))))) (t : R) (_ : unit) : option 'M[R]_(n, n + (n + (n + (1 + 1)))) :=
  let: Elem A b C eta J := tf_unpack_abcej x in
  let F := kF P t in let X := kX P t in let H := kH P t in let r := kr P t in let c := kc P t in
  let? ult := tf_ULT t in
  let LULT := kL P t *m ult in
  Some (tf_pack_abcej (Elem
    (A *m LULT *m J - A *m F) (- (A *m (LULT *m eta)) - A *m c) (- (A *m LULT *m A^T))
    (- (H^T *m (X *m r)) + J *m (LULT *m eta) - F^T *m eta + J *m c)
    (- (H^T *m X *m H) + J *m LULT *m J - J *m F - F^T *m J))).
(** clqt_tf.py 731-796: f and body of par_backwardpass_init_fw *)
Definition tf_fw_f (x : 'M[R]_(n, n + (n + (n + (1 + 1))))) (t : R) (_ : unit) : option 'M[R]_(n, n + (n + (n + (1 + 1)))) :=
  let: Elem A b C eta J := tf_unpack_abcej x in
  let F := kF P t in let X := kX P t in let H := kH P t in let r := kr P t in let c := kc P t in
  let? ult := tf_ULT t in
  let LULT := kL P t *m ult in
  Some (tf_pack_abcej (Elem
    (F *m A - C *m H^T *m X *m H *m A)
    (F *m b + C *m (H^T *m (X *m r)) - C *m (H^T *m (X *m (H *m b))) + c)
    (F *m C - C *m H^T *m X *m H *m C + C *m F^T + LULT)
    (A^T *m (H^T *m (X *m r)) - A^T *m (H^T *m (X *m (H *m b))))
    (A^T *m H^T *m X *m H *m A))).
Definition tf_elem_body ode (h : R) (e : elem) (t : R) : option elem :=
  let? x := tf_rk4 (V := matrix_lmodType R n (n + (n + (n + (1 + 1))))) ode h (tf_pack_abcej e) t tt in
  let: Elem A b C eta J := tf_unpack_abcej x in Some (Elem A b (symz C) eta (symz J)).
(** clqt_tf.py 670-691: singlePass; As[0] after a reverse scan, raising without steps *)
Definition tf_block_bw (dt : R) (steps : nat) (t0 : R) : option elem :=
  let? r := tf_scan_rev (fun e t => tf_elem_body tf_bw_f (- dt) e (t + dt)) (Elem 1%:M 0 0 0 0) (tf_times t0 dt steps) in
  if r is e :: _ then Some e else None.
(** clqt_tf.py 797-818: singlePass; As[-1] *)
Definition tf_block_fw (dt : R) (steps : nat) (t0 : R) : option elem :=
  let? r := tf_scan (fun e t => tf_elem_body tf_fw_f dt e t) (Elem 1%:M 0 0 0 0) (tf_times t0 dt steps) in
  if r is e :: r' then Some (last e r') else None.
(** clqt_tf.py 586-711, 713-838: the two initialisations *)
Definition tf_par_backwardpass_init (forward : bool) (blocks steps : nat) (dt t0 : R) (Q : 'M[R]_n) (v : 'cV[R]_n) :=
  let? es := omap_seq ((if forward then tf_block_fw else tf_block_bw) dt steps) (tf_blocks t0 dt blocks steps) in
  Some (rcons es (Elem 0 0 0 v Q)).
(** clqt_tf.py 840-883: clqt_par_backwardpass_extract *)
Definition tf_par_backwardpass_extract (es : seq elem) (steps : nat) (dt t0 : R) : option tf_bwd_res :=
  match es with
  | [::] => None
  | e :: es' =>
      let? rs := omap_seq (fun z => tf_seq_backwardpass steps dt z.1 (eJ z.2) (eeta z.2))
                   (zip (tf_blocks t0 dt (size es') steps) es') in
      Some (eJ e :: flatten [seq behead r.1.1.1 | r <- rs], eeta e :: flatten [seq behead r.1.1.2 | r <- rs],
            flatten [seq r.1.2 | r <- rs], flatten [seq r.2 | r <- rs])
  end.
(** clqt_tf.py 885-926: clqt_par_backwardpass; returns Ss, vs, Kxs, ds *)
Definition tf_par_backwardpass (blocks steps : nat) (dt t0 : R) Q v (forward : bool) (max_parallel : nat) : option tf_bwd_res :=
  let? es := tf_par_backwardpass_init forward blocks steps dt t0 Q v in
  let? es' := tfp_scan_rev (@lqt_par_comb_V R n) max_parallel es in
  tf_par_backwardpass_extract es' steps dt t0.

(** clqt_tf.py 950-991, 1052-1093: f and body of the two initialisations of the forward pass *)
Definition tf_psi_fw_f (x : 'M[R]_(n, n + 1)) (t : R) (Kd : 'M[R]_(m, n) * 'cV[R]_m) : option 'M[R]_(n, n + 1) :=
  let: (Psi, phi) := tf_unpack_Psiphi x in
  let F := kF P t - kL P t *m Kd.1 in
  let c := kc P t + kL P t *m Kd.2 in
  Some (tf_pack_Psiphi (F *m Psi, F *m phi + c)).
Definition tf_psi_bw_f (x : 'M[R]_(n, n + 1)) (t : R) (Kd : 'M[R]_(m, n) * 'cV[R]_m) : option 'M[R]_(n, n + 1) :=
  let: (Psi, phi) := tf_unpack_Psiphi x in
  let F := kF P t - kL P t *m Kd.1 in
  let c := kc P t + kL P t *m Kd.2 in
  Some (tf_pack_Psiphi (- (Psi *m F), - (Psi *m c))).
Definition tf_psi_body (forward : bool) (dt : R) (e : 'M[R]_n * 'cV[R]_n) (inp : R * 'M[R]_(m, n) * 'cV[R]_m) :=
  let: (t, K, d) := inp in
  let? x := (if forward then tf_rk4 (V := matrix_lmodType R n (n + 1)) tf_psi_fw_f dt (tf_pack_Psiphi e) t (K, d)
             else tf_rk4 (V := matrix_lmodType R n (n + 1)) tf_psi_bw_f (- dt) (tf_pack_Psiphi e) (t + dt) (K, d)) in
  Some (tf_unpack_Psiphi x).
(** clqt_tf.py 999-1021, 1102-1124: singlePass *)
Definition tf_block_psi (forward : bool) (dt : R) (steps : nat) (z : R * seq 'M[R]_(m, n) * seq 'cV[R]_m) :
    option ('M[R]_n * 'cV[R]_n) :=
  let: (t0, Ks, ds) := z in
  let inp := zip (zip (tf_times t0 dt steps) Ks) ds in
  if forward then
    let? r := tf_scan (tf_psi_body true dt) (1%:M, 0) inp in
    if r is e :: r' then Some (last e r') else None
  else
    let? r := tf_scan_rev (tf_psi_body false dt) (1%:M, 0) inp in
    if r is e :: _ then Some e else None.
(** clqt_tf.py 932-1032, 1034-1134: the two initialisations *)
Definition tf_par_forwardpass_init (forward : bool) (blocks steps : nat) x0 Ks ds (dt t0 : R) : option (seq ('M[R]_n * 'cV[R]_n)) :=
  let? Ks' := reshape2 blocks steps Ks in
  let? ds' := reshape2 blocks steps ds in
  let? es := omap_seq (tf_block_psi forward dt steps) (zip (zip (tf_blocks t0 dt blocks steps) Ks') ds') in
  Some ((1%:M, x0) :: es).
(** clqt_tf.py 1136-1173: clqt_par_forwardpass_extract; returns xs, us *)
Definition tf_par_forwardpass_extract Ks ds (es : seq ('M[R]_n * 'cV[R]_n)) (steps : nat) (dt t0 : R) (zoh : bool) :
    option (seq 'cV[R]_n * seq 'cV[R]_m) :=
  match es with
  | [::] => None
  | e :: es' =>
      let blocks := size es' in
      let? Ks' := reshape2 blocks steps Ks in
      let? ds' := reshape2 blocks steps ds in
      let? rs := omap_seq (fun z => let: (t, e, K, d) := z in tf_seq_forwardpass e.2 K d dt t zoh)
                   (zip (zip (zip (tf_blocks t0 dt blocks steps) (belast e es')) Ks') ds') in
      Some (rcons (flatten [seq take (size r.1).-1 r.1 | r <- rs]) (last e es').2, flatten [seq r.2 | r <- rs])
  end.
(** clqt_tf.py 1176-1210: clqt_par_forwardpass *)
Definition tf_par_forwardpass (blocks steps : nat) x0 Ks ds (dt t0 : R) (forward zoh : bool) (max_parallel : nat) :=
  let? es := tf_par_forwardpass_init forward blocks steps x0 Ks ds dt t0 in
  let? es' := tfp_scan_associative (fun x y => Some (lqt_par_comb_f x y)) (num_levels max_parallel) es in
  tf_par_forwardpass_extract Ks ds es' steps dt t0 zoh.

(** clqt_tf.py 1231-1271: par_fwdbwdpass_init; the last element of the other initialisation is dropped *)
Definition tf_par_fwdbwdpass_init (forward : bool) (blocks steps : nat) x0 (dt t0 : R) : option (seq elem) :=
  let? es := tf_par_backwardpass_init forward blocks steps dt t0 1%:M 0 in
  Some (Elem 0 x0 0 0 0 :: take (size es).-1 es).
(** clqt_tf.py 1273-1314: clqt_par_fwdbwdpass_extract *)
Definition tf_par_fwdbwdpass_extract (es : seq elem) Ss vs Ks ds (steps : nat) (dt t0 : R) : option (seq 'cV[R]_n * seq 'cV[R]_m) :=
  match es with
  | [::] => None
  | e :: es' =>
      let? rs := omap_seq (fun z => tf_seq_fwdbwdpass steps dt z.1 (eA z.2, eb z.2, eC z.2))
                   (zip (tf_blocks t0 dt (size es') steps) (belast e es')) in
      match rs with
      | [::] => None
      | r :: rs' =>
          match last r rs' with
          | [::] => None
          | x :: l => tf_combine_fwdbwd Ks ds Ss vs (rcons (flatten [seq take (size r).-1 r | r <- rs]) (last x l))
          end
      end
  end.
(** clqt_tf.py 1316-1347: clqt_par_fwdbwdpass *)
Definition tf_par_fwdbwdpass (blocks steps : nat) x0 Ss vs Ks ds (dt t0 : R) (forward : bool) (max_parallel : nat) :=
  let? es := tf_par_fwdbwdpass_init forward blocks steps x0 dt t0 in
  let? es' := tfp_scan_associative (@lqt_par_comb_V R n) (num_levels max_parallel) es in
  tf_par_fwdbwdpass_extract es' Ss vs Ks ds steps dt t0.
End Clqt.
