(** Model of parallel_control/parareal_clqt_np.py and parareal_clqt_tf.py over an arbitrary real field (exact arithmetic).

    Parallel lists (S_list and v_list; A_list, b_list and C_list) are one list of pairs or triples, added and subtracted
    entry by entry.  A loop over reversed(range(blocks)) that appends and reverses at the end is a recursion that conses.
    None is a raised exception. *)
From mathcomp Require Import all_ssreflect all_algebra.
From Verif Require Import ScanModel TfScan MxBase LqtModel LqtTfModel Rk4Model ClqtModel ClqtTfModel.
Import Order.TTheory GRing.Theory Num.Theory.
Set Implicit Arguments. Unset Strict Implicit. Unset Printing Implicit Defensive.
Local Open Scope ring_scope.

Section Loops.
Variable V : zmodType.
(** the loop of denseBackwardPass, parareal_clqt_np.py 70-76; [fine k x] is S_list[0], v_list[0] of block k from x *)
Fixpoint dense_bw (fine : nat -> V -> option V) (k : nat) (cs : seq V) : option (seq V) :=
  match cs with
  | [::] => None
  | c :: cs' =>
      match cs' with
      | [::] => Some [:: c]
      | c' :: _ => let? f := fine k c' in let? fs := dense_bw fine k.+1 cs' in Some (f :: fs)
      end
  end.
(** the loop of coarseBackwardPass, parareal_clqt_np.py 109-119: the current values and the coarse values *)
Fixpoint coarse_bw (coarse : nat -> V -> option V) (k : nat) (Fs Gs : seq V) : option (seq V * seq V) :=
  match Fs with
  | [::] => None
  | f :: Fs' =>
      match Fs' with
      | [::] => Some ([:: f], [:: f])
      | _ =>
          match Gs with
          | [::] => None
          | g :: Gs' =>
              let? '(cs, gs) := coarse_bw coarse k.+1 Fs' Gs' in
              if cs is x :: _ then let? y := coarse k x in Some (y + f - g :: cs, y :: gs) else None
          end
      end
  end.
(** the loops of denseForwardPass and denseFwdBwdPass, parareal_clqt_np.py 242-250, 402-412 *)
Fixpoint dense_fw (fine : nat -> V -> option V) (k : nat) (cs : seq V) : option (seq V) :=
  match cs with
  | [::] => Some [::]
  | c :: cs' =>
      match cs' with
      | [::] => Some [::]
      | _ => let? f := fine k c in let? fs := dense_fw fine k.+1 cs' in Some (f :: fs)
      end
  end.
(** the loops of coarseForwardPass and coarseFwdBwdPass, parareal_clqt_np.py 278-288, 447-463; [Fs] and [Gs] are the
    lists from place k + 1 on *)
Fixpoint coarse_fw (coarse : nat -> V -> option V) (k : nat) (x : V) (Fs Gs : seq V) : option (seq V * seq V) :=
  match Fs with
  | [::] => Some ([::], [::])
  | f :: Fs' =>
      match Gs with
      | [::] => None
      | g :: Gs' =>
          let? y := coarse k x in
          let x' := y + f - g in
          let? '(cs, gs) := coarse_fw coarse k.+1 x' Fs' Gs' in
          Some (x' :: cs, y :: gs)
      end
  end.
(** l[::s]; the step 0 raises *)
Definition stride {X} (s : nat) (l : seq X) : option (seq X) :=
  if s == 0%N then None else Some (mask [seq (i %% s == 0)%N | i <- iota 0 (size l)] l).
(** l[0], l[-1] *)
Definition first {X} (l : seq X) : option X := if l is x :: _ then Some x else None.
Definition final {X} (l : seq X) : option X := if l is x :: l' then Some (last x l') else None.
(** for i in range(niter): s = f(s) *)
Fixpoint iter_o {X} (niter : nat) (f : X -> option X) (s : X) : option X :=
  match niter with 0%N => Some s | i.+1 => let? s' := f s in iter_o i f s' end.
End Loops.

Section Np.
Variable R : realFieldType.
Variables n m p pT : nat.
Variable P : clqt R n m p pT.
Local Notation Sv := [zmodType of ('M[R]_n * 'cV[R]_n)%type].
Local Notation abc := [zmodType of ('M[R]_n * 'cV[R]_n * 'M[R]_n)%type].

(** seqBackwardPass(steps, dt=dt, t0=t1, S=S, v=v), parareal_clqt_np.py 76, 110, 156 *)
Definition block_bw (steps : nat) (dt t1 : R) (x : Sv) : option (bwd_res R n m) :=
  clqt_seqBackwardPass P steps (Some dt) (Some t1) (Some x.1) (Some x.2).
(** S_list[0], v_list[0] *)
Definition block_bw0 (steps : nat) (dt t1 : R) (x : Sv) : option Sv :=
  let? '(_, _, Ss, vs) := block_bw steps dt t1 x in
  let? Q := first Ss in let? v := first vs in Some (Q, v).

(** parareal_clqt_np.py 35-48: initBackwardPass *)
Definition initBackwardPass (blocks : nat) : option (seq Sv) :=
  let? dt := div_nats (kT P) [:: blocks] in
  let? '(_, _, Ss, vs) := clqt_seqBackwardPass P blocks (Some dt) None None None in
  Some (zip Ss vs).
(** parareal_clqt_np.py 49-81: denseBackwardPass *)
Definition denseBackwardPass (steps : nat) (cs : seq Sv) : option (seq Sv) :=
  let? dt := div_nats (kT P) [:: (size cs).-1; steps] in
  dense_bw (fun k => block_bw0 steps dt ((k * steps)%:R * dt)) 0 cs.
(** parareal_clqt_np.py 83-126: coarseBackwardPass *)
Definition coarseBackwardPass (Fs Gs : seq Sv) : option (seq Sv * seq Sv) :=
  let? dt := div_nats (kT P) [:: (size Fs).-1] in
  coarse_bw (fun k => block_bw0 1 dt (k%:R * dt)) 0 Fs Gs.
(** parareal_clqt_np.py 128-170: finalBackwardPass *)
Fixpoint final_bw (steps : nat) (dt : R) (k : nat) (cs : seq Sv) : option (bwd_res R n m) :=
  match cs with
  | [::] => None
  | c :: cs' =>
      match cs' with
      | [::] => Some ([::], [::], [:: c.1], [:: c.2])
      | c' :: _ =>
          let? '(bKs, bds, bSs, bvs) := block_bw steps dt ((k * steps)%:R * dt) c' in
          let? '(Ks, ds, Ss, vs) := final_bw steps dt k.+1 cs' in
          Some (take steps bKs ++ Ks, take steps bds ++ ds, take steps bSs ++ Ss, take steps bvs ++ vs)
      end
  end.
Definition finalBackwardPass (steps : nat) (cs : seq Sv) : option (bwd_res R n m) :=
  let? dt := div_nats (kT P) [:: (size cs).-1; steps] in final_bw steps dt 0 cs.
(** parareal_clqt_np.py 172-198: backwardPass *)
Definition para_backwardPass (blocks steps : nat) (niter : option nat) : option (bwd_res R n m) :=
  let niter := or_else niter steps in
  let? cs := initBackwardPass blocks in
  let? '(cs, _) := iter_o niter (fun s : seq Sv * seq Sv =>
                     let? Fs := denseBackwardPass steps s.1 in coarseBackwardPass Fs s.2) (cs, cs) in
  finalBackwardPass steps cs.

(** parareal_clqt_np.py 205-220: initForwardPass *)
Definition initForwardPass (blocks : nat) (x0 : 'cV[R]_n) (Ks : seq 'M[R]_(m, n)) (ds : seq 'cV[R]_m) (zoh : bool) :
    option (seq 'cV[R]_n) :=
  if blocks == 0%N then None
  else
    let steps := (size Ks %/ blocks)%N in
    let? Ks' := stride steps Ks in
    let? ds' := stride steps ds in
    let? '(_, xs) := clqt_seqForwardPass P x0 Ks' ds' None None zoh in Some xs.
(** seqForwardPass(x, Kx_list[a:b], d_list[a:b], dt=dt, t0=t1, u_zoh=u_zoh)[1][-1] *)
Definition block_fw (Ks : seq 'M[R]_(m, n)) (ds : seq 'cV[R]_m) (zoh : bool) (a b : nat) (dt t1 : R) (x : 'cV[R]_n) :=
  clqt_seqForwardPass P x (slice a b Ks) (slice a b ds) (Some dt) (Some t1) zoh.
Definition block_fwN Ks ds zoh a b dt t1 x : option 'cV[R]_n :=
  let? '(_, xs) := block_fw Ks ds zoh a b dt t1 x in final xs.
(** parareal_clqt_np.py 222-252: denseForwardPass *)
Definition denseForwardPass (steps : nat) (cs : seq 'cV[R]_n) Ks ds zoh : option (seq 'cV[R]_n) :=
  let? c := first cs in
  let? dt := div_nats (kT P) [:: (size cs).-1; steps] in
  let? fs := dense_fw (fun k => block_fwN Ks ds zoh (k * steps) (k.+1 * steps) dt ((k * steps)%:R * dt)) 0 cs in
  Some (c :: fs).
(** parareal_clqt_np.py 254-290: coarseForwardPass *)
Definition coarseForwardPass (Fs Gs : seq 'cV[R]_n) Ks ds zoh : option (seq 'cV[R]_n * seq 'cV[R]_n) :=
  let blocks := (size Fs).-1 in
  let? x := first Fs in
  let? dt := div_nats (kT P) [:: blocks] in
  let steps := (size Ks %/ blocks)%N in
  let? '(cs, gs) := coarse_fw (fun k => block_fwN Ks ds zoh (k * steps) (k * steps + 1) dt (k%:R * dt)) 0 x (behead Fs) (behead Gs) in
  Some (x :: cs, x :: gs).
(** parareal_clqt_np.py 292-327: finalForwardPass; [xl] is bx_list[-1] of the block before *)
Fixpoint final_fw (steps : nat) (dt : R) Ks ds zoh (k : nat) (xl : option 'cV[R]_n) (cs : seq 'cV[R]_n) :
    option (seq 'cV[R]_m * seq 'cV[R]_n) :=
  match cs with
  | [::] => None
  | c :: cs' =>
      match cs' with
      | [::] => let? x := xl in Some ([::], [:: x])
      | _ =>
          let? '(bus, bxs) := block_fw Ks ds zoh (k * steps) (k.+1 * steps) dt ((k * steps)%:R * dt) c in
          if (size bus < steps)%N then None
          else
            let? '(us, xs) := final_fw steps dt Ks ds zoh k.+1 (final bxs) cs' in
            Some (take steps bus ++ us, take steps bxs ++ xs)
      end
  end.
Definition finalForwardPass (steps : nat) (cs : seq 'cV[R]_n) Ks ds zoh : option (seq 'cV[R]_m * seq 'cV[R]_n) :=
  let? dt := div_nats (kT P) [:: (size cs).-1; steps] in final_fw steps dt Ks ds zoh 0 None cs.
(** parareal_clqt_np.py 329-356: forwardPass *)
Definition para_forwardPass (blocks steps : nat) (x0 : 'cV[R]_n) Ks ds zoh (niter : option nat) :
    option (seq 'cV[R]_m * seq 'cV[R]_n) :=
  let niter := or_else niter steps in
  let? cs := initForwardPass blocks x0 Ks ds zoh in
  let? '(cs, _) := iter_o niter (fun s : seq 'cV[R]_n * seq 'cV[R]_n =>
                     let? Fs := denseForwardPass steps s.1 Ks ds zoh in coarseForwardPass Fs s.2 Ks ds zoh) (cs, cs) in
  finalForwardPass steps cs Ks ds zoh.

(** parareal_clqt_np.py 362-377: initFwdBwdPass *)
Definition initFwdBwdPass (blocks : nat) (x0 : 'cV[R]_n) : option (seq abc) :=
  let? dt := div_nats (kT P) [:: blocks] in
  clqt_seqFwdBwdPass P x0 blocks (Some dt) None None None None.
(** seqFwdBwdPass(None, steps, dt=dt, t0=t1, A=A, b=b, C=C) *)
Definition block_abc (steps : nat) (dt t1 : R) (e : abc) : option (seq abc) :=
  clqt_seqFwdBwdPass P 0 steps (Some dt) (Some t1) (Some e.1.1) (Some e.1.2) (Some e.2).
Definition block_abcN (steps : nat) (dt t1 : R) (e : abc) : option abc :=
  let? es := block_abc steps dt t1 e in final es.
(** parareal_clqt_np.py 379-414: denseFwdBwdPass *)
Definition denseFwdBwdPass (steps : nat) (cs : seq abc) : option (seq abc) :=
  let? c := first cs in
  let? dt := div_nats (kT P) [:: (size cs).-1; steps] in
  let? fs := dense_fw (fun k => block_abcN steps dt ((k * steps)%:R * dt)) 0 cs in
  Some (c :: fs).
(** parareal_clqt_np.py 416-465: coarseFwdBwdPass *)
Definition coarseFwdBwdPass (Fs Gs : seq abc) : option (seq abc * seq abc) :=
  let? x := first Fs in
  let? dt := div_nats (kT P) [:: (size Fs).-1] in
  let? '(cs, gs) := coarse_fw (fun k => block_abcN 1 dt (k%:R * dt)) 0 x (behead Fs) (behead Gs) in
  Some (x :: cs, x :: gs).
(** parareal_clqt_np.py 467-507: finalFwdBwdPass *)
Fixpoint final_abc (steps : nat) (dt : R) (k : nat) (el : option abc) (cs : seq abc) : option (seq abc) :=
  match cs with
  | [::] => None
  | c :: cs' =>
      match cs' with
      | [::] => let? e := el in Some [:: e]
      | _ =>
          let? bes := block_abc steps dt ((k * steps)%:R * dt) c in
          let? es := final_abc steps dt k.+1 (final bes) cs' in
          Some (take steps bes ++ es)
      end
  end.
Definition finalFwdBwdPass (steps : nat) (cs : seq abc) : option (seq abc) :=
  let? dt := div_nats (kT P) [:: (size cs).-1; steps] in final_abc steps dt 0 None cs.
(** parareal_clqt_np.py 509-536: fwdBwdPass *)
Definition para_fwdBwdPass (blocks steps : nat) (x0 : 'cV[R]_n) (niter : option nat) : option (seq abc) :=
  let niter := or_else niter steps in
  let? cs := initFwdBwdPass blocks x0 in
  let? '(cs, _) := iter_o niter (fun s : seq abc * seq abc =>
                     let? Fs := denseFwdBwdPass steps s.1 in coarseFwdBwdPass Fs s.2) (cs, cs) in
  finalFwdBwdPass steps cs.
End Np.

(** parareal_clqt_tf.py; the divisors [blocks] and [steps] are taken to be positive (the division T / 0 gives inf), a pass
    over a batch of blocks is the pass over every block, tf.scan needs inputs of one length *)
Section Tf.
Variable R : realFieldType.
Variables n m p pT : nat.
Variable P : clqt R n m p pT.
Local Notation Sv := [zmodType of ('M[R]_n * 'cV[R]_n)%type].
Local Notation abc := [zmodType of ('M[R]_n * 'cV[R]_n * 'M[R]_n)%type].

(** tf.range(0, blocks) * steps * dt, tf.range(0, blocks) * dt *)
Definition tf_starts (blocks steps : nat) (dt : R) : seq R := [seq k%:R * steps%:R * dt | k <- iota 0 blocks].
Definition tf_coarse_ts (blocks : nat) (dt : R) : seq R := [seq k%:R * dt | k <- iota 0 blocks].
(** x[-1], x[:-1] *)
Definition but_last {X} (l : seq X) : seq X := take (size l).-1 l.
(** the last of the carries of tf.scan(body, tf.range(0, niter), initializer); [-1] raises without a step *)
Definition tf_iter {X} (niter : nat) (f : X -> option X) (s : X) : option X :=
  let? r := tf_scan (fun s (_ : nat) => f s) s (iota 0 niter) in final r.

(** parareal_clqt_tf.py 24-41: pclqt_init_backwardpass *)
Definition tf_init_backwardpass (blocks : nat) : option (seq Sv) :=
  let? '(Ss, vs, _, _) := tf_seq_backwardpass P blocks (kT P / blocks%:R) 0 (tf_ST P) (tf_vT P) in Some (zip Ss vs).
(** parareal_clqt_tf.py 44-71: pclqt_dense_backwardpass *)
Definition tf_dense_backwardpass (steps : nat) (cs : seq Sv) : option (seq Sv) :=
  let? xl := final cs in
  let blocks := (size cs).-1 in
  let dt := kT P / (blocks * steps)%:R in
  let? fs := omap_seq (fun z : R * Sv =>
               let? '(Ss, vs, _, _) := tf_seq_backwardpass P steps dt z.1 z.2.1 z.2.2 in
               let? Q := first Ss in let? v := first vs in Some ((Q, v) : Sv)) (zip (tf_starts blocks steps dt) (behead cs)) in
  Some (rcons fs xl).
(** parareal_clqt_tf.py 73-118: pclqt_coarse_backwardpass *)
Definition tf_coarse_bw_body (dt : R) (carry : Sv * Sv) (inp : R * Sv * Sv) : option (Sv * Sv) :=
  let: (t, xF, xG) := inp in
  let? '(Ss, vs, _, _) := tf_seq_backwardpass P 1 dt t carry.1.1 carry.1.2 in
  let? Q := first Ss in let? v := first vs in
  let y : Sv := (Q, v) in
  Some (y + xF - xG, y).
Definition tf_coarse_backwardpass (Fs Gs : seq Sv) : option (seq Sv * seq Sv) :=
  let? xl := final Fs in
  let blocks := (size Fs).-1 in
  let dt := kT P / blocks%:R in
  if size Gs != size Fs then None
  else
    let? r := tf_scan_rev (tf_coarse_bw_body dt) (xl, xl) (zip (zip (tf_coarse_ts blocks dt) (but_last Fs)) (but_last Gs)) in
    Some (rcons (map fst r) xl, rcons (map snd r) xl).
(** parareal_clqt_tf.py 120-161: pclqt_final_backwardpass *)
Definition tf_final_backwardpass (steps : nat) (cs : seq Sv) : option (tf_bwd_res R n m) :=
  let? xl := final cs in
  let blocks := (size cs).-1 in
  let dt := kT P / blocks%:R / steps%:R in
  let? rs := omap_seq (fun z : R * Sv => tf_seq_backwardpass P steps dt z.1 z.2.1 z.2.2) (zip (tf_starts blocks steps dt) (behead cs)) in
  Some (rcons (flatten [seq but_last r.1.1.1 | r <- rs]) xl.1, rcons (flatten [seq but_last r.1.1.2 | r <- rs]) xl.2,
        flatten [seq r.1.2 | r <- rs], flatten [seq r.2 | r <- rs]).
(** parareal_clqt_tf.py 163-202: pclqt_backwardpass *)
Definition tf_para_backwardpass (blocks steps niter : nat) : option (tf_bwd_res R n m) :=
  let? cs := tf_init_backwardpass blocks in
  let? '(cs, _) := tf_iter niter (fun s : seq Sv * seq Sv =>
                     let? Fs := tf_dense_backwardpass steps s.1 in tf_coarse_backwardpass Fs s.2) (cs, cs) in
  tf_final_backwardpass steps cs.

(** parareal_clqt_tf.py 209-235: pclqt_init_forwardpass; [:, 0] raises without steps *)
Definition tf_init_forwardpass (blocks steps : nat) (x0 : 'cV[R]_n) (Ks : seq 'M[R]_(m, n)) (ds : seq 'cV[R]_m) (zoh : bool) :
    option (seq 'cV[R]_n) :=
  let? Ks' := reshape2 blocks steps Ks in
  let? ds' := reshape2 blocks steps ds in
  let? Ks0 := omap_seq first Ks' in
  let? ds0 := omap_seq first ds' in
  let? '(xs, _) := tf_seq_forwardpass P x0 Ks0 ds0 (kT P / blocks%:R) 0 zoh in Some xs.
(** clqt_seq_forwardpass over the blocks *)
Definition tf_blocks_forward (steps : nat) (dt : R) (cs : seq 'cV[R]_n) Ks ds zoh : option (seq (seq 'cV[R]_n * seq 'cV[R]_m)) :=
  let blocks := (size cs).-1 in
  let? Ks' := reshape2 blocks steps Ks in
  let? ds' := reshape2 blocks steps ds in
  omap_seq (fun z : R * 'cV[R]_n * seq 'M[R]_(m, n) * seq 'cV[R]_m =>
    let: (t, x, K, d) := z in tf_seq_forwardpass P x K d dt t zoh)
    (zip (zip (zip (tf_starts blocks steps dt) (but_last cs)) Ks') ds').
(** parareal_clqt_tf.py 238-267: pclqt_dense_forwardpass *)
Definition tf_dense_forwardpass (steps : nat) (cs : seq 'cV[R]_n) Ks ds zoh : option (seq 'cV[R]_n) :=
  let? c := first cs in
  let? rs := tf_blocks_forward steps (kT P / ((size cs).-1 * steps)%:R) cs Ks ds zoh in
  let? fs := omap_seq (fun r => final r.1) rs in
  Some (c :: fs).
(** parareal_clqt_tf.py 270-312: pclqt_coarse_forwardpass *)
Definition tf_coarse_fw_body (zoh : bool) (dt : R) (carry : 'cV[R]_n * 'cV[R]_n) (inp : R * 'cV[R]_n * 'cV[R]_n * 'M[R]_(m, n) * 'cV[R]_m) :
    option ('cV[R]_n * 'cV[R]_n) :=
  let: (t, xF, xG, K, d) := inp in
  let? '(xs, _) := tf_seq_forwardpass P carry.1 [:: K] [:: d] dt t zoh in
  let? y := final xs in
  Some (y + xF - xG, y).
Definition tf_coarse_forwardpass (steps : nat) (Fs Gs : seq 'cV[R]_n) Ks ds zoh : option (seq 'cV[R]_n * seq 'cV[R]_n) :=
  let? x := first Fs in
  let blocks := (size Fs).-1 in
  let dt := kT P / blocks%:R in
  let? Ks' := stride steps Ks in
  let? ds' := stride steps ds in
  if (size Gs != size Fs) || (size Ks' != blocks) || (size ds' != blocks) then None
  else
    let? r := tf_scan (tf_coarse_fw_body zoh dt) (x, x)
                (zip (zip (zip (zip (tf_coarse_ts blocks dt) (behead Fs)) (behead Gs)) Ks') ds') in
    Some (x :: map fst r, x :: map snd r).
(** parareal_clqt_tf.py 315-353: pclqt_final_forwardpass; returns xs, us *)
Definition tf_final_forwardpass (steps : nat) (cs : seq 'cV[R]_n) Ks ds zoh : option (seq 'cV[R]_n * seq 'cV[R]_m) :=
  let? rs := tf_blocks_forward steps (kT P / ((size cs).-1 * steps)%:R) cs Ks ds zoh in
  let? r := final rs in
  let? xT := final r.1 in
  Some (rcons (flatten [seq but_last r.1 | r <- rs]) xT, flatten [seq r.2 | r <- rs]).
(** parareal_clqt_tf.py 356-394: pclqt_forwardpass; returns xs, us *)
Definition tf_para_forwardpass (blocks steps niter : nat) (x0 : 'cV[R]_n) Ks ds zoh : option (seq 'cV[R]_n * seq 'cV[R]_m) :=
  let? cs := tf_init_forwardpass blocks steps x0 Ks ds zoh in
  let? '(cs, _) := tf_iter niter (fun s : seq 'cV[R]_n * seq 'cV[R]_n =>
                     let? Fs := tf_dense_forwardpass steps s.1 Ks ds zoh in tf_coarse_forwardpass steps Fs s.2 Ks ds zoh) (cs, cs) in
  tf_final_forwardpass steps cs Ks ds zoh.
(** parareal_clqt_tf.py 397-418: pclqt_backwardforwardpass; returns xs, us *)
Definition tf_para_backwardforwardpass (blocks steps niter : nat) (x0 : 'cV[R]_n) :=
  let? '(_, _, Ks, ds) := tf_para_backwardpass blocks steps niter in
  tf_para_forwardpass blocks steps niter x0 Ks ds false.

(** parareal_clqt_tf.py 422-438: pclqt_init_fwdbwdpass *)
Definition tf_init_fwdbwdpass (blocks : nat) (x0 : 'cV[R]_n) : option (seq abc) :=
  tf_seq_fwdbwdpass P blocks (kT P / blocks%:R) 0 (0, x0, 0).
(** parareal_clqt_tf.py 441-473: pclqt_dense_fwdbwdpass *)
Definition tf_dense_fwdbwdpass (steps : nat) (cs : seq abc) : option (seq abc) :=
  let? c := first cs in
  let blocks := (size cs).-1 in
  let dt := kT P / (blocks * steps)%:R in
  let? fs := omap_seq (fun z : R * abc => let? es := tf_seq_fwdbwdpass P steps dt z.1 z.2 in final es)
               (zip (tf_starts blocks steps dt) (but_last cs)) in
  Some (c :: fs).
(** parareal_clqt_tf.py 475-528: pclqt_coarse_fwdbwdpass *)
Definition tf_coarse_abc_body (dt : R) (carry : abc * abc) (inp : R * abc * abc) : option (abc * abc) :=
  let: (t, xF, xG) := inp in
  let? es := tf_seq_fwdbwdpass P 1 dt t carry.1 in
  let? y := final es in
  Some ((y : abc) + xF - xG, y).
Definition tf_coarse_fwdbwdpass (Fs Gs : seq abc) : option (seq abc * seq abc) :=
  let? x := first Fs in
  let blocks := (size Fs).-1 in
  let dt := kT P / blocks%:R in
  if size Gs != size Fs then None
  else
    let? r := tf_scan (tf_coarse_abc_body dt) (x, x) (zip (zip (tf_coarse_ts blocks dt) (behead Fs)) (behead Gs)) in
    Some (x :: map fst r, x :: map snd r).
(** parareal_clqt_tf.py 530-571: pclqt_final_fwdbwdpass *)
Definition tf_final_fwdbwdpass (steps : nat) (cs : seq abc) : option (seq abc) :=
  let blocks := (size cs).-1 in
  let dt := kT P / blocks%:R / steps%:R in
  let? rs := omap_seq (fun z : R * abc => tf_seq_fwdbwdpass P steps dt z.1 z.2) (zip (tf_starts blocks steps dt) (but_last cs)) in
  let? r := final rs in
  let? eT := final r in
  Some (rcons (flatten [seq but_last r | r <- rs]) eT).
(** parareal_clqt_tf.py 574-612: pclqt_fwdbwdpass *)
Definition tf_para_fwdbwdpass (blocks steps niter : nat) (x0 : 'cV[R]_n) : option (seq abc) :=
  let? cs := tf_init_fwdbwdpass blocks x0 in
  let? '(cs, _) := tf_iter niter (fun s : seq abc * seq abc =>
                     let? Fs := tf_dense_fwdbwdpass steps s.1 in tf_coarse_fwdbwdpass Fs s.2) (cs, cs) in
  tf_final_fwdbwdpass steps cs.
(** parareal_clqt_tf.py 615-636: pclqt_backwardbwdfwdpass; returns xs, us *)
Definition tf_para_backwardbwdfwdpass (blocks steps niter : nat) (x0 : 'cV[R]_n) :=
  let? '(Ss, vs, Ks, ds) := tf_para_backwardpass blocks steps niter in
  let? es := tf_para_fwdbwdpass blocks steps niter x0 in
  tf_combine_fwdbwd Ks ds Ss vs es.
End Tf.
