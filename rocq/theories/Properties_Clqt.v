(** C42-C47, C68-C70: the continuous-time linear quadratic tracker of clqt_np.py and clqt_tf.py. *)
From mathcomp Require Import all_ssreflect all_algebra.
From Verif Require Import ScanModel MxBase LqtModel LqtSpec LqtElem Rk4Model Rk4Spec ClqtModel ClqtSpec ClqtTfModel.
From Verif Require Import ClqtPack ClqtFwd2 ClqtVal ClqtTf ClqtTf2 ClqtTf3 ClqtTf4 ClqtHjb ClqtEx ClqtEx2.
Import Order.TTheory GRing.Theory Num.Theory.
Set Implicit Arguments. Unset Strict Implicit. Unset Printing Implicit Defensive.
Local Open Scope ring_scope.
Local Notation Qf := [realFieldType of rat].

(** ** C42 *)
(** packing then unpacking, and unpacking then packing, are the identity: NumPy *)
Theorem C42_round_trips_np (R : realFieldType) (n : nat) :
  [/\ cancel (@pack_abcej R n) (@unpack_abcej R n) /\ cancel (@unpack_abcej R n) (@pack_abcej R n),
      cancel (@pack_abc R n) (@unpack_abc R n) /\ cancel (@unpack_abc R n) (@pack_abc R n),
      cancel (@pack_Psiphi R n) (@unpack_Psiphi R n) /\ cancel (@unpack_Psiphi R n) (@pack_Psiphi R n)
    & cancel (@pack_Sv R n) (@unpack_Sv R n) /\ cancel (@unpack_Sv R n) (@pack_Sv R n)].
Proof. exact: C42_np_l. Qed.
Print Assumptions C42_round_trips_np.
Example C42_round_trips_np_ex : let e : elem Qf 1 := Elem 1%:M 2%:R%:M 3%:R%:M 4%:R%:M 6%:R%:M in
  [/\ forall i, ent (pack_abcej e) i 0 = 1, forall i, ent (pack_abcej e) i 1 = 3%:R, forall i, ent (pack_abcej e) i 2 = 6%:R,
      forall i, ent (pack_abcej e) i 3 = 2%:R & forall i, ent (pack_abcej e) i 4 = 4%:R].
Proof. exact: (ex_pack Qf). Qed.

(** the same: TensorFlow *)
Theorem C42_round_trips_tf (R : realFieldType) (n : nat) :
  [/\ cancel (@tf_pack_abcej R n) (@tf_unpack_abcej R n) /\ cancel (@tf_unpack_abcej R n) (@tf_pack_abcej R n),
      cancel (@tf_pack_abc R n) (@tf_unpack_abc R n) /\ cancel (@tf_unpack_abc R n) (@tf_pack_abc R n),
      cancel (@tf_pack_Psiphi R n) (@tf_unpack_Psiphi R n) /\ cancel (@tf_unpack_Psiphi R n) (@tf_pack_Psiphi R n)
    & cancel (@tf_pack_Sv R n) (@tf_unpack_Sv R n) /\ cancel (@tf_unpack_Sv R n) (@tf_pack_Sv R n)].
Proof. exact: C42_tf_l. Qed.
Print Assumptions C42_round_trips_tf.
Example C42_round_trips_tf_ex : forall i, ent (tf_pack_abcej (Elem (1%:M : 'M[rat]_1) 2%:R%:M 3%:R%:M 4%:R%:M 6%:R%:M)) i 1 = 3%:R.
Proof. exact: (ex_pack_tf Qf). Qed.

(** both libraries lay the parameters out in the same way *)
Theorem C42_same_layout (R : realFieldType) (n : nat) (e : elem R n) (f : 'M[R]_n * 'cV[R]_n * 'M[R]_n) (g : 'M[R]_n * 'cV[R]_n) :
  [/\ forall i j, ent (tf_pack_abcej e) i j = ent (pack_abcej e) i j, forall i j, ent (tf_pack_abc f) i j = ent (pack_abc f) i j,
      tf_pack_Psiphi g = pack_Psiphi g & tf_pack_Sv g = pack_Sv g].
Proof. exact: C42_layout_l. Qed.
Print Assumptions C42_same_layout.
Example C42_same_layout_ex : forall i, ent (tf_pack_abcej (Elem (1%:M : 'M[rat]_1) 2%:R%:M 3%:R%:M 4%:R%:M 6%:R%:M)) i 1 = 3%:R.
Proof. exact: (ex_pack_tf Qf). Qed.

(** packing and unpacking commute with a x + y, the operations of the integrator *)
Theorem C42_linear (R : realFieldType) (n : nat) (a : R) (e f : elem R n) (x y : 'M[R]_(n, 3 * n + 2))
    (x' y' : 'M[R]_(n, n + (n + (n + (1 + 1))))) (g h : 'M[R]_n * 'cV[R]_n) (z w : 'M[R]_(n, n + 1))
    (i j : 'M[R]_n * 'cV[R]_n * 'M[R]_n) :
  let lin e f := Elem (a *: eA e + eA f) (a *: eb e + eb f) (a *: eC e + eC f) (a *: eeta e + eeta f) (a *: eJ e + eJ f) in
  [/\ pack_abcej (lin e f) = a *: pack_abcej e + pack_abcej f /\ unpack_abcej (a *: x + y) = lin (unpack_abcej x) (unpack_abcej y),
      tf_pack_abcej (lin e f) = a *: tf_pack_abcej e + tf_pack_abcej f /\
      tf_unpack_abcej (a *: x' + y') = lin (tf_unpack_abcej x') (tf_unpack_abcej y'),
      pack_Psiphi (a *: g.1 + h.1, a *: g.2 + h.2) = a *: pack_Psiphi g + pack_Psiphi h /\
      unpack_Psiphi (a *: z + w) = (a *: (unpack_Psiphi z).1 + (unpack_Psiphi w).1, a *: (unpack_Psiphi z).2 + (unpack_Psiphi w).2),
      pack_Sv (a *: g.1 + h.1, a *: g.2 + h.2) = a *: pack_Sv g + pack_Sv h /\
      unpack_Sv (a *: z + w) = (a *: (unpack_Sv z).1 + (unpack_Sv w).1, a *: (unpack_Sv z).2 + (unpack_Sv w).2)
    & pack_abc (a *: i.1.1 + j.1.1, a *: i.1.2 + j.1.2, a *: i.2 + j.2) = a *: pack_abc i + pack_abc j].
Proof. exact: C42_linear_l. Qed.
Print Assumptions C42_linear.
Example C42_linear_ex : let e : elem Qf 1 := Elem 1%:M 2%:R%:M 3%:R%:M 4%:R%:M 6%:R%:M in
  [/\ forall i, ent (pack_abcej e) i 0 = 1, forall i, ent (pack_abcej e) i 1 = 3%:R, forall i, ent (pack_abcej e) i 2 = 6%:R,
      forall i, ent (pack_abcej e) i 3 = 2%:R & forall i, ent (pack_abcej e) i 4 = 4%:R].
Proof. exact: (ex_pack Qf). Qed.

(** ** C43 *)
(** the parallel forward pass is the sequential one, exceptions included; wrong lengths raise *)
Theorem C43_parallel_is_sequential (R : realFieldType) (n m p pT : nat) (P : clqt R n m p pT)
    (x0 : 'cV[R]_n) (Ks : seq 'M[R]_(m, n)) (ds : seq 'cV[R]_m) (blocks steps : nat) (dt t0 : option R) (forward : bool) :
  ((blocks * steps)%N = size Ks ->
     clqt_parForwardPass P x0 Ks ds blocks steps dt t0 forward false = clqt_seqForwardPass P x0 Ks ds dt t0 false) /\
  ((blocks * steps)%N <> size Ks -> clqt_parForwardPass P x0 Ks ds blocks steps dt t0 forward false = None).
Proof. exact: C43_np_l. Qed.
Print Assumptions C43_parallel_is_sequential.
Example C43_parallel_is_sequential_ex (forward : bool) :
  clqt_parForwardPass (ex_problem (1 : Qf) 1) 1%:M [:: 1%:M; 1%:M] [:: 0; 0] 2 1 (Some 1) None forward false =
  Some ([:: (- 1)%:M; (- (3%:R / (4%:R * 2%:R)))%:M],
        [:: 1%:M; (3%:R / (4%:R * 2%:R))%:M; (3%:R / (4%:R * 2%:R) * (3%:R / (4%:R * 2%:R)))%:M]).
Proof. exact: ex_par_forward. Qed.

(** TensorFlow; max_parallel bounds the length the library's scan handles *)
Theorem C43_parallel_is_sequential_tf (R : realFieldType) (n m p pT : nat) (P : clqt R n m p pT)
    (x0 : 'cV[R]_n) (Ks : seq 'M[R]_(m, n)) (ds : seq 'cV[R]_m) (blocks steps : nat) (dt t0 : R) (forward : bool) (mp : nat) :
  size Ks = (blocks * steps)%N -> size ds = (blocks * steps)%N -> (0 < steps)%N -> (0 < blocks)%N -> (blocks + 1 < 2 * mp)%N ->
  tf_par_forwardpass P blocks steps x0 Ks ds dt t0 forward false mp = tf_seq_forwardpass P x0 Ks ds dt t0 false.
Proof. exact: par_forward_seq_tf. Qed.
Print Assumptions C43_parallel_is_sequential_tf.
Example C43_parallel_is_sequential_tf_ex (forward : bool) :
  tf_par_forwardpass (ex_problem (1 : Qf) 1) 2 1 1%:M [:: 1%:M; 1%:M] [:: 0; 0] 1 0 forward false 2 =
  Some ([:: 1%:M; (3%:R / (4%:R * 2%:R))%:M; (3%:R / (4%:R * 2%:R) * (3%:R / (4%:R * 2%:R)))%:M],
        [:: (- 1)%:M; (- (3%:R / (4%:R * 2%:R)))%:M]).
Proof. exact: ex_par_forward_tf. Qed.

(** ** C44: false of the code.  With a zero-order hold the block elements still integrate the feedback law, so the states
    at block boundaries differ from those of the sequential pass. *)
Theorem C44_zero_order_hold_refuted (R : realFieldType) (forward : bool) :
  exists (P : clqt R 1 1 1 1) x0 Ks ds us xs xs', [/\ size Ks = 1%N, size ds = 1%N,
    clqt_seqForwardPass P x0 Ks ds (Some 1) None true = Some (us, xs),
    clqt_parForwardPass P x0 Ks ds 1 1 (Some 1) None forward true = Some (us, xs') & xs <> xs'].
Proof. exact: ex_zoh_refuted. Qed.
Print Assumptions C44_zero_order_hold_refuted.
Example C44_zero_order_hold_refuted_ex : clqt_seqForwardPass (ex_problem (1 : Qf) 1) 1%:M [:: 1%:M] [:: 0] (Some 1) None true = Some ([:: (- 1)%:M], [:: 1%:M; 0]) /\
  clqt_parForwardPass (ex_problem (1 : Qf) 1) 1%:M [:: 1%:M] [:: 0] 1 1 (Some 1) None false true =
  Some ([:: (- 1)%:M], [:: 1%:M; (3%:R / (4%:R * 2%:R))%:M]).
Proof. exact: (conj (ex_seq_zoh _) (ex_par_zoh _ _)). Qed.

(** ** C45 *)
(** prepending the element of a short Euler step moves the parameters along the backward equations, up to the square of
    the step *)
Theorem C45_backward_equations (R : realFieldType) (n m p pT : nat) (P : clqt R n m p pT) (t : R) (e : elem R n) y :
  (forall t, symm (kU P t) /\ pd (kU P t)) -> bwpass_bw_ode_f P (pack_abcej e) t = Some y ->
  exists delta B, [/\ 0 < delta, 0 <= B & forall h, 0 < h -> h <= delta ->
    exists f e', [/\ stage_elem (euler_stage P t h) = Some f, combine_abcej f e = Some e' &
      elem_within (B * h ^+ 2) e' (elem_move (- h) (unpack_abcej y) e)]].
Proof. exact: C45_backward_l. Qed.
Print Assumptions C45_backward_equations.
Example C45_backward_equations_ex : exists y, bwpass_bw_ode_f (ex_problem (1 : Qf) 1) (pack_abcej (Elem 1%:M 0 0 0 1%:M)) 0 = Some y /\
  unpack_abcej y = Elem 1%:M 0 (- 1%:M) (- 1%:M) 0.
Proof. exact: ex_ode. Qed.

(** appending, and the forward equations *)
Theorem C45_forward_equations (R : realFieldType) (n m p pT : nat) (P : clqt R n m p pT) (t : R) (e : elem R n) y :
  (forall t, symm (kU P t) /\ pd (kU P t)) -> bwpass_fw_ode_f P (pack_abcej e) t = Some y ->
  exists delta B, [/\ 0 < delta, 0 <= B & forall h, 0 < h -> h <= delta ->
    exists f e', [/\ stage_elem (euler_stage P t h) = Some f, combine_abcej e f = Some e' &
      elem_within (B * h ^+ 2) e' (elem_move h (unpack_abcej y) e)]].
Proof. exact: C45_forward_l. Qed.
Print Assumptions C45_forward_equations.
Example C45_forward_equations_ex : exists y, bwpass_fw_ode_f (ex_problem (1 : Qf) 1) (pack_abcej (Elem 1%:M 0 1%:M 0 0)) 0 = Some y /\
  unpack_abcej y = Elem (- 1%:M) 1%:M 0 1%:M 1%:M.
Proof. exact: ex_fode. Qed.

(** J, eta of the backward equations obey the Riccati equation of the sequential pass; A, b, C of the forward equations
    the equation of the forward value function *)
Theorem C45_same_as_sequential (R : realFieldType) (n m p pT : nat) (P : clqt R n m p pT) (t : R) (e : elem R n) :
  (forall t, symm (kU P t) /\ pd (kU P t)) ->
  (forall y, bwpass_bw_ode_f P (pack_abcej e) t = Some y ->
     exists z, riccati_ode_f P (pack_Sv (eJ e, eeta e)) t = Some z /\ unpack_Sv z = (eJ (unpack_abcej y), eeta (unpack_abcej y))) /\
  (forall y, bwpass_fw_ode_f P (pack_abcej e) t = Some y ->
     exists z, fwdbwdpass_ode_f P (pack_abc (eA e, eb e, eC e)) t = Some z /\
       unpack_abc z = (eA (unpack_abcej y), eb (unpack_abcej y), eC (unpack_abcej y))).
Proof. exact: C45_same_l. Qed.
Print Assumptions C45_same_as_sequential.
Example C45_same_as_sequential_ex : exists y, bwpass_bw_ode_f (ex_problem (1 : Qf) 1) (pack_abcej (Elem 1%:M 0 0 0 1%:M)) 0 = Some y /\
  unpack_abcej y = Elem 1%:M 0 (- 1%:M) (- 1%:M) 0.
Proof. exact: ex_ode. Qed.

(** integrated over a block backwards, J and eta are exactly the value of the sequential pass from a zero terminal cost *)
Theorem C45_block_is_sequential_pass (R : realFieldType) (n m p pT : nat) (P : clqt R n m p pT)
    (blocks steps : nat) (dt t0 : R) (k : nat) es :
  (k < blocks)%N -> clqt_parBackwardPass_init P blocks steps dt t0 false = Some es ->
  exists Ks ds Ss vs,
    clqt_seqBackwardPass P steps (Some dt) (Some (t0 + (k * steps)%:R * dt)) (Some 0) (Some 0) = Some (Ks, ds, Ss, vs) /\
    nth 0 Ss 0 = eJ (nth (Elem 0 0 0 0 0) es k) /\ nth 0 vs 0 = eeta (nth (Elem 0 0 0 0 0) es k).
Proof. exact: block_J. Qed.
Print Assumptions C45_block_is_sequential_pass.
Example C45_block_is_sequential_pass_ex dt t0 : clqt_parBackwardPass_init (ex_problem (1 : Qf) 0) 2 1 dt t0 false =
  Some [:: Elem 1%:M 0 (dt * (1 * 1))%:M 0 0; Elem 1%:M 0 (dt * (1 * 1))%:M 0 0; Elem 0 0 0 1%:M 1%:M].
Proof. exact: ex_init. Qed.

(** ** C46 *)
Theorem C46_sequential_backward (R : realFieldType) (n m p pT : nat) (P : clqt R n m p pT) (steps : nat) (dt t0 : option R) Ks ds Ss vs :
  symm (kXT P) -> clqt_seqBackwardPass P steps dt t0 None None = Some (Ks, ds, Ss, vs) ->
  [/\ size Ks = steps, size ds = steps, size Ss = steps.+1, size vs = steps.+1 &
    [/\ forall Q, Q \in Ss -> symm Q, last 0 Ss = (kHT P)^T *m kXT P *m kHT P & last 0 vs = (kHT P)^T *m kXT P *m krT P]].
Proof. exact: C46_seq_l. Qed.
Print Assumptions C46_sequential_backward.
Example C46_sequential_backward_ex : clqt_seqBackwardPass (ex_problem (1 : Qf) 1) 2 None None None None =
  Some ([:: 1%:M; 1%:M], [:: 1%:M; 1%:M], [:: 1%:M; 1%:M; 1%:M], [:: 1%:M; 1%:M; 1%:M]).
Proof. exact: (ex_seq_backward Qf). Qed.

(** the pass returns whenever the control weights are positive definite and a step size can be formed *)
Theorem C46_sequential_backward_returns (R : realFieldType) (n m p pT : nat) (P : clqt R n m p pT) (steps : nat) (dt t0 : option R) :
  (forall t, symm (kU P t) /\ pd (kU P t)) -> (0 < steps)%N \/ dt <> None ->
  exists r, clqt_seqBackwardPass P steps dt t0 None None = Some r.
Proof. exact: C46_returns_l. Qed.
Print Assumptions C46_sequential_backward_returns.
Example C46_sequential_backward_returns_ex : forall t, symm (kU (ex_problem (1 : Qf) 1) t) /\ pd (kU (ex_problem (1 : Qf) 1) t).
Proof. exact: ex_U. Qed.

Theorem C46_parallel_backward (R : realFieldType) (n m p pT : nat) (P : clqt R n m p pT) (blocks steps : nat) (dt t0 : option R)
    (forward : bool) Ks ds Ss vs :
  symm (kXT P) -> clqt_parBackwardPass P blocks steps dt t0 forward = Some (Ks, ds, Ss, vs) ->
  [/\ size Ks = (blocks * steps)%N, size ds = (blocks * steps)%N, size Ss = (blocks * steps).+1, size vs = (blocks * steps).+1 &
    (forall Q, Q \in Ss -> symm Q) /\
    ((0 < steps)%N \/ blocks = 0%N -> last 0 Ss = (kHT P)^T *m kXT P *m kHT P /\ last 0 vs = (kHT P)^T *m kXT P *m krT P)].
Proof. exact: par_backward_spec. Qed.
Print Assumptions C46_parallel_backward.
Example C46_parallel_backward_ex (forward : bool) : clqt_parBackwardPass (ex_problem (1 : Qf) 0) 1 1 (Some 1) None forward =
  Some ([:: (ex_S0 Qf)%:M], [:: (ex_S0 Qf)%:M], [:: (1 / 2%:R)%:M; 1%:M], [:: (1 / 2%:R)%:M; 1%:M]).
Proof. exact: (ex_par_half Qf). Qed.

(** ** C47 *)
Theorem C47_unique_minimiser (R : realFieldType) (n m : nat) (Ks : seq 'M[R]_(m, n)) ds Ss vs es :
  size vs = size Ss -> size es = size Ss -> (size Ks <= size ds)%N ->
  (forall k, (k < size Ss)%N -> [/\ symm (nth (0, 0, 0) es k).2, psd (nth (0, 0, 0) es k).2, symm (nth 0 Ss k) & psd (nth 0 Ss k)]) ->
  exists us xs, [/\ combineForwardBackward Ks ds Ss vs es = Some (us, xs), size xs = size Ss, size us = minn (size Ks) (size Ss),
    forall k, (k < size Ss)%N -> let: (_, b, C) := nth (0, 0, 0) es k in unique_minimiser C b (nth 0 Ss k) (nth 0 vs k) (nth 0 xs k) &
    forall k, (k < minn (size Ks) (size Ss))%N -> nth 0 us k = - nth 0 Ks k *m nth 0 xs k + nth 0 ds k].
Proof. exact: combine_spec. Qed.
Print Assumptions C47_unique_minimiser.
Example C47_unique_minimiser_ex :
  combineForwardBackward [::] [::] [:: 1%:M] [:: 0] [:: (0, 1%:M, 1%:M)] = Some ([::], [:: (1 / 2%:R)%:M]) :> option (seq 'cV[rat]_1 * seq 'cV[rat]_1).
Proof. exact: (ex_combine Qf). Qed.

(** TensorFlow computes the same points and controls *)
Theorem C47_tf (R : realFieldType) (n m : nat) (Ks : seq 'M[R]_(m, n)) ds Ss vs es N :
  size Ss = N.+1 -> size vs = N.+1 -> size es = N.+1 -> size ds = N -> size Ks = N ->
  tf_combine_fwdbwd Ks ds Ss vs es = omap (fun z => (z.2, z.1)) (combineForwardBackward Ks ds Ss vs es).
Proof. exact: combine_tf. Qed.
Print Assumptions C47_tf.
Example C47_tf_ex :
  combineForwardBackward [::] [::] [:: 1%:M] [:: 0] [:: (0, 1%:M, 1%:M)] = Some ([::], [:: (1 / 2%:R)%:M]) :> option (seq 'cV[rat]_1 * seq 'cV[rat]_1).
Proof. exact: (ex_combine Qf). Qed.

(** ** C68: the TensorFlow passes compute what the NumPy passes compute (they return the same lists in another order) *)
Theorem C68_sequential_passes (R : realFieldType) (n m p pT : nat) (P : clqt R n m p pT) :
  (forall t, symm (kU P t) /\ pd (kU P t)) ->
  [/\ forall steps dt t0 Q v, tf_seq_backwardpass P steps dt t0 Q v =
        omap (fun r => let: (Ks, ds, Ss, vs) := r in (Ss, vs, Ks, ds))
          (clqt_seqBackwardPass P steps (Some dt) (Some t0) (Some Q) (Some v)),
      forall x0 Ks ds dt t0 zoh, size Ks = size ds -> (0 < size ds)%N ->
        tf_seq_forwardpass P x0 Ks ds dt t0 zoh =
        omap (fun z => (z.2, z.1)) (clqt_seqForwardPass P x0 Ks ds (Some dt) (Some t0) zoh)
    & forall x0 steps dt t0 A b C, tf_seq_fwdbwdpass P steps dt t0 (A, b, C) =
        clqt_seqFwdBwdPass P x0 steps (Some dt) (Some t0) (Some A) (Some b) (Some C)].
Proof. exact: C68_seq_l. Qed.
Print Assumptions C68_sequential_passes.
Example C68_sequential_passes_ex : clqt_seqBackwardPass (ex_problem (1 : Qf) 1) 2 None None None None =
  Some ([:: 1%:M; 1%:M], [:: 1%:M; 1%:M], [:: 1%:M; 1%:M; 1%:M], [:: 1%:M; 1%:M; 1%:M]).
Proof. exact: (ex_seq_backward Qf). Qed.

Theorem C68_parallel_forward (R : realFieldType) (n m p pT : nat) (P : clqt R n m p pT)
    (x0 : 'cV[R]_n) (Ks : seq 'M[R]_(m, n)) (ds : seq 'cV[R]_m) (blocks steps : nat) (dt t0 : R) (forward zoh : bool) (mp : nat) :
  size Ks = (blocks * steps)%N -> size ds = (blocks * steps)%N -> (0 < steps)%N -> (blocks + 1 < 2 * mp)%N ->
  tf_par_forwardpass P blocks steps x0 Ks ds dt t0 forward zoh mp =
  omap (fun z => (z.2, z.1)) (clqt_parForwardPass P x0 Ks ds blocks steps (Some dt) (Some t0) forward zoh).
Proof. exact: par_forward_tf. Qed.
Print Assumptions C68_parallel_forward.
Example C68_parallel_forward_ex (forward : bool) :
  tf_par_forwardpass (ex_problem (1 : Qf) 1) 2 1 1%:M [:: 1%:M; 1%:M] [:: 0; 0] 1 0 forward false 2 =
  Some ([:: 1%:M; (3%:R / (4%:R * 2%:R))%:M; (3%:R / (4%:R * 2%:R) * (3%:R / (4%:R * 2%:R)))%:M],
        [:: (- 1)%:M; (- (3%:R / (4%:R * 2%:R)))%:M]).
Proof. exact: ex_par_forward_tf. Qed.

(** the two libraries associate the combinations differently, so the block elements must be ones for which the
    combination is associative *)
Theorem C68_parallel_backward (R : realFieldType) (n m p pT : nat) (P : clqt R n m p pT)
    (blocks steps : nat) (dt t0 : R) (forward : bool) (mp : nat) :
  (forall t, symm (kU P t) /\ pd (kU P t)) -> symm (kXT P) -> psd (kXT P) -> (0 < steps)%N -> (blocks + 1 < 2 * mp)%N ->
  (forall k e, (k < blocks)%N -> block_elem P dt t0 steps forward k = Some e -> psd (eC e) /\ psd (eJ e)) ->
  tf_par_backwardpass P blocks steps dt t0 (tf_ST P) (tf_vT P) forward mp =
  omap (fun r => let: (Ks, ds, Ss, vs) := r in (Ss, vs, Ks, ds))
    (clqt_parBackwardPass P blocks steps (Some dt) (Some t0) forward).
Proof. exact: C68_par_bwd_l. Qed.
Print Assumptions C68_parallel_backward.
Example C68_parallel_backward_ex k e : block_elem (ex_problem (1 : Qf) 0) 1 0 1 false k = Some e -> psd (eC e) /\ psd (eJ e).
Proof. exact: ex_blocks_psd1. Qed.

Theorem C68_parallel_fwdbwd (R : realFieldType) (n m p pT : nat) (P : clqt R n m p pT)
    x0 Ks ds Ss vs (blocks steps : nat) (dt t0 : R) (forward : bool) (mp : nat) us xs :
  (forall t, symm (kU P t) /\ pd (kU P t)) -> (0 < steps)%N -> (0 < blocks)%N -> (blocks + 1 < 2 * mp)%N ->
  size ds = size Ks -> size vs = size Ss ->
  (forall k e, (k < blocks)%N -> block_elem P dt t0 steps forward k = Some e -> psd (eC e) /\ psd (eJ e)) ->
  clqt_parFwdBwdPass P x0 Ks ds Ss vs blocks steps (Some dt) (Some t0) forward = Some (us, xs) ->
  tf_par_fwdbwdpass P blocks steps x0 Ss vs Ks ds dt t0 forward mp = Some (xs, us).
Proof. exact: C68_par_fb_l. Qed.
Print Assumptions C68_parallel_fwdbwd.
Example C68_parallel_fwdbwd_ex k e : block_elem (ex_problem (1 : Qf) 0) 1 0 1 false k = Some e -> psd (eC e) /\ psd (eJ e).
Proof. exact: ex_blocks_psd1. Qed.

(** ** C69: false of the code, for either direction of integration of the block elements: on a problem with positive
    weights the value functions at the block boundaries differ from those of the sequential pass *)
Theorem C69_parallel_backward_is_sequential_refuted (R : realFieldType) (forward : bool) :
  exists (P : clqt R 1 1 1 1) r r',
  [/\ [/\ forall t, symm (kU P t) /\ pd (kU P t), forall t, symm (kX P t) /\ psd (kX P t), symm (kXT P) & psd (kXT P)],
    clqt_parBackwardPass P 1 1 (Some 1) None forward = Some r,
    clqt_seqBackwardPass P 1 (Some 1) None None None = Some r' & r <> r'].
Proof. exact: ex_par_not_seq. Qed.
Print Assumptions C69_parallel_backward_is_sequential_refuted.
Example C69_parallel_backward_is_sequential_refuted_ex (forward : bool) :
  clqt_parBackwardPass (ex_problem (1 : Qf) 0) 1 1 (Some 1) None forward =
  Some ([:: (ex_S0 Qf)%:M], [:: (ex_S0 Qf)%:M], [:: (1 / 2%:R)%:M; 1%:M], [:: (1 / 2%:R)%:M; 1%:M]).
Proof. exact: (ex_par_half Qf). Qed.

(** ** C70 *)
(** the Riccati equation is the Hamilton-Jacobi-Bellman equation of the control problem, minimised by the feedback with the
    gains U^-1 L' S and U^-1 L' v, and by nothing else *)
Theorem C70_hamilton_jacobi_bellman (R : realFieldType) (n m p pT : nat) (P : clqt R n m p pT) (t : R) (Q : 'M[R]_n) (v : 'cV[R]_n) y :
  symm (kU P t) -> pd (kU P t) -> symm (kX P t) -> symm Q -> riccati_ode_f P (pack_Sv (Q, v)) t = Some y ->
  let K := invmx (kU P t) *m (kL P t)^T *m Q in let d := invmx (kU P t) *m (kL P t)^T *m v in
  (exists kappa, forall x, hamiltonian P t Q v x (- K *m x + d) = - (qf (unpack_Sv y).1 x / 2%:R - dot (unpack_Sv y).2 x) + kappa) /\
  forall x u, hamiltonian P t Q v x (- K *m x + d) <= hamiltonian P t Q v x u /\
    (hamiltonian P t Q v x u <= hamiltonian P t Q v x (- K *m x + d) -> u = - K *m x + d).
Proof. exact: hjb_riccati. Qed.
Print Assumptions C70_hamilton_jacobi_bellman.
Example C70_hamilton_jacobi_bellman_ex : exists y, riccati_ode_f (ex_problem (1 : Qf) 1) (pack_Sv (2%:R%:M, 1%:M)) 0 = Some y /\
  unpack_Sv y = (3%:R%:M, 1%:M).
Proof. exact: ex_riccati. Qed.

(** each step of the sequential backward pass is a symmetrised Runge-Kutta step of that equation backwards in time, and
    the gains are those of the new value function at its own time *)
Theorem C70_backward_steps (R : realFieldType) (n m p pT : nat) (P : clqt R n m p pT) (steps : nat) (dt t0 : option R) Q v Ks ds Ss vs :
  (forall t, symm (kU P t) /\ pd (kU P t)) ->
  clqt_seqBackwardPass P steps dt t0 Q v = Some (Ks, ds, Ss, vs) ->
  exists h, (if dt is Some h' then h = h' else h = kT P / steps%:R) /\
  let tau i := (if t0 is Some t then t else 0) + i%:R * h in
  forall i, (i < steps)%N -> exists y,
    [/\ classical_step (V := matrix_lmodType R n (n + 1)) (riccati_ode_f P) (- h) (pack_Sv (nth 0 Ss i.+1, nth 0 vs i.+1)) (tau i.+1) y,
        nth 0 Ss i = 2%:R^-1 *: ((unpack_Sv y).1 + (unpack_Sv y).1^T), nth 0 vs i = (unpack_Sv y).2,
        nth 0 Ks i = invmx (kU P (tau i)) *m (kL P (tau i))^T *m nth 0 Ss i
      & nth 0 ds i = invmx (kU P (tau i)) *m (kL P (tau i))^T *m nth 0 vs i].
Proof. exact: C70_backward_l. Qed.
Print Assumptions C70_backward_steps.
Example C70_backward_steps_ex : clqt_seqBackwardPass (ex_problem (1 : Qf) 1) 2 None None None None =
  Some ([:: 1%:M; 1%:M], [:: 1%:M; 1%:M], [:: 1%:M; 1%:M; 1%:M], [:: 1%:M; 1%:M; 1%:M]).
Proof. exact: (ex_seq_backward Qf). Qed.

(** each step of the sequential forward pass is a Runge-Kutta step of the dynamics under the feedback law, held constant
    over the step on request *)
Theorem C70_forward_steps (R : realFieldType) (n m p pT : nat) (P : clqt R n m p pT) x0 Ks ds (dt t0 : option R) zoh us xs :
  clqt_seqForwardPass P x0 Ks ds dt t0 zoh = Some (us, xs) ->
  exists h, [/\ (if dt is Some h' then h = h' else h = kT P / (size Ks)%:R), size us = size Ks, size xs = (size Ks).+1, nth 0 xs 0 = x0 &
  forall i, (i < size Ks)%N ->
    nth 0 us i = - nth 0 Ks i *m nth 0 xs i + nth 0 ds i /\
    classical_step (V := matrix_lmodType R n 1)
      (fun x t => Some (kF P t *m x + kL P t *m (if zoh then nth 0 us i else - nth 0 Ks i *m x + nth 0 ds i) + kc P t))
      h (nth 0 xs i) ((if t0 is Some t then t else 0) + i%:R * h) (nth 0 xs i.+1)].
Proof. exact: C70_forward_l. Qed.
Print Assumptions C70_forward_steps.
Example C70_forward_steps_ex : clqt_seqForwardPass (ex_problem (1 : Qf) 1) 1%:M [:: 1%:M; 1%:M] [:: 0; 0] (Some 1) None false =
  Some ([:: (- 1)%:M; (- (3%:R / (4%:R * 2%:R)))%:M],
        [:: 1%:M; (3%:R / (4%:R * 2%:R))%:M; (3%:R / (4%:R * 2%:R) * (3%:R / (4%:R * 2%:R)))%:M]).
Proof. exact: ex_seq_forward. Qed.
