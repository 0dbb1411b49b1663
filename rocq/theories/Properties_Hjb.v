(** Properties C50-C54, C72 and C73: the grid solvers of the Hamilton-Jacobi-Bellman equation. *)
From mathcomp Require Import all_ssreflect all_algebra.
From Verif Require Import ClqtModel HjbModel HjbSpec HjbProofs HjbInterp HjbPasses HjbMain HjbEx.
Import Order.TTheory GRing.Theory Num.Theory.
Set Implicit Arguments. Unset Strict Implicit. Unset Printing Implicit Defensive.
Local Open Scope ring_scope.
Local Notation Qf := [realFieldType of rat].

(** ** C50: combine_V is the min-plus product, is associative, and combine_V2 is the same function *)
Theorem C50_min_plus (R : realFieldType) (n : nat) (A B : seq (seq R)) : (0 < n)%N -> square n A -> square n B ->
  exists C, [/\ hjb_combine_V A B = Some C, square n C &
    forall i k, (i < n)%N -> (k < n)%N -> least n (via A B i k) (at2 C i k)].
Proof. exact (fun n0 => @hjb_combine_l R n n0 A B). Qed.
Print Assumptions C50_min_plus.
Example C50_min_plus_ex : [/\ square 3 exA, square 3 exB & hjb_combine_V exA exB = Some exAB].
Proof. exact combine_ex. Qed.

Theorem C50_assoc (R : realFieldType) (n : nat) (A B C AB BC : seq (seq R)) : (0 < n)%N -> square n A -> square n B -> square n C ->
  hjb_combine_V A B = Some AB -> hjb_combine_V B C = Some BC -> hjb_combine_V AB C = hjb_combine_V A BC.
Proof. exact (fun n0 => @hjb_combine_assoc_l R n n0 A B C AB BC). Qed.
Print Assumptions C50_assoc.
Example C50_assoc_ex : exists D E F, [/\ hjb_combine_V exA exB = Some D, hjb_combine_V exB exAB = Some E,
  hjb_combine_V D exAB = Some F & hjb_combine_V exA E = Some F].
Proof. exact assoc_ex. Qed.

Theorem C50_combine2 (R : realFieldType) (A B : seq (seq R)) : hjb_combine_V2 A B = hjb_combine_V A B.
Proof. exact (hjb_combine2_l A B). Qed.
Print Assumptions C50_combine2.
Example C50_combine2_ex : hjb_combine_V2 exA exB = Some exAB.
Proof. exact combine2_ex. Qed.

(** the scan with the plain combination satisfies the recursion of the sequential pass *)
Theorem C50_scan (R : realFieldType) (n : nat) (es : seq (seq (seq R))) : (0 < n)%N -> es <> [::] ->
  (forall e, List.In e es -> square n e) ->
  exists r, [/\ hjb_par_scan es = Some r, size r = size es,
    forall k, (k.+1 < size es)%N -> hjb_combine_V (nth [::] es k) (nth [::] r k.+1) = Some (nth [::] r k) &
    nth [::] r (size es).-1 = nth [::] es (size es).-1].
Proof. exact (fun n0 => @plain_scan_l R n n0 es). Qed.
Print Assumptions C50_scan.
Example C50_scan_ex : exists r, hjb_par_scan [:: exA; exB; exAB; exA; exB] = Some r /\ at2 (nth [::] r 0) 0 0 = 2%:R.
Proof. exact plain_ex. Qed.

(** ** C51: the interpolated combination *)
Theorem C51_interp (R : realFieldType) (n : nat) (A B : seq (seq R)) : (1 < n)%N -> square n A -> square n B ->
  exists C, [/\ combine_V_interp (nums A) (nums B) = Some C, square n C &
    forall i k j, (i < n)%N -> (k < n)%N -> first_min n (via A B i k) j ->
    let g := via A B i k in
    if second_difference n g j == 0 then nat2 C i k = None
    else exists v, [/\ nat2 C i k = Some v, parabola_min (g (left_of j)) (g j) (g (right_of n j)) v,
        v <= g j, g j - second_difference n g j / 8%:R <= v & (j == 0%N) || (j == n.-1) -> v = g j]].
Proof. exact (fun n1 => @interp_l R n n1 A B). Qed.
Print Assumptions C51_interp.
Example C51_interp_ex : exists C, [/\ combine_V_interp (nums exP) (nums exH) = Some C, square 4 exP, square 4 exH,
  nat2 C 0 0 = Some (1 / 2%:R) & first_min 4 (via exP exH 0 0) 1].
Proof. exact interp_ex. Qed.
Example C51_interp_nan : exists C, combine_V_interp (nums (nseq 3 (nseq 3 (0 : Qf)))) (nums (nseq 3 (nseq 3 0 : seq Qf))) = Some C /\
  nat2 C 0 0 = None :> option Qf.
Proof. exact interp_nan_ex. Qed.

Theorem C51_exact (R : realFieldType) (n : nat) (A B : seq (seq R)) (C : seq (seq (option R))) (i k : nat) (a b c x0 h : R) :
  (1 < n)%N -> square n A -> square n B -> combine_V_interp (nums A) (nums B) = Some C -> (i < n)%N -> (k < n)%N -> 0 < a -> 0 < h ->
  (forall j, (j < n)%N -> via A B i k j = a * (x0 + j%:R * h - c) ^+ 2 + b) ->
  x0 + h / 2%:R < c -> c <= x0 + n.-1%:R * h - h / 2%:R -> nat2 C i k = Some b.
Proof. exact (fun n1 sA sB => @interp_exact_l R n n1 A B sA sB C i k a b c x0 h). Qed.
Print Assumptions C51_exact.
Example C51_exact_ex : [/\ forall j, (j < 4)%N -> via exP exH 0 0 j = 1 * (0 + j%:R * 1 - 5%:R / 4%:R) ^+ 2 + 1 / 2%:R :> Qf,
  (0 + 1 / 2%:R < 5%:R / 4%:R :> Qf) && (5%:R / 4%:R <= 0 + 3%:R * 1 - 1 / 2%:R :> Qf)
  & exists C, combine_V_interp (nums exP) (nums exH) = Some C /\ nat2 C 0 0 = Some (1 / 2%:R)].
Proof. exact exact_ex. Qed.

Theorem C51_interp2 (R : realFieldType) (n : nat) (A B : seq (seq (option R))) : (1 < n)%N -> square n A -> square n B ->
  combine_V_interp2 A B = combine_V_interp A B.
Proof. exact (fun n1 => @interp2_l R n n1 A B). Qed.
Print Assumptions C51_interp2.
Example C51_interp2_ex : combine_V_interp2 (nums exP) (nums exH) = combine_V_interp (nums exP) (nums exH) /\
  combine_V_interp (nums exP) (nums exH) != None.
Proof. exact interp2_ex. Qed.

(** ** C52: the parallel pass with interpolated combination.  Full statement: it returns what the sequential pass returns,
    for every number of blocks.  True for up to three blocks, false from four blocks on. *)
Theorem C52_three_blocks_partial (R : realFieldType) (LT : R -> R) (n : nat) (V : seq (seq (option R))) (xs : seq R) (blocks : nat) :
  (1 < n)%N -> square n V -> (n <= size xs)%N -> (blocks <= 3)%N ->
  hjb_parBackwardPass LT xs blocks V = seqBackwardPass_assoc LT xs blocks V.
Proof. exact (fun n1 sV sx => @par_seq_l R LT n n1 V sV xs sx blocks). Qed.
Print Assumptions C52_three_blocks_partial.
Example C52_three_blocks_partial_ex : hjb_parBackwardPass bad_LT bad_xs 3 bad_V =
  Some [:: [:: Some 0; Some 0; Some (- 1 / 2%:R)]; [:: Some 0; Some 0; Some 0]; [:: Some 0; Some 1; Some 0]; [:: Some 1; Some 3%:R; Some 0]].
Proof. exact par_ex. Qed.

Theorem C52_refuted : exists (LT : Qf -> Qf) (xs : seq Qf) (V : seq (seq (option Qf))), square 3 V /\ size xs = 3%N /\
  exists r s, [/\ hjb_parBackwardPass LT xs 4 V = Some r, seqBackwardPass_assoc LT xs 4 V = Some s,
    nat2 r 0 0 = Some 0 & nat2 s 0 0 = Some (- 1 / 2%:R)].
Proof. exact par_refuted_l. Qed.
Print Assumptions C52_refuted.

(** the TensorFlow version differs from three blocks on *)
Theorem C52_tf_refuted : exists (LT : Qf -> Qf) (xs : seq Qf) (V : seq (seq (option Qf))), square 3 V /\ size xs = 3%N /\
  exists r s, [/\ tf_par_bw_pass LT xs 3 V 16 = Some r, tf_seq_bw_pass_assoc LT xs 3 V = Some s,
    nat2 r 0 2 = Some 0 & nat2 s 0 2 = Some (- 1 / 2%:R)].
Proof. exact tf_par_refuted_l. Qed.
Print Assumptions C52_tf_refuted.

(** ** C53: the upwind pass *)
(** each value function is the best cost of one upwind step into the next one *)
Theorem C53_upwind (R : realFieldType) (f L : R -> R -> R) (LT : R -> R) (T : R) (blocks : nat) (xs us : seq R) :
  (0 < blocks)%N -> us <> [::] -> (1 < size xs)%N -> 0 < nth 0 xs 1 - nth 0 xs 0 -> 0 <= T ->
  exists Vs, [/\ seqBackwardPass_upwind f L LT T blocks 1 xs us = Some Vs,
    size Vs = blocks.+1, nth [::] Vs blocks = [seq LT x | x <- xs] &
    forall k i, (k < blocks)%N -> (i < size xs)%N ->
      least_of [seq upwind_cost f L (nth 0 xs 1 - nth 0 xs 0) (T / blocks%:R / 1%:R) xs (nth [::] Vs k.+1) i u | u <- us] (nth 0 (nth [::] Vs k) i)].
Proof. exact (fun b0 us0 s1 dx0 T0 => @upwind_dp_l R f L T blocks 1 xs us b0 isT us0 s1 dx0 T0 LT erefl). Qed.
Print Assumptions C53_upwind.
Theorem C53_steps (R : realFieldType) (f L : R -> R -> R) (LT : R -> R) (T : R) (blocks steps : nat) (xs us : seq R) :
  (0 < blocks)%N -> (0 < steps)%N -> us <> [::] -> (1 < size xs)%N -> nth 0 xs 0 <> nth 0 xs 1 ->
  exists Vs Ws, [/\ seqBackwardPass_upwind f L LT T blocks steps xs us = Some Vs,
    seqBackwardPass_upwind f L LT T (blocks * steps) 1 xs us = Some Ws,
    size Vs = blocks.+1, size Ws = (blocks * steps).+1 &
    forall k, (k <= blocks)%N -> nth [::] Vs k = nth [::] Ws (k * steps)].
Proof. exact (@upwind_sub_l R f L LT T blocks steps xs us). Qed.
Print Assumptions C53_steps.
Example C53_steps_ex : exists Vs Ws, [/\ seqBackwardPass_upwind fdf fdL fd2 1 2 2 fdxs fdus = Some Vs,
  seqBackwardPass_upwind fdf fdL fd2 1 4 1 fdxs fdus = Some Ws, nth [::] Vs 1 = nth [::] Ws 2, size Vs = 3%N & size Ws = 5%N].
Proof. exact sub_ex. Qed.

(** Full statement: under the step-size bound a larger terminal cost gives larger value functions.  Proved when no control
    moves the state out of the grid; without that condition only away from the ends of the grid, for one step. *)
Theorem C53_monotone_partial (R : realFieldType) (f L : R -> R -> R) (LT1 LT2 : R -> R) (T : R) (blocks steps : nat) (xs us : seq R) :
  (0 < blocks)%N -> (0 < steps)%N -> us <> [::] -> (1 < size xs)%N -> 0 < nth 0 xs 1 - nth 0 xs 0 -> 0 <= T ->
  (forall x u, x \in xs -> u \in us -> T / blocks%:R / steps%:R * `|f x u| <= nth 0 xs 1 - nth 0 xs 0) ->
  (forall x, x \in xs -> LT1 x <= LT2 x) ->
  (forall u, u \in us -> 0 <= f (nth 0 xs 0) u) -> (forall u, u \in us -> f (last 0 xs) u <= 0) ->
  exists V1 V2, [/\ seqBackwardPass_upwind f L LT1 T blocks steps xs us = Some V1,
    seqBackwardPass_upwind f L LT2 T blocks steps xs us = Some V2 &
    forall k i, (k <= blocks)%N -> (i < size xs)%N -> nth 0 (nth [::] V1 k) i <= nth 0 (nth [::] V2 k) i].
Proof. exact (fun b0 s0 us0 s1 dx0 T0 cfl => @upwind_mono_l R f L T blocks steps xs us b0 s0 us0 s1 dx0 T0 cfl LT1 LT2). Qed.
Print Assumptions C53_monotone_partial.
Example C53_monotone_partial_hyps :
  (forall x u, x \in fdxs -> u \in fdus -> 1 / 2%:R / 2%:R * `|fdf x u| <= fdxs`_1 - fdxs`_0 :> Qf) /\
  (forall u, u \in fdus -> 0 <= fdf fdxs`_0 u) /\ (forall u, u \in fdus -> fdf (last 0 fdxs) u <= 0) /\
  (forall x, x \in fdxs -> fd0 x <= fd2 x).
Proof. exact fd_hyps. Qed.
Example C53_monotone_partial_ex : exists V1 V2, [/\ seqBackwardPass_upwind fdf fdL fd0 1 2 2 fdxs fdus = Some V1,
  seqBackwardPass_upwind fdf fdL fd2 1 2 2 fdxs fdus = Some V2, size V1 = 3%N, 0 < at2 V1 0 0 & at2 V1 0 0 < at2 V2 0 0].
Proof. exact mono_ex. Qed.

Theorem C53_inner_partial (R : realFieldType) (f L : R -> R -> R) (LT1 LT2 : R -> R) (T : R) (xs us : seq R) :
  us <> [::] -> (1 < size xs)%N -> 0 < nth 0 xs 1 - nth 0 xs 0 -> 0 <= T ->
  (forall x u, x \in xs -> u \in us -> T / 1%:R / 1%:R * `|f x u| <= nth 0 xs 1 - nth 0 xs 0) ->
  (forall x, x \in xs -> LT1 x <= LT2 x) ->
  exists V1 V2, [/\ seqBackwardPass_upwind f L LT1 T 1 1 xs us = Some V1,
    seqBackwardPass_upwind f L LT2 T 1 1 xs us = Some V2 &
    forall k i, (0 < i)%N -> (i.+1 < size xs)%N -> nth 0 (nth [::] V1 k) i <= nth 0 (nth [::] V2 k) i].
Proof. exact (fun us0 s1 dx0 T0 cfl le => @upwind_mono_inner_l R f L T 1 1 xs us isT isT us0 s1 dx0 T0 cfl LT1 LT2 le erefl erefl). Qed.
Print Assumptions C53_inner_partial.
Example C53_inner_partial_ex : exists V1 V2,
  [/\ seqBackwardPass_upwind (fun x u => u * x) fdL fd0 (1 / 2%:R) 1 1 [:: -1; - 1 / 2%:R; 0; 1 / 2%:R] fdus = Some V1,
      seqBackwardPass_upwind (fun x u => u * x) fdL fd2 (1 / 2%:R) 1 1 [:: -1; - 1 / 2%:R; 0; 1 / 2%:R] fdus = Some V2 & at2 V1 0 1 < at2 V2 0 1].
Proof. exact inner_ex. Qed.

(** the dynamics u x of upwind_model move out of the grid: a larger terminal cost gives a smaller value at the end *)
Theorem C53_refuted : exists (LT1 LT2 : Qf -> Qf),
  [/\ forall x, x \in fdxs -> LT1 x <= LT2 x,
      forall x u, x \in fdxs -> u \in fdus -> 1 / 1%:R / 1%:R * `|u * x| <= fdxs`_1 - fdxs`_0 :> Qf
    & exists V1 V2, [/\ seqBackwardPass_upwind (fun x u => u * x) (fun _ _ => 0) LT1 1 1 1 fdxs fdus = Some V1,
        seqBackwardPass_upwind (fun x u => u * x) (fun _ _ => 0) LT2 1 1 1 fdxs fdus = Some V2 & at2 V2 0 0 < at2 V1 0 0]].
Proof. exact mono_refuted_l. Qed.
Print Assumptions C53_refuted.

(** ** C54: the analytic block value functions; a = exp(block_dt) is at least one when block_dt is not negative *)
Theorem C54_numpy (R : realFieldType) (inf_value a : R) (xs : seq R) (i j : nat) : 1 <= a -> (i < size xs)%N -> (j < size xs)%N ->
  ((exists2 c, 1 <= c <= a & nth 0 xs j = c * nth 0 xs i) -> at2 (block_V_np inf_value a xs) i j = 0) /\
  (~ (exists2 c, 1 <= c <= a & nth 0 xs j = c * nth 0 xs i) -> at2 (block_V_np inf_value a xs) i j = inf_value).
Proof. exact (@block_np_l R inf_value a xs i j). Qed.
Print Assumptions C54_numpy.
Example C54_numpy_ex : [/\ at2 (block_V_np 100%:R 2%:R (fdxs : seq Qf)) 0 0 = 0, at2 (block_V_np 100%:R 2%:R (fdxs : seq Qf)) 0 1 = 100%:R &
   at2 (block_V_tf 100%:R 2%:R (fdxs : seq Qf)) 2 2 = 0].
Proof. exact block_ex. Qed.
Theorem C54_agree_partial (R : realFieldType) (inf_value a : R) (xs : seq R) (i j : nat) :
  1 <= a -> (i < size xs)%N -> (j < size xs)%N -> 0 <= nth 0 xs i ->
  at2 (block_V_tf inf_value a xs) i j = at2 (block_V_np inf_value a xs) i j.
Proof. exact (@block_tf_l R inf_value a xs i j). Qed.
Print Assumptions C54_agree_partial.
Theorem C54_refuted (R : realFieldType) (inf_value a : R) (xs : seq R) (i : nat) : 1 <= a -> (i < size xs)%N -> nth 0 xs i < 0 ->
  at2 (block_V_np inf_value a xs) i i = 0 /\ at2 (block_V_tf inf_value a xs) i i = inf_value.
Proof. exact (@block_tf_neg R inf_value a xs i). Qed.
Print Assumptions C54_refuted.

(** ** C72: the TensorFlow passes return what the NumPy passes return *)
Theorem C72_symfd (R : realFieldType) (f L : R -> R -> R) (LT : R -> R) (T : R) (blocks steps : nat) (xs us : seq R) :
  (0 < blocks)%N -> (0 < steps)%N ->
  tf_seq_bw_pass_symfd f L LT T blocks steps xs us = seqBackwardPass_symfd f L LT T blocks steps xs us.
Proof. exact (@tf_symfd_l R f L LT T blocks steps xs us). Qed.
Print Assumptions C72_symfd.
Theorem C72_upwind (R : realFieldType) (f L : R -> R -> R) (LT : R -> R) (T : R) (blocks steps : nat) (xs us : seq R) :
  (0 < blocks)%N -> (0 < steps)%N ->
  tf_seq_bw_pass_upwind f L LT T blocks steps xs us = seqBackwardPass_upwind f L LT T blocks steps xs us.
Proof. exact (@tf_upwind_l R f L LT T blocks steps xs us). Qed.
Print Assumptions C72_upwind.
Example C72_ex : [/\ tf_seq_bw_pass_symfd fdf fdL fd2 1 2 2 fdxs fdus = seqBackwardPass_symfd fdf fdL fd2 1 2 2 fdxs fdus,
  tf_seq_bw_pass_symfd fdf fdL fd2 1 2 2 fdxs fdus != None,
  tf_seq_bw_pass_upwind fdf fdL fd2 1 2 2 fdxs fdus = seqBackwardPass_upwind fdf fdL fd2 1 2 2 fdxs fdus &
  tf_seq_bw_pass_upwind fdf fdL fd2 1 2 2 fdxs fdus != None].
Proof. exact tf_fd_ex. Qed.
Theorem C72_assoc (R : realFieldType) (LT : R -> R) (n : nat) (V : seq (seq (option R))) (xs : seq R) (blocks : nat) :
  (1 < n)%N -> square n V -> size xs = n ->
  tf_seq_bw_pass_assoc LT xs blocks V = seqBackwardPass_assoc LT xs blocks V.
Proof. exact (fun n1 sV sx => @tf_assocE R LT n n1 V sV xs (eq_leq (esym sx)) sx blocks). Qed.
Print Assumptions C72_assoc.
Example C72_assoc_ex : tf_seq_bw_pass_assoc bad_LT bad_xs 4 bad_V = seqBackwardPass_assoc bad_LT bad_xs 4 bad_V /\
  tf_seq_bw_pass_assoc bad_LT bad_xs 4 bad_V != None.
Proof. exact tf_assoc_ex. Qed.

(** ** C73: the pass with symmetric differences *)
Theorem C73_symfd (R : realFieldType) (f L : R -> R -> R) (LT : R -> R) (T : R) (blocks : nat) (xs us : seq R) :
  (0 < blocks)%N -> us <> [::] -> (1 < size xs)%N -> nth 0 xs 0 <> nth 0 xs 1 -> 0 <= T ->
  let dx := nth 0 xs 1 - nth 0 xs 0 in let dt := T / blocks%:R in
  exists Vs, [/\ seqBackwardPass_symfd f L LT T blocks 1 xs us = Some Vs,
    size Vs = blocks.+1, nth [::] Vs blocks = [seq LT x | x <- xs] &
    forall k i, (k < blocks)%N -> (i < size xs)%N ->
      least_of [seq symmetric_cost f L dx dt xs (nth [::] Vs k.+1) i u | u <- us] (nth 0 (nth [::] Vs k) i)].
Proof. exact (@symfd_dp_l R f L LT T blocks xs us). Qed.
Print Assumptions C73_symfd.
Theorem C73_steps (R : realFieldType) (f L : R -> R -> R) (LT : R -> R) (T : R) (blocks steps : nat) (xs us : seq R) :
  (0 < blocks)%N -> (0 < steps)%N -> us <> [::] -> (1 < size xs)%N -> nth 0 xs 0 <> nth 0 xs 1 ->
  exists Vs Ws, [/\ seqBackwardPass_symfd f L LT T blocks steps xs us = Some Vs,
    seqBackwardPass_symfd f L LT T (blocks * steps) 1 xs us = Some Ws,
    size Vs = blocks.+1, size Ws = (blocks * steps).+1 &
    forall k, (k <= blocks)%N -> nth [::] Vs k = nth [::] Ws (k * steps)].
Proof. exact (@symfd_sub_l R f L LT T blocks steps xs us). Qed.
Print Assumptions C73_steps.
Example C73_ex : exists Vs, [/\ seqBackwardPass_symfd fdf fdL fd0 1 4 1 fdxs fdus = Some Vs, size Vs = 5%N, at2 Vs 4 0 = 0 & 0 < at2 Vs 0 0].
Proof. exact symfd_ex. Qed.
