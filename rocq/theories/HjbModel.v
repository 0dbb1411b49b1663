(** Model of parallel_control/hjb_grid_1d_np.py and hjb_grid_1d_tf.py (the grid solvers and the combination of
    conditional value functions) and of upwind_model_block_V in cnonlin_models_np.py and cnonlin_models_tf.py, over an
    arbitrary real field (exact arithmetic).

    A 1-d array is a list, a 2-d array a list of rows.  None is a raised exception.  The interpolated combination divides
    by zero on flat triples; there the entries of an array are options and None is nan: 0 / 0, the only division by zero
    that occurs.  nan propagates through sums and argmin returns the index of the first nan.  Broadcasting of an axis of
    length 1 against a longer one is not modelled, nor is the clamping of indices outside an array. *)
From Coq Require Import PeanoNat.
From mathcomp Require Import all_ssreflect all_algebra.
From Verif Require Import ScanModel Ord FscModel TfScan MxBase LqtModel ClqtModel ClqtTfModel PararealModel.
Import Order.TTheory GRing.Theory Num.Theory.
Set Implicit Arguments. Unset Strict Implicit. Unset Printing Implicit Defensive.
Local Open Scope ring_scope.

(** the numbers of the model as costs *)
Section Cost.
Variable R : realFieldType.
Lemma fc_addA (a b c : R) : a + b + c = a + (b + c). Proof. by rewrite addrA. Qed.
Lemma fc_total (a b : R) : (a <= b) = true \/ (b <= a) = true. Proof. by apply/orP; apply: le_total. Qed.
Lemma fc_trans (a b c : R) : (a <= b) = true -> (b <= c) = true -> (a <= c) = true. Proof. exact: le_trans. Qed.
Lemma fc_anti (a b : R) : (a <= b) = true -> (b <= a) = true -> a = b. Proof. by move=> h1 h2; apply/eqP; rewrite eq_le h1. Qed.
Lemma fc_mono (a b c : R) : (a <= b) = true -> (c + a <= c + b) = true. Proof. by rewrite ler_add2l. Qed.
Definition Fcost : ordcost := @OrdCost R +%R 0 <=%R fc_addA (@addrC R) (@add0r R) fc_total fc_trans fc_anti fc_mono.
End Cost.

Section Hjb.
Variable R : realFieldType.
Local Notation K := (Fcost R).

(** hjb_grid_1d_np.py 187-204, hjb_grid_1d_tf.py 228-239: combine_V.  The formula is the one of fsc_np.combine_V, whose
    model is used: entry (i, k) is the smallest of Vij[i, j] + Vjk[j, k].  The TensorFlow version maps it over a
    leading axis. *)
Definition hjb_combine_V (Vij Vjk : seq (seq R)) : option (seq (seq R)) := @combine_V K Vij Vjk.
(** the sums over which an entry is minimised: Vsum[i, :, k] *)
Definition vsum (Vjk : seq (seq R)) (row : seq R) (k : nat) : option (seq R) :=
  let? c := column Vjk k in @vadd K row c.
(** an array from its entries *)
Definition entries (Vij Vjk : seq (seq R)) (g : seq R -> option R) : option (seq (seq R)) :=
  mapM (fun row => mapM (fun k => let? s := vsum Vjk row k in g s) (iota 0 (ncols Vjk))) Vij.
(** hjb_grid_1d_np.py 206-219, hjb_grid_1d_tf.py 241-255: combine_V2 *)
Definition hjb_combine_V2 (Vij Vjk : seq (seq R)) : option (seq (seq R)) :=
  entries Vij Vjk (fun s => let? j := @argmin K s in List.nth_error s j).
(** hjb_grid_1d_np.py 236-245, hjb_grid_1d_tf.py 281-295: abs(j - 1), nm1 - abs(nm1 - j - 1); a negative index is left
    out (None), and so is the division by zero *)
Definition jm1 (j : nat) : nat := if j is i.+1 then i else 1.
Definition jp1 (nm1 j : nat) : option nat :=
  if (j < nm1)%N then Some j.+1 else if (j < nm1 + nm1)%N then Some (nm1 + nm1 - j.+1)%N else None.
Definition interp (nm1 : nat) (s : seq R) : option (option R) :=
  let? j := @argmin K s in
  let? fi := List.nth_error s j in
  let? fm1 := List.nth_error s (jm1 j) in
  let? jp := jp1 nm1 j in
  let? fp1 := List.nth_error s jp in
  let den := fp1 + fm1 - 2%:R * fi + 0 in
  Some (if den == 0 then None else Some (fi - (fp1 - fm1) ^+ 2 / den / 8%:R)).
(** the same when entries may be nan: argmin picks a nan, and the result is nan *)
Definition ninterp (nm1 : nat) (s : seq (option R)) : option (option R) :=
  if all isSome s then interp nm1 (pmap id s) else Some None.
Definition nadd (a b : option R) : option R := let? x := a in let? y := b in Some (x + y).
Fixpoint nvadd (a b : seq (option R)) : option (seq (option R)) :=
  match a, b with
  | [::], [::] => Some [::]
  | x :: a', y :: b' => let? r := nvadd a' b' in Some (nadd x y :: r)
  | _, _ => None
  end.
Definition nvsum (Vjk : seq (seq (option R))) (row : seq (option R)) (k : nat) : option (seq (option R)) :=
  let? c := column Vjk k in nvadd row c.
(** hjb_grid_1d_np.py 221-248, hjb_grid_1d_tf.py 269-295: combine_V_interp; nm1 is Vij.shape[0] - 1 *)
Definition combine_V_interp (Vij Vjk : seq (seq (option R))) : option (seq (seq (option R))) :=
  mapM (fun row => mapM (fun k => let? s := nvsum Vjk row k in ninterp (size Vij).-1 s) (iota 0 (ncols Vjk))) Vij.
(** hjb_grid_1d_np.py 250-276: combine_V_interp2, the loop; nm1 is f.shape[0] - 1, and Vik has the shape of Vij.  An
    entry of Vik that is not assigned (Vjk narrower than Vij) stays 0. *)
Definition combine_V_interp2 (Vij Vjk : seq (seq (option R))) : option (seq (seq (option R))) :=
  for_ (iota 0 (size Vij)) (fun i => for_ (iota 0 (ncols Vjk)) (fun k Vik =>
    let? row := List.nth_error Vij i in
    let? s := nvsum Vjk row k in
    let? v := ninterp (size s).-1 s in upd2 Vik i k v)) [seq [seq Some 0 | _ <- row] | row <- Vij].

(** hjb_grid_1d_np.py 278-284 *)
Definition hjb_par_scan elems := my_assoc_scan hjb_combine_V elems true.
Definition hjb_par_scan_interp elems := my_assoc_scan combine_V_interp elems true.

(** ** the finite-difference solvers *)
Section Fd.
Variables (f L : R -> R -> R) (LT : R -> R).
(** fd_x_grid[1] - fd_x_grid[0] *)
Definition grid_dx (xs : seq R) : option R := if xs is x0 :: x1 :: _ then Some (x1 - x0) else None.
(** hjb_grid_1d_np.py 364-366: (V[1:2] - V[0:1]) / dx, (V[-1:] - V[-2:-1]) / dx *)
Definition dv_first (dx : R) (V : seq R) : seq R := if V is v0 :: v1 :: _ then [:: (v1 - v0) / dx] else [::].
Definition dv_last (dx : R) (V : seq R) : seq R := if rev V is vn :: vm :: _ then [:: (vn - vm) / dx] else [::].
(** (V[2:] - V[:-2]) / (2 dx), (V[2:] - V[1:-1]) / dx, (V[1:-1] - V[0:-2]) / dx *)
Definition but_last2 (V : seq R) := take (size V - 2) V.
Definition inner (V : seq R) := take (size V - 2) (drop 1 V).
Definition dv_sym (dx : R) (V : seq R) : seq R := [seq (z.1 - z.2) / (2%:R * dx) | z <- zip (drop 2 V) (but_last2 V)].
Definition dv_fwd (dx : R) (V : seq R) : seq R := [seq (z.1 - z.2) / dx | z <- zip (drop 2 V) (inner V)].
Definition dv_bwd (dx : R) (V : seq R) : seq R := [seq (z.1 - z.2) / dx | z <- zip (inner V) (but_last2 V)].
(** jnp.concatenate *)
Definition dv_all (mid : R -> seq R -> seq R) (dx : R) (V : seq R) : seq R := dv_first dx V ++ mid dx V ++ dv_last dx V.

(** hjb_grid_1d_np.py 363-374: one step of seqBackwardPass_symfd; the control is the first minimiser on the grid and Q is
    evaluated again at it *)
Definition symfd_point (us : seq R) (dt x v dv : R) : option R :=
  let? ui := @argmin K [seq L x u + f x u * dv | u <- us] in
  let? u := List.nth_error us ui in
  Some (v + (L x u + f x u * dv) * dt).
Definition symfd_step (xs us : seq R) (dx dt : R) (V : seq R) : option (seq R) :=
  omap_seq (fun z : R * R * R => symfd_point us dt z.1.1 z.1.2 z.2) (zip (zip xs V) (dv_all dv_sym dx V)).
(** jnp.sign *)
Definition sign (a : R) : R := if a == 0 then 0 else if 0 < a then 1 else -1.
(** hjb_grid_1d_np.py 398-411: one step of seqBackwardPass_upwind *)
Definition upwind_Q (x u dvf dvb : R) : R :=
  let s := sign (f x u) in
  L x u + (1 / 2%:R + 1 / 2%:R * s) * f x u * dvf + (1 / 2%:R - 1 / 2%:R * s) * f x u * dvb.
Definition upwind_point (us : seq R) (dt x v dvf dvb : R) : option R :=
  let? q := @vmin K [seq upwind_Q x u dvf dvb | u <- us] in Some (v + q * dt).
Definition upwind_step (xs us : seq R) (dx dt : R) (V : seq R) : option (seq R) :=
  omap_seq (fun z : R * R * (R * R) => upwind_point us dt z.1.1 z.1.2 z.2.1 z.2.2)
    (zip (zip xs V) (zip (dv_all dv_fwd dx V) (dv_all dv_bwd dx V))).

(** hjb_grid_1d_np.py 361-378, 396-417: the loops over blocks and steps, appending V after each block; the list is
    reversed at the end *)
Fixpoint fd_blocks (step : seq R -> option (seq R)) (steps blocks : nat) (V : seq R) : option (seq (seq R)) :=
  match blocks with
  | 0%N => Some [::]
  | b.+1 => let? V' := iter_o steps step V in let? l := fd_blocks step steps b V' in Some (V' :: l)
  end.
Definition seq_fd (mk : seq R -> seq R -> R -> R -> seq R -> option (seq R)) (T : R) (blocks steps : nat) (xs us : seq R) :
    option (seq (seq R)) :=
  let? dx := grid_dx xs in
  let? dt := div_nats T [:: blocks; steps] in
  if dx == 0 then None
  else
    let V := [seq LT x | x <- xs] in
    let? l := fd_blocks (mk xs us dx dt) steps blocks V in Some (rev (V :: l)).
Definition seqBackwardPass_symfd := seq_fd symfd_step.
Definition seqBackwardPass_upwind := seq_fd upwind_step.

(** hjb_grid_1d_tf.py 340-352: the body of seq_bw_pass_symfd takes the minimum *)
Definition tf_symfd_step (xs us : seq R) (dx dt : R) (V : seq R) : option (seq R) :=
  omap_seq (fun z : R * R * R => let? q := @vmin K [seq L z.1.1 u + f z.1.1 u * z.2 | u <- us] in Some (z.1.2 + q * dt))
    (zip (zip xs V) (dv_all dv_sym dx V)).
(** hjb_grid_1d_tf.py 332-368, 386-421 *)
Definition tf_seq_fd (mk : seq R -> seq R -> R -> R -> seq R -> option (seq R)) (T : R) (blocks steps : nat) (xs us : seq R) :
    option (seq (seq R)) :=
  let? dx := grid_dx xs in
  if dx == 0 then None
  else
    let dt := T / blocks%:R / steps%:R in
    let V := [seq LT x | x <- xs] in
    let? Vs := tf_scan_rev (fun V (_ : nat) => mk xs us dx dt V) V (iota 0 (blocks * steps)) in
    stride steps (rcons Vs V).
Definition tf_seq_bw_pass_symfd := tf_seq_fd tf_symfd_step.
Definition tf_seq_bw_pass_upwind := tf_seq_fd upwind_step.

(** ** the passes with the combination of block value functions *)
(** hjb_grid_1d_np.py 432-435, 466-469: VT[x, xp] = LT(fd_x_grid[x]), xdim rows and columns *)
Definition VT_table (xdim : nat) (xs : seq R) : option (seq (seq (option R))) :=
  mapM (fun x => let? g := List.nth_error xs x in Some (nseq xdim (Some (LT g)))) (iota 0 xdim).
(** hjb_grid_1d_np.py 419-447: seqBackwardPass_assoc *)
Fixpoint assoc_loop (block_V : seq (seq (option R))) (blocks : nat) (V : seq (seq (option R))) : option (seq (seq (option R))) :=
  match blocks with
  | 0%N => Some [::]
  | b.+1 =>
      let? V' := combine_V_interp block_V V in
      let? v := column V' 0 in
      let? l := assoc_loop block_V b V' in Some (v :: l)
  end.
Definition seqBackwardPass_assoc (xs : seq R) (blocks : nat) (block_V : seq (seq (option R))) : option (seq (seq (option R))) :=
  let? VT := VT_table (size block_V) xs in
  let? v := column VT 0 in
  let? l := assoc_loop block_V blocks VT in Some (rev (v :: l)).
(** hjb_grid_1d_np.py 450-472: parBackwardPass_init *)
Definition hjb_par_init (xs : seq R) (blocks : nat) (block_V : seq (seq (option R))) : option (seq (seq (seq (option R)))) :=
  let? VT := VT_table (size block_V) xs in Some (rcons (nseq blocks block_V) VT).
(** hjb_grid_1d_np.py 474-488: parBackwardPass_extract; elems[0] raises without elements *)
Definition hjb_par_extract (elems : seq (seq (seq (option R)))) : option (seq (seq (option R))) :=
  if elems is [::] then None else omap_seq (fun e => column e 0) elems.
(** hjb_grid_1d_np.py 490-503: parBackwardPass *)
Definition hjb_parBackwardPass (xs : seq R) (blocks : nat) (block_V : seq (seq (option R))) : option (seq (seq (option R))) :=
  let? e := hjb_par_init xs blocks block_V in
  let? e' := hjb_par_scan_interp e in hjb_par_extract e'.

(** LT(x_mesh), hjb_grid_1d_tf.py 446-447, 475-476: the grid gives both dimensions *)
Definition tf_VT (xs : seq R) : seq (seq (option R)) := [seq nseq (size xs) (Some (LT x)) | x <- xs].
(** hjb_grid_1d_tf.py 428-456: seq_bw_pass_assoc *)
Definition tf_seq_bw_pass_assoc (xs : seq R) (blocks : nat) (block_V : seq (seq (option R))) : option (seq (seq (option R))) :=
  let VT := tf_VT xs in
  let? Vs := tf_scan_rev (fun V (_ : nat) => combine_V_interp block_V V) VT (iota 0 blocks) in
  let? v := column VT 0 in
  let? l := omap_seq (fun V => column V 0) Vs in Some (rcons l v).
(** hjb_grid_1d_tf.py 458-486: par_bw_pass; tf.concat needs one shape.  math.log2(0) raises. *)
Definition tf_par_bw_pass (xs : seq R) (blocks : nat) (block_V : seq (seq (option R))) (max_parallel : nat) : option (seq (seq (option R))) :=
  let VT := tf_VT xs in
  if (size block_V != size xs) || ~~ all (fun r => size r == size xs) block_V || (max_parallel == 0%N) then None
  else
    let? r := tfp_scan_associative (fun y x => combine_V_interp x y) (Nat.log2_up max_parallel) (rev (rcons (nseq blocks block_V) VT)) in
    omap_seq (fun e => column e 0) (rev r).
End Fd.

(** cnonlin_models_np.py 98-117: upwind_model_block_V; [a] is exp(block_dt).  A product of truth values is their conjunction. *)
Definition block_V_np (inf_value a : R) (xs : seq R) : seq (seq R) :=
  [seq [seq let cond1 := (0 < x0) && (x0 <= xf) && (xf <= a * x0) in
            let cond2 := (x0 <= 0) && (a * x0 <= xf) && (xf <= x0) in
            (1 - (cond1 || cond2)%:R) * inf_value | xf <- xs] | x0 <- xs].
(** cnonlin_models_tf.py 101-121: upwind_model_block_V *)
Definition block_V_tf (inf_value a : R) (xs : seq R) : seq (seq R) :=
  [seq [seq let cond1 := (0 <= x0) && (x0 <= xf) && (xf <= a * x0) in
            let cond2 := (0 <= x0) && (a * x0 <= xf) && (xf <= x0) in
            if cond1 || cond2 then 0 else inf_value | xf <- xs] | x0 <- xs].
End Hjb.
