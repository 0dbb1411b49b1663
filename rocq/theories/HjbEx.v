(** Concrete cases for the theorems about the grid solvers, over the rational numbers. *)
From mathcomp Require Import all_ssreflect all_algebra.
From Verif Require Import ScanModel Ord FscModel MxBase LinComb LqtModel ClqtModel ClqtTfModel PararealModel.
From Verif Require Import HjbModel HjbSpec HjbProofs HjbInterp HjbPasses HjbFd HjbMain.
Import Order.TTheory GRing.Theory Num.Theory.
Set Implicit Arguments. Unset Strict Implicit. Unset Printing Implicit Defensive.
Local Open Scope ring_scope.
Local Notation Q := [realFieldType of rat].
Ltac byc := by vm_compute.
Lemma isSomeE {X} (d : X) (o : option X) : isSome o -> o = Some (odflt d o). Proof. by case: o. Qed.
Ltac someE := apply: isSomeE; vm_compute; reflexivity.
Ltac ex1 t := exists (odflt [::] t).
Ltac byE := apply/eqP; vm_compute; reflexivity.

Definition exA : seq (seq Q) := [:: [:: 0; 3%:R; 1]; [:: 5%:R; 1; 2%:R]; [:: 4%:R; 0; 7%:R]].
Definition exB : seq (seq Q) := [:: [:: 2%:R; 0; 1]; [:: 1; 3%:R; 0]; [:: 0; 0; 6%:R]].
Definition exAB : seq (seq Q) := [:: [:: 1; 0; 1]; [:: 2%:R; 2%:R; 1]; [:: 1; 3%:R; 0]].
Lemma combine_ex : [/\ square 3 exA, square 3 exB & hjb_combine_V exA exB = Some exAB].
Proof. by split; try byE; split; byc. Qed.
Lemma assoc_ex : exists D E F, [/\ hjb_combine_V exA exB = Some D, hjb_combine_V exB exAB = Some E,
  hjb_combine_V D exAB = Some F & hjb_combine_V exA E = Some F].
Proof. exists exAB, [:: [:: 2%:R; 2%:R; 1]; [:: 1; 1; 0]; [:: 1; 0; 1]], [:: [:: 2%:R; 1; 1]; [:: 2%:R; 2%:R; 1]; [:: 1; 1; 0]]; split; byE. Qed.
Lemma combine2_ex : hjb_combine_V2 exA exB = Some exAB.
Proof. byE. Qed.

(** the sum over j is (j - 5/4)^2 + 1/2 *)
Definition exP : seq (seq Q) := [:: [:: 25%:R / 16%:R; 1 / 16%:R; 9%:R / 16%:R; 49%:R / 16%:R]; [:: 0; 1; 1; 2%:R]; [:: 0; 1; 2%:R; 3%:R]; [:: 5%:R; 2%:R; 1; 0]].
Definition exH : seq (seq Q) := nseq 4 [:: 1 / 2%:R; 0; 3%:R; 1].
Lemma interp_ex : exists C, [/\ combine_V_interp (nums exP) (nums exH) = Some C, square 4 exP, square 4 exH,
  nat2 C 0 0 = Some (1 / 2%:R) & first_min 4 (via exP exH 0 0) 1].
Proof.
ex1 (combine_V_interp (nums exP) (nums exH)); split; [someE | by split; byc | by split; byc | byE |].
by split=> // -[|[|[|[|i]]]] // _; split; byc.
Qed.
Lemma interp_flat_ex : exists C, combine_V_interp (nums exA) (nums (nseq 3 (nseq 3 0 : seq Q))) = Some C /\ nat2 C 0 0 = Some 0 :> option Q.
Proof. ex1 (combine_V_interp (nums exA) (nums (nseq 3 (nseq 3 0 : seq Q)))); split; [someE | byE]. Qed.
Lemma interp_nan_ex : exists C, combine_V_interp (nums (nseq 3 (nseq 3 (0 : Q)))) (nums (nseq 3 (nseq 3 0 : seq Q))) = Some C /\ nat2 C 0 0 = None :> option Q.
Proof. ex1 (combine_V_interp (nums (nseq 3 (nseq 3 (0 : Q)))) (nums (nseq 3 (nseq 3 0 : seq Q)))); split; [someE | byE]. Qed.
Lemma exact_ex : [/\ forall j, (j < 4)%N -> via exP exH 0 0 j = 1 * (0 + j%:R * 1 - 5%:R / 4%:R) ^+ 2 + 1 / 2%:R :> Q,
  (0 + 1 / 2%:R < 5%:R / 4%:R :> Q) && (5%:R / 4%:R <= 0 + 3%:R * 1 - 1 / 2%:R :> Q)
  & exists C, combine_V_interp (nums exP) (nums exH) = Some C /\ nat2 C 0 0 = Some (1 / 2%:R)].
Proof.
split; [by move=> [|[|[|[|j]]]] // _; byE | byc |].
ex1 (combine_V_interp (nums exP) (nums exH)); split; [someE | byE].
Qed.
Lemma interp2_ex : combine_V_interp2 (nums exP) (nums exH) = combine_V_interp (nums exP) (nums exH) /\ combine_V_interp (nums exP) (nums exH) != None.
Proof. by split; [byE | byc]. Qed.

(** ** the passes with block value functions *)
Definition bad_V : seq (seq (option Q)) := nums [:: [:: 0; 3%:R; 0]; [:: 0; 1; 1]; [:: 4%:R; 0; 0]].
Definition bad_LT (x : Q) : Q := if x == 0 then 1 else if x == 1 then 3%:R else 0.
Definition bad_xs : seq Q := [:: 0; 1; 2%:R].
Lemma bad_square : square 3 bad_V. Proof. by split; byc. Qed.
Lemma par_ex : hjb_parBackwardPass bad_LT bad_xs 3 bad_V =
  Some [:: [:: Some 0; Some 0; Some (- 1 / 2%:R)]; [:: Some 0; Some 0; Some 0]; [:: Some 0; Some 1; Some 0]; [:: Some 1; Some 3%:R; Some 0]].
Proof. byE. Qed.
Lemma par_refuted_l : exists (LT : Q -> Q) (xs : seq Q) (V : seq (seq (option Q))), square 3 V /\ size xs = 3%N /\
  exists r s, [/\ hjb_parBackwardPass LT xs 4 V = Some r, seqBackwardPass_assoc LT xs 4 V = Some s, nat2 r 0 0 = Some 0 & nat2 s 0 0 = Some (- 1 / 2%:R)].
Proof.
exists bad_LT, bad_xs, bad_V; split; first exact: bad_square; split=> //.
ex1 (hjb_parBackwardPass bad_LT bad_xs 4 bad_V); ex1 (seqBackwardPass_assoc bad_LT bad_xs 4 bad_V); split; [someE | someE | byE | byE].
Qed.
Lemma tf_par_refuted_l : exists (LT : Q -> Q) (xs : seq Q) (V : seq (seq (option Q))), square 3 V /\ size xs = 3%N /\
  exists r s, [/\ tf_par_bw_pass LT xs 3 V 16 = Some r, tf_seq_bw_pass_assoc LT xs 3 V = Some s, nat2 r 0 2 = Some 0 & nat2 s 0 2 = Some (- 1 / 2%:R)].
Proof.
exists bad_LT, bad_xs, bad_V; split; first exact: bad_square; split=> //.
ex1 (tf_par_bw_pass bad_LT bad_xs 3 bad_V 16); ex1 (tf_seq_bw_pass_assoc bad_LT bad_xs 3 bad_V); split; [someE | someE | byE | byE].
Qed.
Lemma plain_ex : exists r, hjb_par_scan [:: exA; exB; exAB; exA; exB] = Some r /\ at2 (nth [::] r 0) 0 0 = 2%:R.
Proof. ex1 (hjb_par_scan [:: exA; exB; exAB; exA; exB]); split; [someE | byE]. Qed.

(** ** the finite-difference passes: dx/dt = - u x, cost x^2 + u^2 *)
Definition fdf (x u : Q) : Q := - (u * x).
Definition fdL (x u : Q) : Q := x * x + u * u.
Definition fdxs : seq Q := [:: -1; 0; 1].
Definition fdus : seq Q := [:: 0; 1].
Definition fd0 (x : Q) : Q := 0.
Definition fd2 (x : Q) : Q := 2%:R * x * x.
Lemma fd_hyps : (forall x u, x \in fdxs -> u \in fdus -> 1 / 2%:R / 2%:R * `|fdf x u| <= fdxs`_1 - fdxs`_0 :> Q) /\
  (forall u, u \in fdus -> 0 <= fdf fdxs`_0 u) /\ (forall u, u \in fdus -> fdf (last 0 fdxs) u <= 0) /\
  (forall x, x \in fdxs -> fd0 x <= fd2 x).
Proof.
have E (P : pred Q) (s : seq Q) : all P s -> forall x, x \in s -> P x by move/allP.
split; [move=> x u xI uI | split; [|split]].
- have : all (fun x => all (fun u => 1 / 2%:R / 2%:R * `|fdf x u| <= fdxs`_1 - fdxs`_0 :> Q) fdus) fdxs by vm_compute.
  by move/allP/(_ x xI)/allP/(_ u uI).
- by apply: (E (fun u => 0 <= fdf fdxs`_0 u)); vm_compute.
- by apply: (E (fun u => fdf (last 0 fdxs) u <= 0)); vm_compute.
by apply: (E (fun x => fd0 x <= fd2 x)); vm_compute.
Qed.
Lemma mono_ex : exists V1 V2, [/\ seqBackwardPass_upwind fdf fdL fd0 1 2 2 fdxs fdus = Some V1,
  seqBackwardPass_upwind fdf fdL fd2 1 2 2 fdxs fdus = Some V2, size V1 = 3%N, 0 < at2 V1 0 0 & at2 V1 0 0 < at2 V2 0 0].
Proof. ex1 (seqBackwardPass_upwind fdf fdL fd0 1 2 2 fdxs fdus); ex1 (seqBackwardPass_upwind fdf fdL fd2 1 2 2 fdxs fdus); split; [someE | someE | byc | byc | byc]. Qed.
Lemma inner_ex : exists V1 V2, [/\ seqBackwardPass_upwind (fun x u => u * x) fdL fd0 (1 / 2%:R) 1 1 [:: -1; - 1 / 2%:R; 0; 1 / 2%:R] fdus = Some V1,
  seqBackwardPass_upwind (fun x u => u * x) fdL fd2 (1 / 2%:R) 1 1 [:: -1; - 1 / 2%:R; 0; 1 / 2%:R] fdus = Some V2 & at2 V1 0 1 < at2 V2 0 1].
Proof. ex1 (seqBackwardPass_upwind (fun x u => u * x) fdL fd0 (1 / 2%:R) 1 1 [:: -1; - 1 / 2%:R; 0; 1 / 2%:R] fdus); ex1 (seqBackwardPass_upwind (fun x u => u * x) fdL fd2 (1 / 2%:R) 1 1 [:: -1; - 1 / 2%:R; 0; 1 / 2%:R] fdus); split; [someE | someE | byc]. Qed.
Lemma sub_ex : exists Vs Ws, [/\ seqBackwardPass_upwind fdf fdL fd2 1 2 2 fdxs fdus = Some Vs,
  seqBackwardPass_upwind fdf fdL fd2 1 4 1 fdxs fdus = Some Ws, nth [::] Vs 1 = nth [::] Ws 2, size Vs = 3%N & size Ws = 5%N].
Proof. ex1 (seqBackwardPass_upwind fdf fdL fd2 1 2 2 fdxs fdus); ex1 (seqBackwardPass_upwind fdf fdL fd2 1 4 1 fdxs fdus); split; [someE | someE | byE | byc | byc]. Qed.
(** the dynamics, the running cost, the horizon and the grids of upwind_model with 3 and 2 grid points; the first step is
    within the step-size bound *)
Lemma mono_refuted_l : exists (LT1 LT2 : Q -> Q),
  [/\ forall x, x \in fdxs -> LT1 x <= LT2 x,
      forall x u, x \in fdxs -> u \in fdus -> 1 / 1%:R / 1%:R * `|u * x| <= fdxs`_1 - fdxs`_0 :> Q
    & exists V1 V2, [/\ seqBackwardPass_upwind (fun x u => u * x) (fun _ _ => 0) LT1 1 1 1 fdxs fdus = Some V1,
        seqBackwardPass_upwind (fun x u => u * x) (fun _ _ => 0) LT2 1 1 1 fdxs fdus = Some V2 & at2 V2 0 0 < at2 V1 0 0]].
Proof.
exists fd0, (fun x => if x == 0 then 1 else 0); split.
- by apply/allP; vm_compute.
- have : all (fun x => all (fun u => 1 / 1%:R / 1%:R * `|u * x| <= fdxs`_1 - fdxs`_0 :> Q) fdus) fdxs by vm_compute.
  by move=> H x u xI uI; move: H; move/allP/(_ x xI)/allP/(_ u uI).
ex1 (seqBackwardPass_upwind (fun x u => u * x) (fun _ _ => 0) fd0 1 1 1 fdxs fdus); ex1 (seqBackwardPass_upwind (fun x u => u * x) (fun _ _ => 0) (fun x => if x == 0 then 1 else 0) 1 1 1 fdxs fdus); split; [someE | someE | byc].
Qed.
Lemma symfd_ex : exists Vs, [/\ seqBackwardPass_symfd fdf fdL fd0 1 4 1 fdxs fdus = Some Vs, size Vs = 5%N, at2 Vs 4 0 = 0 & 0 < at2 Vs 0 0].
Proof. ex1 (seqBackwardPass_symfd fdf fdL fd0 1 4 1 fdxs fdus); split; [someE | byc | byE | byc]. Qed.
Lemma tf_fd_ex : [/\ tf_seq_bw_pass_symfd fdf fdL fd2 1 2 2 fdxs fdus = seqBackwardPass_symfd fdf fdL fd2 1 2 2 fdxs fdus,
  tf_seq_bw_pass_symfd fdf fdL fd2 1 2 2 fdxs fdus != None,
  tf_seq_bw_pass_upwind fdf fdL fd2 1 2 2 fdxs fdus = seqBackwardPass_upwind fdf fdL fd2 1 2 2 fdxs fdus &
  tf_seq_bw_pass_upwind fdf fdL fd2 1 2 2 fdxs fdus != None].
Proof. by split; [byE | byc | byE | byc]. Qed.
Lemma tf_assoc_ex : tf_seq_bw_pass_assoc bad_LT bad_xs 4 bad_V = seqBackwardPass_assoc bad_LT bad_xs 4 bad_V /\ tf_seq_bw_pass_assoc bad_LT bad_xs 4 bad_V != None.
Proof. by split; [byE | byc]. Qed.
Lemma block_ex : [/\ at2 (block_V_np 100%:R 2%:R (fdxs : seq Q)) 0 0 = 0, at2 (block_V_np 100%:R 2%:R (fdxs : seq Q)) 0 1 = 100%:R &
   at2 (block_V_tf 100%:R 2%:R (fdxs : seq Q)) 2 2 = 0].
Proof. by split; byE. Qed.
