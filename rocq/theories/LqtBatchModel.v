(** Model of LQT.batchSolution (lqt_np.py 1074-1152).

    The slices [n*i : n*(i+1)] of the large arrays are the blocks of mathcomp's block matrices, which lay
    blocks out in the same order.  All steps and the final cost have the same output dimension p here:
    the code sizes the arrays with p = rows of H[0] and otherwise the slice assignments do not fit. *)
From mathcomp Require Import all_ssreflect all_algebra.
From Verif Require Import MxBase LqtModel.
Import Order.TTheory GRing.Theory Num.Theory.
Set Implicit Arguments. Unset Strict Implicit. Unset Printing Implicit Defensive.
Local Open Scope ring_scope.

(** x[k*i : k*(i+1)] *)
Definition slice (R : realFieldType) (T k : nat) (x : 'cV[R]_(\sum_(i < T) k)) (i : 'I_T) : 'cV[R]_k :=
  @submxcol R T (fun _ => k) 1 x i.

Section Batch.
Variable R : realFieldType.
Variables n m p : nat.
Variable T : nat.
(** self.F[i], self.L[i], ... for i < T *)
Variable st : nat -> stage R n m p.
Variables (bXT : 'M[R]_p) (bHT : 'M[R]_(p, n)) (brT : 'cV[R]_p).
Variable x0 : 'cV[R]_n.

Definition bn := (\sum_(i < T) n)%N.
Definition bm := (\sum_(i < T) m)%N.
Definition bp := (\sum_(i < T) p)%N.

(** 1106-1111: A[i,i] = eye(n); A[i,i-1] = -F[i] *)
Definition bA : 'M[R]_(bn, bn) := \mxblock_(i < T, j < T)
  (if i == j then 1%:M else if (i == j.+1 :> nat) then - sF (st i) else 0).
(** 1112-1115: tH0[i,i-1] = H[i]; tr0 *)
Definition btH0 : 'M[R]_(bp, bn) := \mxblock_(i < T, j < T) (if (i == j.+1 :> nat) then sH (st i) else 0).
Definition btr0 : 'cV[R]_bp := \mxcol_(i < T) (if (i == 0%N :> nat) then sr (st i) - sH (st 0%N) *m x0 else sr (st i)).
(** 1117-1123, and 1134: d[0:n] += F[0] @ x0 *)
Definition bB : 'M[R]_(bn, bm) := \mxblock_(i < T, j < T) (if i == j then sL (st i) else 0).
Definition bd : 'cV[R]_bn := \mxcol_(i < T) (if (i == 0%N :> nat) then scc (st i) + sF (st 0%N) *m x0 else scc (st i)).
Definition btZ : 'M[R]_(bm, bm) := \mxblock_(i < T, j < T) (if i == j then sZ (st i) else 0).
Definition bts : 'cV[R]_bm := \mxcol_(i < T) ss (st i).
Definition btU : 'M[R]_(bm, bm) := \mxblock_(i < T, j < T) (if i == j then sU (st i) else 0).
Definition btM : 'M[R]_(bp, bm) := \mxblock_(i < T, j < T) (if i == j then sM (st i) else 0).
(** 1125-1132: the next step's output, the final one in the last block *)
Definition bH1 (i : nat) : 'M[R]_(p, n) := if (i < T.-1)%N then sH (st i.+1) else bHT.
Definition br1 (i : nat) : 'cV[R]_p := if (i < T.-1)%N then sr (st i.+1) else brT.
Definition bX1 (i : nat) : 'M[R]_p := if (i < T.-1)%N then sX (st i.+1) else bXT.
Definition btH1 : 'M[R]_(bp, bn) := \mxblock_(i < T, j < T) (if i == j then bH1 i else 0).
Definition btr1 : 'cV[R]_bp := \mxcol_(i < T) br1 i.
Definition btX : 'M[R]_(bp, bp) := \mxblock_(i < T, j < T) (if i == j then bX1 i else 0).

(** 1136-1152; self.F[0] raises when T = 0 *)
Definition batchSolution : option (seq 'cV[R]_m * seq 'cV[R]_n) :=
  if T is 0%N then None else
  let? AB := solve bA bB in
  let? Ad := solve bA bd in
  let tA1 := btH1 *m AB in
  let tb1 := btr1 - btH1 *m Ad in
  let tA0 := btH0 *m AB in
  let tb0 := btr0 - btH0 *m Ad in
  let? u := solve (tA1^T *m btX *m tA1 + btZ^T *m btU *m btZ + tA0^T *m btM *m btZ + btZ^T *m btM^T *m tA0)
                  (tA1^T *m btX *m tb1 + btZ^T *m btU *m bts + tA0^T *m btM *m bts + btZ^T *m btM^T *m tb0) in
  let? x := solve bA (bB *m u + bd) in
  Some ([seq slice u i | i <- enum 'I_T], x0 :: [seq slice x i | i <- enum 'I_T]).

(** the LQT object holding these parameters *)
Definition batch_lqt : lqt R n m := Lqt (mkseq (fun i => VStage (st i)) T) bXT bHT brT.
End Batch.
