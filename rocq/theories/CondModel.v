(** Model of parallel_control/condensing_np.py (LQTCondenser) and parallel_control/condensing_tf.py.

    State dimension [n], control dimension [m], output dimension [p] (the same at all steps: the code takes it
    from H[0]), [N] is the argument Nc.  A stacked vector of N blocks of size d has size N * d; the code fills
    zero arrays slice by slice, here the block at position i (j) is given by a function of i (j). *)
From mathcomp Require Import all_ssreflect all_algebra.
From Verif Require Import MxBase LqtModel.
Import Order.TTheory GRing.Theory Num.Theory.
Set Implicit Arguments. Unset Strict Implicit. Unset Printing Implicit Defensive.
Local Open Scope ring_scope.

Section Stack.
Variable R : realFieldType.
(** blocks on top of each other *)
Fixpoint vstack d e (N : nat) (f : nat -> 'M[R]_(d, e)) : 'M[R]_(N * d, e) :=
  match N with 0%N => 0 | N'.+1 => col_mx (f 0%N) (vstack N' (fun i => f i.+1)) end.
(** blocks side by side *)
Fixpoint hstack d e (N : nat) (f : nat -> 'M[R]_(d, e)) : 'M[R]_(d, N * e) :=
  match N with 0%N => 0 | N'.+1 => row_mx (f 0%N) (hstack N' (fun i => f i.+1)) end.
(** block diagonal matrix *)
Fixpoint bdiag d e (N : nat) (f : nat -> 'M[R]_(d, e)) : 'M[R]_(N * d, N * e) :=
  match N with 0%N => 0 | N'.+1 => block_mx (f 0%N) 0 0 (bdiag N' (fun i => f i.+1)) end.
(** the slice a[i*d:(i+1)*d] *)
Fixpoint vblk d e (N : nat) (i : nat) : 'M[R]_(N * d, e) -> 'M[R]_(d, e) :=
  match N return 'M[R]_(N * d, e) -> 'M[R]_(d, e) with
  | 0%N => fun _ => 0
  | N'.+1 => fun M : 'M_(d + N' * d, e) => match i with 0%N => usubmx M | i'.+1 => @vblk d e N' i' (dsubmx M) end
  end.
End Stack.
Arguments vstack {R d e}. Arguments hstack {R d e}. Arguments bdiag {R d e}. Arguments vblk {R d e}.

Fixpoint omap_list {A B} (f : A -> option B) (l : seq A) : option (seq B) :=
  match l with
  | [::] => Some [::]
  | a :: l' => let? b := f a in let? bs := omap_list f l' in Some (b :: bs)
  end.

Section Cond.
Variable R : realFieldType.
Variables n m p N : nat.
Local Notation ostage := (stage R n m p).

(** condensing_np.py 60-68: the trivial dynamics appended when the horizon is not a multiple of Nc *)
Definition pad_stage : ostage := Stage 1%:M 0 0 1%:M 0 0 0 1%:M 0 0.
Definition padded (sts : seq ostage) : seq ostage :=
  if (size sts %% N == 0)%N then sts else sts ++ nseq (N - size sts %% N) pad_stage.
(** the Nc stages of condensed step kp start at k = Nc * kp (92-93) *)
Definition blocks (sts : seq ostage) : seq (seq ostage) :=
  [seq take N (drop (N * kp) sts) | kp <- iota 0 (size sts %/ N)].

Section Block.
Variable b : seq ostage.
Definition st (i : nat) : ostage := nth pad_stage b i.
(** 98-105: Ftmp before step i *)
Definition Ftmp (i : nat) : 'M[R]_n := foldl (fun A s => sF s *m A) 1%:M (take i b).
Definition Lambda : 'M[R]_(N * n, n) := vstack N Ftmp.
Definition Fstar : 'M[R]_n := Ftmp N.
(** 114-118: the first i blocks of Fpows after iteration i *)
Definition Fpows (i : nat) : seq 'M[R]_n :=
  foldl (fun Fp s => rcons [seq sF s *m A | A <- Fp] 1%:M) [::] (take i b).
(** 119-129: Lbar and cbar for rows i < Nc, Lstar and cstar for i = Nc; row 0 stays zero *)
Definition Lrow (i j : nat) : 'M[R]_(n, m) := if (j < i)%N then nth 0 (Fpows i) j *m sL (st j) else 0.
Definition crow (i : nat) : 'cV[R]_n := \sum_(0 <= j < i) nth 0 (Fpows i) j *m scc (st j).
Definition Lbar : 'M[R]_(N * n, N * m) := vstack N (fun i => hstack N (Lrow i)).
Definition cbar : 'cV[R]_(N * n) := vstack N crow.
Definition Lstar : 'M[R]_(n, N * m) := hstack N (Lrow N).
Definition cstar : 'cV[R]_n := crow N.
(** 94-103: XUbar, rsbar, Hbar *)
Definition XUbar : 'M[R]_(N * p + N * m) := block_mx (bdiag N (fun i => sX (st i))) 0 0 (bdiag N (fun i => sU (st i))).
Definition rsbar : 'cV[R]_(N * p + N * m) := col_mx (vstack N (fun i => sr (st i))) 0.
Definition Hbar : 'M[R]_(N * p, N * n) := bdiag N (fun i => sH (st i)).
End Block.

(** the result for one block: the condensed stage and the matrices kept for convertUX *)
Record cblock := CBlock { cstg : stage R n (N * m) n; cLam : 'M[R]_(N * n, n); ccb : 'cV[R]_(N * n); cLb : 'M[R]_(N * n, N * m) }.

(** 131-147: the cost transformation; [slv] is the linear solver *)
Definition finish (slv : 'M[R]_(n + N * m) -> 'cV[R]_(n + N * m) -> option 'cV[R]_(n + N * m))
    (Lam : 'M[R]_(N * n, n)) (Lb : 'M[R]_(N * n, N * m)) (cb : 'cV[R]_(N * n))
    (Fs : 'M[R]_n) (Ls : 'M[R]_(n, N * m)) (cs : 'cV[R]_n) (b : seq ostage) : option cblock :=
  let trans : 'M[R]_(N * p + N * m, n + N * m) := block_mx (Hbar b *m Lam) (Hbar b *m Lb) 0 1%:M in
  let XUM := trans^T *m XUbar b *m trans in
  let tmp : 'cV[R]_(N * p + N * m) := col_mx (Hbar b *m cb) 0 in
  let? rs := slv XUM (trans^T *m XUbar b *m (rsbar b - tmp)) in
  Some (CBlock (Stage Fs Ls (ulsubmx XUM) (drsubmx XUM) cs 1%:M (usubmx rs) 1%:M (dsubmx rs) (ursubmx XUM)) Lam cb Lb).

(** condensing_np.py 91-163, one value of kp; linalg.solve(..., assume_a='pos') *)
Definition condense_block (b : seq ostage) : option cblock :=
  finish (fun A B => solve_pos A B) (Lambda b) (Lbar b) (cbar b) (Fstar b) (Lstar b) (cstar b) b.

(** 34-172: condense.  Raises for an empty problem (F[0]) and for Nc = 0 (T % Nc). *)
Definition condense (sts : seq ostage) : option (seq cblock) :=
  if (N == 0)%N || (size sts == 0)%N then None else omap_list condense_block (blocks (padded sts)).

(** 174-201: convertUX, with T the original horizon *)
Fixpoint conv_loop (T : nat) (bs : seq cblock) (us : seq 'cV[R]_(N * m)) (xs : seq 'cV[R]_n)
    (acc : seq 'cV[R]_m * seq 'cV[R]_n) : option (seq 'cV[R]_m * seq 'cV[R]_n) :=
  match us with
  | [::] => Some acc
  | u :: us' =>
      match bs, xs with
      | b :: bs', x :: xs' =>
          let y := cLam b *m x + ccb b + cLb b *m u in
          conv_loop T bs' us' xs'
            (foldl (fun a j => if (size a.1 < T)%N then (rcons a.1 (vblk N j u), rcons a.2 (vblk N j y)) else a) acc (iota 0 N))
      | _, _ => None
      end
  end.
Definition convertUX (T : nat) (bs : seq cblock) (us : seq 'cV[R]_(N * m)) (xs : seq 'cV[R]_n) :=
  let? '(ul, xl) := conv_loop T bs us xs ([::], [::]) in
  match xs with [::] => None | x :: t => Some (ul, rcons xl (last x t)) end.

(** ** condensing_tf.py *)
Section BlockTf.
Variable b : seq ostage.
(** 93-98: Lambda_list and Fstar *)
Fixpoint lam_tf (Fst : 'M[R]_n) (b' : seq ostage) : seq 'M[R]_n * 'M[R]_n :=
  match b' with
  | [::] => ([::], Fst)
  | s :: b'' => let r := lam_tf (sF s *m Fst) b'' in (Fst :: r.1, r.2)
  end.
Definition Lambda_tf : 'M[R]_(N * n, n) := vstack N (nth 0 (1%:M :: (lam_tf (sF (st b 0)) (behead b)).1)).
Definition Fstar_tf : 'M[R]_n := (lam_tf (sF (st b 0)) (behead b)).2.
(** 101-110: Lbar_row and cbar_row before iteration k; a row has k+1 blocks *)
Fixpoint rows_tf (Lr : seq 'M[R]_(n, m)) (cr : 'cV[R]_n) (b' : seq ostage) : seq (seq 'M[R]_(n, m) * 'cV[R]_n) :=
  (Lr, cr) ::
  match b' with
  | [::] => [::]
  | s :: b'' => rows_tf (rcons [seq sF s *m A | A <- Lr] (sL s)) (sF s *m cr + scc s) b''
  end.
Definition all_rows : seq (seq 'M[R]_(n, m) * 'cV[R]_n) := ([::], 0) :: rows_tf [:: sL (st b 0)] (scc (st b 0)) (behead b).
(** tf.pad with zeros on the right *)
Definition row_tf (i : nat) : seq 'M[R]_(n, m) * 'cV[R]_n := nth ([::], 0) all_rows i.
Definition Lbar_tf : 'M[R]_(N * n, N * m) := vstack N (fun i => hstack N (nth 0 (row_tf i).1)).
Definition cbar_tf : 'cV[R]_(N * n) := vstack N (fun i => (row_tf i).2).
Definition Lstar_tf : 'M[R]_(n, N * m) := hstack N (nth 0 (row_tf N).1).
Definition cstar_tf : 'cV[R]_n := (row_tf N).2.
End BlockTf.
(** 112-134; tf.linalg.solve *)
Definition condense_block_tf (b : seq ostage) : option cblock :=
  finish (fun A B => solve A B) (Lambda_tf b) (Lbar_tf b) (cbar_tf b) (Fstar_tf b) (Lstar_tf b) (cstar_tf b) b.
(** 44-134: condense; the blocks are the rows of the reshaped tensors *)
Definition condense_tf (sts : seq ostage) : option (seq cblock) :=
  if (N == 0)%N || (size sts == 0)%N then None else omap_list condense_block_tf (blocks (padded sts)).
(** 136-162: convertUX; the blocks of all steps are concatenated and cut after T *)
Definition convertUX_tf (T : nat) (bs : seq cblock) (us : seq 'cV[R]_(N * m)) (xs : seq 'cV[R]_n) :
    option (seq 'cV[R]_m * seq 'cV[R]_n) :=
  match xs with
  | [::] => None
  | x :: t =>
      if (size us == size bs)%N && (size t == size bs)%N then
        let ys := [seq cLam z.1 *m z.2.1 + ccb z.1 + cLb z.1 *m z.2.2 | z <- zip bs (zip xs us)] in
        Some (take T (flatten [seq [seq vblk N j u | j <- iota 0 N] | u <- us]),
              rcons (take T (flatten [seq [seq vblk N j y | j <- iota 0 N] | y <- ys])) (last x t))
      else None
  end.
(** the condensed problem: checkAndExpand of the lists (165) with the original final cost *)
Definition condensed (bs : seq cblock) q (XT : 'M[R]_q) (HT : 'M[R]_(q, n)) (rT : 'cV[R]_q) : lqt R n (N * m) :=
  Lqt [seq VStage (cstg b) | b <- bs] XT HT rT.
End Cond.
Arguments condense {R n m p}. Arguments condense_tf {R n m p}. Arguments convertUX {R n m}. Arguments convertUX_tf {R n m}.
