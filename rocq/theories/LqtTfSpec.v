(** The tracking problem of lqt_np.py that the tensors of lqt_tf.py stand for: control output matrix I, no
    control reference, no cross terms. *)
From mathcomp Require Import all_ssreflect all_algebra.
From Verif Require Import MxBase LqtModel LqtTfModel.
Import Order.TTheory GRing.Theory Num.Theory.
Set Implicit Arguments. Unset Strict Implicit. Unset Printing Implicit Defensive.
Local Open Scope ring_scope.
Section S.
Variable R : realFieldType.
Variables n m p : nat.
Definition np_stage (s : cstage R n m p) : stage R n m p := Stage (cF s) (cL s) (cX s) (cU s) (cc s) (cH s) (cr s) 1%:M 0 0.
Definition np_lqt (sts : seq (cstage R n m p)) (f : cfinal R n p) : lqt R n m :=
  Lqt [seq VStage (np_stage s) | s <- sts] (cXT f) (cHT f) (crT f).
(** the general problem: stages as they are *)
Definition gen_lqt (sts : seq (stage R n m p)) (f : cfinal R n p) : lqt R n m :=
  Lqt [seq VStage s | s <- sts] (cXT f) (cHT f) (crT f).
End S.
