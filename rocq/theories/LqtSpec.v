(** Specification of the linear quadratic tracking problem (class docstring of LQT, lqt_np.py 397-409),
    independent of the algorithms. *)
From mathcomp Require Import all_ssreflect all_algebra.
From Verif Require Import MxBase LqtModel.
Import Order.TTheory GRing.Theory Num.Theory.
Set Implicit Arguments. Unset Strict Implicit. Unset Printing Implicit Defensive.
Local Open Scope ring_scope.

Section LqtSpec.
Variable R : realFieldType.
Variables n m : nat.

(** x[k+1] = F x + c + L u *)
Definition next p (s : stage R n m p) (x : 'cV[R]_n) (u : 'cV[R]_m) : 'cV[R]_n :=
  sF s *m x + scc s + sL s *m u.

(** one summand of the cost: quadratic in the output error H x - r and the control error Z u - s *)
Definition stage_cost p (s : stage R n m p) (x : 'cV[R]_n) (u : 'cV[R]_m) : R :=
  qf (sX s) (sH s *m x - sr s) / 2%:R + qf (sU s) (sZ s *m u - ss s) / 2%:R
  + dot (sH s *m x - sr s) (sM s *m (sZ s *m u - ss s)).

Definition final_cost (P : lqt R n m) (x : 'cV[R]_n) : R := qf (XT P) (HT P *m x - rT P) / 2%:R.

(** cost from state x on, over the remaining stages *)
Fixpoint cost_to_go (P : lqt R n m) (sts : seq (vstage R n m)) (x : 'cV[R]_n) (us : seq 'cV[R]_m) : R :=
  match sts, us with
  | s :: sts', u :: us' => stage_cost s x u + cost_to_go P sts' (next s x u) us'
  | _, _ => final_cost P x
  end.
Definition total_cost (P : lqt R n m) x0 us := cost_to_go P (stages P) x0 us.

(** states visited *)
Fixpoint traj (sts : seq (vstage R n m)) (x : 'cV[R]_n) (us : seq 'cV[R]_m) : seq 'cV[R]_n :=
  match sts, us with
  | s :: sts', u :: us' => x :: traj sts' (next s x u) us'
  | _, _ => [:: x]
  end.

(** Admissible weights: symmetric, every stage cost bounded below, control cost strictly convex. *)
Definition stage_ok p (s : stage R n m p) : Prop :=
  [/\ symm (sX s), symm (sU s),
      forall e w, 0 <= qf (sX s) e + qf (sU s) w + dot e (sM s *m w) *+ 2 &
      forall u, u != 0 -> 0 < qf (sU s) (sZ s *m u)].
(** a list all of whose members satisfy Q *)
Fixpoint all_stages (Q : vstage R n m -> Prop) (l : seq (vstage R n m)) : Prop :=
  match l with [::] => True | s :: l' => Q s /\ all_stages Q l' end.
Definition problem_ok (P : lqt R n m) : Prop :=
  [/\ symm (XT P), psd (XT P) & all_stages (fun s => stage_ok s) (stages P)].

(** us is the only minimiser of the total cost *)
Definition unique_minimiser (P : lqt R n m) x0 us : Prop :=
  size us = size (stages P) /\
  forall us', size us' = size (stages P) -> us' <> us -> total_cost P x0 us < total_cost P x0 us'.

(** c is the least cost from state x at step k *)
Definition least_cost_from (P : lqt R n m) (k : nat) x (c : R) : Prop :=
  (exists us, size us = (size (stages P) - k)%N /\ cost_to_go P (drop k (stages P)) x us = c) /\
  forall us, size us = (size (stages P) - k)%N -> c <= cost_to_go P (drop k (stages P)) x us.

(** the quadratic function 1/2 x' S x - v' x *)
Definition quad (Sv : 'M[R]_n) (v x : 'cV[R]_n) : R := qf Sv x / 2%:R - dot v x.
(** an element with symmetric positive semidefinite quadratic parts *)
Definition elem_ok (e : elem R n) : Prop := [/\ symm (eC e), psd (eC e), symm (eJ e) & psd (eJ e)].

(** time-invariant regulator: admissible weights, and the cost of a control list from state x *)
Definition lqr_ok (q : lqr R n m) : Prop :=
  [/\ symm (lX q) /\ psd (lX q), symm (lU q) /\ pd (lU q) & symm (lXT q) /\ psd (lXT q)].
Fixpoint lqr_cost (q : lqr R n m) (us : seq 'cV[R]_m) (x : 'cV[R]_n) : R :=
  match us with
  | [::] => qf (lXT q) x / 2%:R
  | u :: us' => qf (lX q) x / 2%:R + qf (lU q) u / 2%:R + lqr_cost q us' (lF q *m x + lL q *m u)
  end.
(** the regulator as a tracking problem over T steps: no offsets, no references, outputs = states and controls *)
Definition lqr_stage (q : lqr R n m) : stage R n m n := Stage (lF q) (lL q) (lX q) (lU q) 0 1%:M 0 1%:M 0 0.
Definition lqt_of_lqr (q : lqr R n m) (T : nat) : lqt R n m := Lqt (nseq T (VStage (lqr_stage q))) (lXT q) 1%:M 0.
End LqtSpec.
