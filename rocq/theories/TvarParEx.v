(** A concrete case for the convergence of the parallel backward pass with time-varying data. *)
From Coq Require Import Reals.
From mathcomp Require Import all_ssreflect all_algebra.
From Verif Require Import RealF MxBase LqtModel ClqtModel ClqtSpec RealExpSpec TrackOptSpec TvarSpec TvarEx TvarConvEx TvarExistSpec TvarExistEx.
Import Order.TTheory GRing.Theory Num.Theory.
Set Implicit Arguments. Unset Strict Implicit. Unset Printing Implicit Defensive.
Local Open Scope ring_scope.
Delimit Scope R_scope with Re.

Lemma ramp_par : [/\ 0 <= kT ex_ramp, convex_weights ex_ramp, lipschitz_data ex_ramp & backward_solution ex_ramp (fun _ => 1%:M) (fun t => t%:M) [::] 0].
Proof.
have [h1 h2 h3 h4] := ramp_all; split=> //; split=> // [x|t _ x] /=; by rewrite qf_sc mul1r sqr_ge0.
Qed.
