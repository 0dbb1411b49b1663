(** Model of parallel_control/diffeq_np.py and parallel_control/diffeq_tf.py: the Runge-Kutta step, for states in any
    vector space over a real field (exact arithmetic).  The right-hand side may raise (None). *)
From mathcomp Require Import all_ssreflect all_algebra.
From Verif Require Import MxBase LqtModel.
Import Order.TTheory GRing.Theory Num.Theory.
Set Implicit Arguments. Unset Strict Implicit. Unset Printing Implicit Defensive.
Local Open Scope ring_scope.

Section Rk4.
Variable R : realFieldType.
Variable V : lmodType R.
Variable P : Type.
Local Notation half := (2%:R^-1 : R).

(** diffeq_np.py 48; diffeq_tf.py 31 *)
Definition rk4_sum (x dx1 dx2 dx3 dx4 : V) : V := x + (1 / 6%:R) *: (dx1 + 2%:R *: dx2 + 2%:R *: dx3 + dx4).

(** diffeq_np.py 26-30: t and param absent *)
Definition rk4_x (f : V -> option V) (dt : R) (x : V) : option V :=
  let? k1 := f x in let dx1 := dt *: k1 in
  let? k2 := f (x + half *: dx1) in let dx2 := dt *: k2 in
  let? k3 := f (x + half *: dx2) in let dx3 := dt *: k3 in
  let? k4 := f (x + dx3) in let dx4 := dt *: k4 in
  Some (rk4_sum x dx1 dx2 dx3 dx4).
(** diffeq_np.py 31-35: t absent *)
Definition rk4_xp (f : V -> P -> option V) (dt : R) (x : V) (param : P) : option V :=
  let? k1 := f x param in let dx1 := dt *: k1 in
  let? k2 := f (x + half *: dx1) param in let dx2 := dt *: k2 in
  let? k3 := f (x + half *: dx2) param in let dx3 := dt *: k3 in
  let? k4 := f (x + dx3) param in let dx4 := dt *: k4 in
  Some (rk4_sum x dx1 dx2 dx3 dx4).
(** diffeq_np.py 37-41: param absent *)
Definition rk4_xt (f : V -> R -> option V) (dt : R) (x : V) (t : R) : option V :=
  let? k1 := f x t in let dx1 := dt *: k1 in
  let? k2 := f (x + half *: dx1) (t + dt / 2%:R) in let dx2 := dt *: k2 in
  let? k3 := f (x + half *: dx2) (t + dt / 2%:R) in let dx3 := dt *: k3 in
  let? k4 := f (x + dx3) (t + dt) in let dx4 := dt *: k4 in
  Some (rk4_sum x dx1 dx2 dx3 dx4).
(** diffeq_np.py 42-46 *)
Definition rk4_xtp (f : V -> R -> P -> option V) (dt : R) (x : V) (t : R) (param : P) : option V :=
  let? k1 := f x t param in let dx1 := dt *: k1 in
  let? k2 := f (x + half *: dx1) (t + dt / 2%:R) param in let dx2 := dt *: k2 in
  let? k3 := f (x + half *: dx2) (t + dt / 2%:R) param in let dx3 := dt *: k3 in
  let? k4 := f (x + dx3) (t + dt) param in let dx4 := dt *: k4 in
  Some (rk4_sum x dx1 dx2 dx3 dx4).
(** diffeq_tf.py 13-33 *)
Definition tf_rk4 (f : V -> R -> P -> option V) (dt : R) (x : V) (t : R) (param : P) : option V :=
  let? k1 := f x t param in let dx1 := dt *: k1 in
  let? k2 := f (x + half *: dx1) (t + half * dt) param in let dx2 := dt *: k2 in
  let? k3 := f (x + half *: dx2) (t + half * dt) param in let dx3 := dt *: k3 in
  let? k4 := f (x + dx3) (t + dt) param in let dx4 := dt *: k4 in
  Some (rk4_sum x dx1 dx2 dx3 dx4).
End Rk4.
