(** Model of parallel_control/sqp_np.py and parallel_control/sqp_tf.py (exact arithmetic).

    jax does not raise on a singular matrix or on 0/0 but returns inf or nan; None stands for such a result. *)
From mathcomp Require Import all_ssreflect all_algebra.
From Verif Require Import MxBase LqtModel.
Import Order.TTheory GRing.Theory Num.Theory.
Set Implicit Arguments. Unset Strict Implicit. Unset Printing Implicit Defensive.
Local Open Scope ring_scope.

Section Sqp.
Variable R : realFieldType.
Variables n k : nat.

(** sqp_np.py 12-37: lqe_solve (sqp_tf.py 15-40 is the same computation, for every member of the batch) *)
Definition lqe_solve (G : 'M[R]_n) (c : 'cV[R]_n) (A : 'M[R]_(k, n)) (b : 'cV[R]_k) : option ('cV[R]_n * 'cV[R]_k) :=
  let Psi := block_mx G (- A^T) A 0 in
  let? xlam := solve Psi (col_mx (- c) b) in
  Some (usubmx xlam, dsubmx xlam).

(** The user's functions fun and con, with what automatic differentiation returns for them (sqp_np.py 60-65, 124-129,
    241-245): gradient of fun, Jacobian of con, gradient and Hessian in x of lag = fun - lam . con. *)
Record nlp := Nlp { pf : 'cV[R]_n -> R; pc : 'cV[R]_n -> 'cV[R]_k;
                    pdf : 'cV[R]_n -> 'cV[R]_n; pdc : 'cV[R]_n -> 'M[R]_(k, n);
                    pdl : 'cV[R]_n -> 'cV[R]_k -> 'cV[R]_n; phl : 'cV[R]_n -> 'cV[R]_k -> 'M[R]_n }.
(** jnp.linalg.norm; square roots need not exist in R, so the norm is a parameter *)
Variable norm : 'cV[R]_n -> R.
Variable Q : nlp.

(** sqp_np.py 74-90, 135-151; sqp_tf.py 155-168: one step, returns x, lam, crit *)
Definition sqp_step (x : 'cV[R]_n) (lam : 'cV[R]_k) : option ('cV[R]_n * 'cV[R]_k * R) :=
  let Jf := pdf Q x in
  let c := pc Q x in
  let Jc := pdc Q x in
  let Jl := pdl Q x lam in
  let HL := phl Q x lam in
  let? '(p, hlam) := lqe_solve HL Jf Jc (- c) in
  Some (x + p, hlam, norm Jl).

(** sqp_np.py 67-98: local_eq; fuel is max_iter - iter *)
Fixpoint local_eq_loop (fuel : nat) (tol : R) (x : 'cV[R]_n) (lam : 'cV[R]_k) (iter : nat) (crit : R) :
    option ('cV[R]_n * nat * R) :=
  match fuel with
  | 0%N => Some (x, iter, crit)
  | fuel'.+1 =>
      if tol < crit then
        let? '(x', lam', crit') := sqp_step x lam in
        local_eq_loop fuel' tol x' lam' iter.+1 crit'
      else Some (x, iter, crit)
  end.
Definition local_eq (x0 : 'cV[R]_n) (max_iter : nat) (tol : R) := local_eq_loop max_iter tol x0 0 0%N 1.

(** sqp_np.py 101-164: local_eq_fast, a scan over arange(num_iter) *)
Fixpoint fast_loop (i : nat) (carry : 'cV[R]_n * 'cV[R]_k * R) : option ('cV[R]_n * 'cV[R]_k * R) :=
  match i with
  | 0%N => Some carry
  | i'.+1 => let? carry' := sqp_step carry.1.1 carry.1.2 in fast_loop i' carry'
  end.
Definition local_eq_fast (x0 : 'cV[R]_n) (num_iter : nat) : option ('cV[R]_n * nat * R) :=
  let? '(x, lam, crit) := fast_loop num_iter (x0, 0, 1) in Some (x, num_iter, crit).

(** sqp_tf.py 136-177: local_eq_fast without batch; tf.scan returns the carries of all iterations *)
Fixpoint tf_fast_loop (i : nat) (carry : 'cV[R]_n * 'cV[R]_k * R) : option (seq ('cV[R]_n * 'cV[R]_k * R)) :=
  match i with
  | 0%N => Some [::]
  | i'.+1 => let? carry' := sqp_step carry.1.1 carry.1.2 in let? r := tf_fast_loop i' carry' in Some (carry' :: r)
  end.
Definition tf_local_eq_fast (x0 : 'cV[R]_n) (num_iter : nat) :=
  let? r := tf_fast_loop num_iter (x0, 0, 1) in
  Some ([seq c.1.1 | c <- r], [seq c.1.2 | c <- r], [seq c.2 | c <- r]).

(** ** sqp_np.py 172-192: bfgs_basic_update.  jnp.outer(a, b) is a *m b^T.  Division by zero gives None. *)
Definition rank_two (B : 'M[R]_n) (y Bs : 'cV[R]_n) (den sBs : R) : option 'M[R]_n :=
  if (den == 0) || (sBs == 0) then None
  else Some (B + den^-1 *: (y *m y^T) - sBs^-1 *: (Bs *m Bs^T)).
Definition bfgs_basic_update (B : 'M[R]_n) (s y : 'cV[R]_n) : option 'M[R]_n :=
  let den := dot s y in
  if 0 < den then
    let Bs := B *m s in rank_two B y Bs den (dot s Bs)
  else Some B.
(** sqp_np.py 195-216: bfgs_damped_update; 0.2 and 0.8 are the rationals 1/5 and 4/5.  The quotient theta is only
    computed when s.y < 0.2 Bs.s; its denominator is then positive or the result undefined. *)
Definition bfgs_damped_update (B : 'M[R]_n) (s y : 'cV[R]_n) : option 'M[R]_n :=
  let Bs := B *m s in
  let? theta := (if 5%:R^-1 * dot Bs s <= dot s y then Some 1
                 else if dot Bs s - dot s y == 0 then None
                 else Some ((4%:R / 5%:R) * dot Bs s / (dot Bs s - dot s y))) in
  let y' := theta *: y + (1 - theta) *: Bs in
  rank_two B y' Bs (dot s y') (dot s Bs).

(** sqp_np.py 247-248: merit with mu = 1 *)
Definition merit (x : 'cV[R]_n) : R := pf Q x + (\sum_i `|pc Q x i 0|) / 1.

(** sqp_np.py 270-273: back-tracking; fuel is max_backtrack - backtrack; returns alf and backtrack *)
Fixpoint backtrack (fuel : nat) (x p : 'cV[R]_n) (m0 alf : R) (bt : nat) : R * nat :=
  match fuel with
  | 0%N => (alf, bt)
  | fuel'.+1 => if m0 < merit (x + alf *: p) then backtrack fuel' x p m0 (2%:R^-1 * alf) bt.+1 else (alf, bt)
  end.

(** sqp_np.py 258-300: body of the loop of bfgs_eq_bt.  The approximation B may be undefined (nan). *)
Record bfgs_state := BState { bx : 'cV[R]_n; blam : 'cV[R]_k; bB : option 'M[R]_n; bcrit : R }.
Definition bfgs_step (max_backtrack : nat) (damped : bool) (st : bfgs_state) : option bfgs_state :=
  let x := bx st in
  let Jf := pdf Q x in
  let c := pc Q x in
  let Jc := pdc Q x in
  let? B := bB st in
  let? '(p, hlam) := lqe_solve B Jf Jc (- c) in
  let plam := hlam - blam st in
  let: (alf0, bt) := backtrack max_backtrack x p (merit x) 1 0%N in
  let alf := if bt == max_backtrack then 1 else alf0 in
  let s := alf *: p in
  let x' := x + s in
  let lam' := blam st + alf *: plam in
  let y := pdl Q x' lam' - pdl Q x lam' in
  let B' := if damped then bfgs_damped_update B s y else bfgs_basic_update B s y in
  Some (BState x' lam' B' (norm (pdl Q x' lam'))).

(** sqp_np.py 250-304: bfgs_eq_bt *)
Fixpoint bfgs_loop (fuel : nat) (tol : R) (max_backtrack : nat) (damped : bool) (st : bfgs_state) (iter : nat) :
    option ('cV[R]_n * nat * R) :=
  match fuel with
  | 0%N => Some (bx st, iter, bcrit st)
  | fuel'.+1 =>
      if tol < bcrit st then
        let? st' := bfgs_step max_backtrack damped st in
        bfgs_loop fuel' tol max_backtrack damped st' iter.+1
      else Some (bx st, iter, bcrit st)
  end.
Definition bfgs_init (x0 : 'cV[R]_n) : bfgs_state := BState x0 0 (Some 1%:M) 1.
Definition bfgs_eq_bt (x0 : 'cV[R]_n) (max_iter : nat) (tol : R) (max_backtrack : nat) (damped : bool) :=
  bfgs_loop max_iter tol max_backtrack damped (bfgs_init x0) 0%N.
End Sqp.
