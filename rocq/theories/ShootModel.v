(** Model of the direct shooting of parallel_control/hjb_grid_1d_np.py and hjb_grid_1d_tf.py: cost and end-point
    constraint of a discretised control, the conditional value function on a grid, and
    HJB_Grid_1d.directShootingValueFunction.  Also of the models of cnonlin_models_np.py and cnonlin_models_tf.py
    (exact arithmetic over a real field).

    None is a raised exception; in a table an entry None is nan (the linear solve met a singular matrix).  A vector theta
    is a column; automatic differentiation is a parameter [ad], see [with_ad]. *)
From mathcomp Require Import all_ssreflect all_algebra.
From Verif Require Import MxBase LqtModel Rk4Model SqpModel ClqtModel.
Import Order.TTheory GRing.Theory Num.Theory.
Set Implicit Arguments. Unset Strict Implicit. Unset Printing Implicit Defensive.
Local Open Scope ring_scope.

Section Shoot.
Variable R : realFieldType.
(** jnp.array([x, c]) *)
Local Notation V := [lmodType R of (R^o * R^o)%type].
Variables (g L : R -> R -> R).

(** hjb_grid_1d_np.py 59-61, 133-135: f(xc, t) with the control u(t) *)
Definition xc_rhs (u : R -> R) (xc : V) (t : R) : option V := Some (g xc.1 (u t), L xc.1 (u t)).
(** jnp.arange(0, T, dt): ceil(T / dt) numbers k dt.  The bound [fuel] on their number only serves to make this a
    function on lists; it exceeds T / dt in the calls below. *)
Definition arange0 (T dt : R) (fuel : nat) : seq R := [seq k%:R * dt | k <- iota 0 fuel & k%:R < T / dt].

(** hjb_grid_1d_np.py 57-67: the scan of fun_and_con_1 over (a_vec, b_vec, t_vec) *)
Fixpoint shoot1 (dt : R) (xc : V) (abt : seq (R * R * R)) : option V :=
  match abt with
  | [::] => Some xc
  | (a, b, ti) :: r => let? xc' := rk4_xt (xc_rhs (fun t => a + b * (t - ti))) dt xc ti in shoot1 dt xc' r
  end.
(** hjb_grid_1d_np.py 39-70: fun_and_con_1.  The division by a zero number of steps and a range with step 0 raise, and so
    does a scan over arrays of different lengths. *)
Definition fun_and_con_1 (T x0 xf : R) (a_vec b_vec : seq R) : option (R * 'cV[R]_1) :=
  if (size a_vec == 0)%N || (T == 0) then None
  else
    let dt := T / (size a_vec)%:R in
    let t_vec := arange0 T dt (size a_vec).+1 in
    if (size b_vec != size a_vec) || (size t_vec != size a_vec) then None
    else
      let? xc := shoot1 dt (x0, 0) (zip (zip a_vec b_vec) t_vec) in
      Some (xc.2, (xc.1 - xf)%:M).

(** hjb_grid_1d_np.py 130-141: the scan of fun_and_con_2 over (theta[1:], t_vec) *)
Fixpoint shoot2 (dt : R) (xc : V) (prev_u : R) (bt : seq (R * R)) : option (V * R) :=
  match bt with
  | [::] => Some (xc, prev_u)
  | (b, ti) :: r =>
      let? xc' := rk4_xt (xc_rhs (fun t => prev_u + b * (t - ti))) dt xc ti in
      shoot2 dt xc' (prev_u + b * dt) r
  end.
(** hjb_grid_1d_np.py 113-147: fun_and_con_2 *)
Definition fun_and_con_2 (T x0 xf : R) (theta : seq R) : option (R * 'cV[R]_1) :=
  if theta is u0 :: b_vec then
    if (size b_vec == 0)%N || (T == 0) then None
    else
      let dt := T / (size b_vec)%:R in
      let t_vec := arange0 T dt (size b_vec).+1 in
      if size t_vec != size b_vec then None
      else
        let? r := shoot2 dt (x0, 0) u0 (zip b_vec t_vec) in
        Some (r.1.2, (r.1.1 - xf)%:M)
  else None.

(** ** hjb_grid_1d_tf.py 23-61, 119-161: the same with tf.scan, which returns all carries; of these the last is used.  The
    leading batch axis of x0, xf and theta is not modelled: every member is computed by itself. *)
Fixpoint tf_shoot1 (dt : R) (x c : R) (abt : seq (R * R * R)) : option (seq (R * R)) :=
  match abt with
  | [::] => Some [::]
  | (a, b, ti) :: r =>
      let? xc := tf_rk4 (fun xc t (p : unit) => xc_rhs (fun t => a + b * (t - ti)) xc t) dt ((x, c) : V) ti tt in
      let? l := tf_shoot1 dt xc.1 xc.2 r in Some ((xc.1, xc.2) :: l)
  end.
(** xs[-1] raises without elements *)
Definition last_of {X} (s : seq X) : option X := if s is x :: r then Some (last x r) else None.
Definition tf_fun_and_con_1 (T x0 xf : R) (a_vec b_vec : seq R) : option (R * 'cV[R]_1) :=
  if (size a_vec == 0)%N || (T == 0) then None
  else
    let dt := T / (size a_vec)%:R in
    let t_vec := arange0 T dt (size a_vec).+1 in
    if (size b_vec != size a_vec) || (size t_vec != size a_vec) then None
    else
      let? l := tf_shoot1 dt x0 0 (zip (zip a_vec b_vec) t_vec) in
      let? xT := last_of [seq z.1 | z <- l] in
      let? cT := last_of [seq z.2 | z <- l] in
      Some (cT, (xT - xf)%:M).
Fixpoint tf_shoot2 (dt : R) (x c prev_u : R) (bt : seq (R * R)) : option (seq (R * R * R)) :=
  match bt with
  | [::] => Some [::]
  | (b, ti) :: r =>
      let? xc := tf_rk4 (fun xc t (p : unit) => xc_rhs (fun t => prev_u + b * (t - ti)) xc t) dt ((x, c) : V) ti tt in
      let prev_u' := prev_u + b * dt in
      let? l := tf_shoot2 dt xc.1 xc.2 prev_u' r in Some ((xc.1, xc.2, prev_u') :: l)
  end.
Definition tf_fun_and_con_2 (T x0 xf : R) (theta : seq R) : option (R * 'cV[R]_1) :=
  if theta is u0 :: b_vec then
    if (size b_vec == 0)%N || (T == 0) then None
    else
      let dt := T / (size b_vec)%:R in
      let t_vec := arange0 T dt (size b_vec).+1 in
      if size t_vec != size b_vec then None
      else
        let? l := tf_shoot2 dt x0 0 u0 (zip b_vec t_vec) in
        let? xT := last_of [seq z.1.1 | z <- l] in
        let? cT := last_of [seq z.1.2 | z <- l] in
        Some (cT, (xT - xf)%:M)
  else None.

(** ** the conditional value function on a grid *)
(** What automatic differentiation makes of fun and con: only the fields pdf, pdc, pdl, phl of its answer are used. *)
Variable ad : forall m, ('cV[R]_m -> R) -> ('cV[R]_m -> 'cV[R]_1) -> nlp R m 1.
Variable norm : forall m, 'cV[R]_m -> R.
Definition with_ad m (fn : 'cV[R]_m -> R) (con : 'cV[R]_m -> 'cV[R]_1) : nlp R m 1 :=
  let D := ad fn con in Nlp fn con (pdf D) (pdc D) (pdl D) (phl D).
(** the numbers of a vector *)
Definition vec m (theta : 'cV[R]_m) : seq R := [seq theta i 0 | i <- enum 'I_m].
(** s[0::2] and s[1::2] *)
Fixpoint evens (s : seq R) : seq R := if s is x :: r then x :: (if r is _ :: r' then evens r' else [::]) else [::].
Definition odds (s : seq R) : seq R := if s is _ :: r then evens r else [::].

Section Eval.
(** fc x0 xf theta: both results of fun_and_con_1 or fun_and_con_2; [0] and [1] are their two components.  Whether they
    raise does not depend on the values of x0, xf, theta, and is looked at once, in [V_eval]. *)
Variables (m : nat) (fc : R -> R -> 'cV[R]_m -> option (R * 'cV[R]_1)).
Definition fc_fun (x0 xf : R) (theta : 'cV[R]_m) : R := if fc x0 xf theta is Some r then r.1 else 0.
Definition fc_con (x0 xf : R) (theta : 'cV[R]_m) : 'cV[R]_1 := if fc x0 xf theta is Some r then r.2 else 0.
Definition shoot_nlp (x0 xf : R) : nlp R m 1 := with_ad (fc_fun x0 xf) (fc_con x0 xf).
(** hjb_grid_1d_np.py 91-98, 168-174: V_eval_one *)
Definition V_eval_one (max_iter : nat) (x0 xf : R) : option R :=
  let? r := local_eq_fast (@norm m) (shoot_nlp x0 xf) 0 max_iter in Some (fc_fun x0 xf r.1.1).
(** hjb_grid_1d_np.py 87-89, 100-102, 164-166, 176-178: meshgrid, reshape, vmap, reshape *)
Definition x0_mesh (x0_grid xf_grid : seq R) : seq (seq R) := [seq nseq (size xf_grid) x0 | x0 <- x0_grid].
Definition xf_mesh (x0_grid xf_grid : seq R) : seq (seq R) := nseq (size x0_grid) xf_grid.
Definition V_eval (x0_grid xf_grid : seq R) (max_iter : nat) : option (seq (seq (option R))) :=
  let? _ := fc 0 0 0 in
  let x0_vec := flatten (x0_mesh x0_grid xf_grid) in
  let xf_vec := flatten (xf_mesh x0_grid xf_grid) in
  let Vs := [seq V_eval_one max_iter z.1 z.2 | z <- zip x0_vec xf_vec] in
  Some (reshape (shape (x0_mesh x0_grid xf_grid)) Vs).
(** hjb_grid_1d_tf.py 78-106, 178-199: sqp_tf.local_eq_fast on the batch; thetas[-1] raises without iterations.  The
    linear solve raises if the matrix of some member is singular. *)
Definition tf_V_eval_one (max_iter : nat) (x0 xf : R) : option R :=
  let? r := tf_local_eq_fast (@norm m) (shoot_nlp x0 xf) 0 max_iter in
  let? theta := last_of r.1.1 in Some (fc_fun x0 xf theta).
Definition tf_V_eval (x0_grid xf_grid : seq R) (max_iter : nat) : option (seq (seq R)) :=
  let? _ := fc 0 0 0 in
  let x0_vec := flatten (x0_mesh x0_grid xf_grid) in
  let xf_vec := flatten (xf_mesh x0_grid xf_grid) in
  let? Vs := omap_seq (fun z : R * R => tf_V_eval_one max_iter z.1 z.2) (zip x0_vec xf_vec) in
  Some (reshape (shape (x0_mesh x0_grid xf_grid)) Vs).
End Eval.

(** hjb_grid_1d_np.py 92-96, 169-172: theta has 2 * steps or steps + 1 entries *)
Definition fc_1 (T : R) (steps : nat) (x0 xf : R) (theta : 'cV[R]_(2 * steps)) :=
  fun_and_con_1 T x0 xf (evens (vec theta)) (odds (vec theta)).
Definition fc_2 (T : R) (steps : nat) (x0 xf : R) (theta : 'cV[R]_(steps.+1)) := fun_and_con_2 T x0 xf (vec theta).
Definition V_eval_1 (T : R) (steps : nat) := V_eval (@fc_1 T steps).
Definition V_eval_2 (T : R) (steps : nat) := V_eval (@fc_2 T steps).
Definition tf_fc_1 (T : R) (steps : nat) (x0 xf : R) (theta : 'cV[R]_(2 * steps)) :=
  tf_fun_and_con_1 T x0 xf (evens (vec theta)) (odds (vec theta)).
Definition tf_fc_2 (T : R) (steps : nat) (x0 xf : R) (theta : 'cV[R]_(steps.+1)) := tf_fun_and_con_2 T x0 xf (vec theta).
Definition tf_V_eval_1 (T : R) (steps : nat) := tf_V_eval (@tf_fc_1 T steps).
Definition tf_V_eval_2 (T : R) (steps : nat) := tf_V_eval (@tf_fc_2 T steps).

(** hjb_grid_1d_np.py 321-341: directShootingValueFunction; T / blocks raises without blocks *)
Definition directShooting (T : R) (blocks steps : nat) (xs : seq R) (method max_iter : nat) : option (seq (seq (option R))) :=
  if (blocks == 0)%N then None
  else
    let Tb := T / blocks%:R in
    if (method == 1)%N then V_eval_1 Tb steps xs xs max_iter
    else if (method == 2)%N then V_eval_2 Tb steps xs xs max_iter
    else V_eval_1 Tb steps xs xs max_iter.
End Shoot.

(** ** the models; numbers of steps of the grids are parameters.  cnonlin_models_tf.py has the same formulas. *)
Section Models.
Variable R : realFieldType.
Local Notation half := (1 / 2%:R : R).
Record model1d := Model1d { md_f : R -> R -> R; md_L : R -> R -> R; md_LT : R -> R; md_T : R; md_xs : seq R; md_us : seq R }.
(** jnp.linspace(a, b, k): for k = 1 the division is not done *)
Definition linspace (a b : R) (k : nat) : seq R := [seq a + i%:R * ((b - a) / k.-1%:R) | i <- iota 0 k].
(** cnonlin_models_np.py 13-39; cnonlin_models_tf.py 9-38 *)
Definition linear_model (nx nu : nat) : model1d :=
  let X := 1 in let U := 1 in let XT := 2%:R in
  Model1d (fun x u => x + u) (fun x u => half * X * x ^+ 2 + half * U * u ^+ 2) (fun x => half * XT * x ^+ 2) 1
    (linspace (- 2%:R) 2%:R nx) (linspace (- 2%:R) 2%:R nu).
(** cnonlin_models_np.py 42-70; cnonlin_models_tf.py 41-72 *)
Definition velocity_model (nx nu : nat) : model1d :=
  let beta := 10%:R^-1 in let X := 1 in let U := 1 in let XT := 4%:R in
  Model1d (fun x u => 1 - beta * x ^+ 2 + u) (fun x u => half * X * x ^+ 2 + half * U * u ^+ 2) (fun x => half * XT * x ^+ 2) 1
    (linspace (- 3%:R) 3%:R nx) (linspace (- 2%:R) 2%:R nu).
(** cnonlin_models_np.py 72-96; cnonlin_models_tf.py 75-99 *)
Definition upwind_model (nx nu : nat) : model1d :=
  Model1d (fun x u => u * x) (fun _ _ => 0) (fun x => - x) 1 (linspace (- 1) 1 nx) (linspace 0 1 nu).
End Models.
