(** Property theorems about direct shooting in hjb_grid_1d_np.py and hjb_grid_1d_tf.py (C85-C89). *)
From mathcomp Require Import all_ssreflect all_algebra.
From Verif Require Import MxBase LqtModel NlqtSpec SqpModel SqpSpec Rk4Spec ShootModel ShootSpec ShootProofs ShootMain ShootAd ShootTable ShootBad ShootNan ShootEx ShootCor.
Import Order.TTheory GRing.Theory Num.Theory.
Set Implicit Arguments. Unset Strict Implicit. Unset Printing Implicit Defensive.
Local Open Scope ring_scope.
Local Notation Qf := [realFieldType of rat].

(** C85: cost and constraint are those of the Runge-Kutta simulation with the piecewise linear control, ... *)
Theorem C85_method1 (R : realFieldType) (g L : R -> R -> R) (T x0 xf : R) (a b : seq R) :
  T != 0 -> (0 < size a)%N -> size b = size a ->
  let h := T / (size a)%:R in let u := piecewise a b h in
  fun_and_con_1 g L T x0 xf a b = Some (simulated_cost g L u h x0 (size a), (simulate g u h x0 (size a) - xf)%:M).
Proof. exact: fc1E. Qed.
Print Assumptions C85_method1.
Theorem C85_method2 (R : realFieldType) (g L : R -> R -> R) (T x0 xf u0 : R) (b : seq R) :
  T != 0 -> (0 < size b)%N ->
  let h := T / (size b)%:R in let u := broken_line u0 b h in
  fun_and_con_2 g L T x0 xf (u0 :: b) = Some (simulated_cost g L u h x0 (size b), (simulate g u h x0 (size b) - xf)%:M).
Proof. exact: fc2E. Qed.
Print Assumptions C85_method2.
(** ... where one step of the simulation is the classical Runge-Kutta step, ... *)
Theorem C85_step (R : realFieldType) (g : R -> R -> R) (u : R -> R) (h x t : R) :
  classical_step (fun (x : R^o) t => Some (g x (u t) : R^o)) h x t (state_after g u h x t).
Proof. exact: state_classical. Qed.
Print Assumptions C85_step.
(** ... the second parametrisation is the first one restricted to continuous controls, ... *)
Theorem C85_continuous (R : realFieldType) (g L : R -> R -> R) (T x0 xf u0 : R) (b : seq R) : T != 0 -> (0 < size b)%N ->
  exists2 a, size a = size b & fun_and_con_2 g L T x0 xf (u0 :: b) = fun_and_con_1 g L T x0 xf a b /\
    (forall t, piecewise a b (T / (size b)%:R) 0%N t = u0 + nth 0 b 0 * t) /\
    continuous_control (piecewise a b (T / (size b)%:R)) (T / (size b)%:R) (size b).
Proof. exact: cor_m2. Qed.
Print Assumptions C85_continuous.
(** ... without time or steps, or with arrays of different lengths, an exception is raised, ... *)
Theorem C85_raises (R : realFieldType) (g L : R -> R -> R) (T x0 xf : R) :
  (forall a b, (T == 0) || (size a == 0)%N || (size b != size a) -> fun_and_con_1 g L T x0 xf a b = None) /\
  (forall theta, (T == 0) || (size theta <= 1)%N -> fun_and_con_2 g L T x0 xf theta = None).
Proof. exact: cor_raise. Qed.
Print Assumptions C85_raises.
(** ... and the TensorFlow versions return the same *)
Theorem C85_tensorflow (R : realFieldType) (g L : R -> R -> R) (T x0 xf : R) :
  (forall a b, tf_fun_and_con_1 g L T x0 xf a b = fun_and_con_1 g L T x0 xf a b) /\
  (forall theta, tf_fun_and_con_2 g L T x0 xf theta = fun_and_con_2 g L T x0 xf theta).
Proof. exact: cor_tf_fc. Qed.
Print Assumptions C85_tensorflow.
Example C85_example : fun_and_con_1 (fun _ u : Qf => u) (fun _ u => u ^+ 2) 1 1 0 [:: 1] [:: 2%:R] = Some ((1 + 4%:R * 3%:R) / 3%:R, 3%:R%:M).
Proof. exact (ex_fc Qf). Qed.

(** C86: entry (i, j) of the table belongs to start x_i and end x_j *)
Theorem C86_table (R : realFieldType) (ad : forall m, ('cV[R]_m -> R) -> ('cV[R]_m -> 'cV[R]_1) -> nlp R m 1) (norm : forall m, 'cV[R]_m -> R)
  (g L : R -> R -> R) (T : R) (blocks n : nat) (xs : seq R) : (0 < blocks)%N -> (0 < n)%N ->
  forall method k, T != 0 -> (method != 2)%N ->
  exists2 tab, directShooting g L ad norm T blocks n xs method k = Some tab &
  table_of xs (fun x y => solver_cost ad norm g L (@values_and_slopes R (2 * n)) (T / blocks%:R / n%:R) n x y k) tab.
Proof. exact: ds_table1. Qed.
Print Assumptions C86_table.
Theorem C86_table_method2 (R : realFieldType) (ad : forall m, ('cV[R]_m -> R) -> ('cV[R]_m -> 'cV[R]_1) -> nlp R m 1) (norm : forall m, 'cV[R]_m -> R)
  (g L : R -> R -> R) (T : R) (blocks n : nat) (xs : seq R) : (0 < blocks)%N -> (0 < n)%N ->
  forall k, T != 0 ->
  exists2 tab, directShooting g L ad norm T blocks n xs 2 k = Some tab &
  table_of xs (fun x y => solver_cost ad norm g L (@first_and_slopes R n.+1) (T / blocks%:R / n%:R) n x y k) tab.
Proof. exact: ds_table2. Qed.
Print Assumptions C86_table_method2.
Theorem C86_raises (R : realFieldType) (ad : forall m, ('cV[R]_m -> R) -> ('cV[R]_m -> 'cV[R]_1) -> nlp R m 1) (norm : forall m, 'cV[R]_m -> R)
  (g L : R -> R -> R) (T : R) (blocks n : nat) (xs : seq R) (method k : nat) :
  directShooting g L ad norm T blocks n xs method k = None <-> (T = 0 \/ blocks = 0%N) \/ n = 0%N.
Proof. exact: ds_raise. Qed.
Print Assumptions C86_raises.
(** the TensorFlow version returns exactly the tables without nan *)
Theorem C86_tensorflow (R : realFieldType) (ad : forall m, ('cV[R]_m -> R) -> ('cV[R]_m -> 'cV[R]_1) -> nlp R m 1) (norm : forall m, 'cV[R]_m -> R)
  (g L : R -> R -> R) (T : R) (n : nat) (xs ys : seq R) (k : nat) (tab : seq (seq R)) : extensional_ad ad -> (0 < k)%N ->
  (tf_V_eval_1 g L ad norm T n xs ys k = Some tab <-> V_eval_1 g L ad norm T n xs ys k = Some [seq [seq Some v | v <- r] | r <- tab]) /\
  (tf_V_eval_2 g L ad norm T n xs ys k = Some tab <-> V_eval_2 g L ad norm T n xs ys k = Some [seq [seq Some v | v <- r] | r <- tab]).
Proof. exact: cor_tf_tab. Qed.
Print Assumptions C86_tensorflow.
Example C86_example : extensional_ad (@fd_ad Qf) /\
  exists tab, tf_V_eval_1 (fun x u => x + u) (fun x u => x ^+ 2 + u ^+ 2) (@fd_ad Qf) (@taxi Qf) 1 1 [:: 1; 0] [:: 1; 0] 3 = Some tab.
Proof. exact (ex_tf Qf). Qed.

(** C87: for linear dynamics and convex quadratic cost the table is exact, for every number of iterations *)
Theorem C87_exact (R : realFieldType) (ad : forall m, ('cV[R]_m -> R) -> ('cV[R]_m -> 'cV[R]_1) -> nlp R m 1) (norm : forall m, 'cV[R]_m -> R)
  (g L : R -> R -> R) (p q r lxx lxu luu lx lu l0 : R) : affine_dynamics g p q r -> q != 0 ->
  quadratic_cost L lxx lxu luu lx lu l0 -> convex_in_control lxx lxu luu ->
  forall (T : R) (blocks n : nat) (xs : seq R) (k : nat), 0 < T -> (0 < blocks)%N -> (0 < n)%N -> (0 < k)%N ->
  let h := T / blocks%:R / n%:R in
  forall method, (method != 2)%N ->
  (forall x y, x \in xs -> y \in xs -> exact_derivatives (shoot_nlp ad (fc_1 g L (T / blocks%:R) (steps := n)) x y)) ->
  exists2 tab, directShooting g L ad norm T blocks n xs method k = Some tab &
  table_of xs (fun x y e => exists2 v, e = Some v &
    unique_least (fun ab : seq R * seq R => [/\ size ab.1 = n, size ab.2 = n & simulate g (piecewise ab.1 ab.2 h) h x n = y])
      (fun ab => simulated_cost g L (piecewise ab.1 ab.2 h) h x n) v) tab.
Proof. exact: lq_table1. Qed.
Print Assumptions C87_exact.
Theorem C87_exact_method2 (R : realFieldType) (ad : forall m, ('cV[R]_m -> R) -> ('cV[R]_m -> 'cV[R]_1) -> nlp R m 1) (norm : forall m, 'cV[R]_m -> R)
  (g L : R -> R -> R) (p q r lxx lxu luu lx lu l0 : R) : affine_dynamics g p q r -> q != 0 ->
  quadratic_cost L lxx lxu luu lx lu l0 -> convex_in_control lxx lxu luu ->
  forall (T : R) (blocks n : nat) (xs : seq R) (k : nat), 0 < T -> (0 < blocks)%N -> (0 < n)%N -> (0 < k)%N ->
  let h := T / blocks%:R / n%:R in
  (forall x y, x \in xs -> y \in xs -> exact_derivatives (shoot_nlp ad (fc_2 g L (T / blocks%:R) (steps := n)) x y)) ->
  exists2 tab, directShooting g L ad norm T blocks n xs 2 k = Some tab &
  table_of xs (fun x y e => exists2 v, e = Some v &
    unique_least (fun ub : R * seq R => size ub.2 = n /\ simulate g (broken_line ub.1 ub.2 h) h x n = y)
      (fun ub => simulated_cost g L (broken_line ub.1 ub.2 h) h x n) v) tab.
Proof. exact: lq_table2. Qed.
Print Assumptions C87_exact_method2.
(** continuous controls are never cheaper *)
Theorem C87_compare (R : realFieldType) (ad : forall m, ('cV[R]_m -> R) -> ('cV[R]_m -> 'cV[R]_1) -> nlp R m 1) (norm : forall m, 'cV[R]_m -> R)
  (g L : R -> R -> R) (p q r lxx lxu luu lx lu l0 : R) : affine_dynamics g p q r -> q != 0 ->
  quadratic_cost L lxx lxu luu lx lu l0 -> convex_in_control lxx lxu luu ->
  forall (T : R) (blocks n : nat) (xs : seq R) (k : nat), 0 < T -> (0 < blocks)%N -> (0 < n)%N -> (0 < k)%N ->
  forall method tab tab2 i j v v2, (method != 2)%N ->
  (forall x y, x \in xs -> y \in xs -> exact_derivatives (shoot_nlp ad (fc_1 g L (T / blocks%:R) (steps := n)) x y)) ->
  (forall x y, x \in xs -> y \in xs -> exact_derivatives (shoot_nlp ad (fc_2 g L (T / blocks%:R) (steps := n)) x y)) ->
  directShooting g L ad norm T blocks n xs method k = Some tab -> directShooting g L ad norm T blocks n xs 2 k = Some tab2 ->
  (i < size xs)%N -> (j < size xs)%N -> entry tab i j = Some v -> entry tab2 i j = Some v2 -> v <= v2.
Proof. exact: lq_compare. Qed.
Print Assumptions C87_compare.
(** the shipped linear model, with derivatives by differences, which are exact for quadratic functions *)
Example C87_linear_model (nx nu blocks n k : nat) : (0 < blocks)%N -> (0 < n)%N -> (0 < k)%N ->
  let M := linear_model Qf nx nu in let h := md_T M / blocks%:R / n%:R in
  [/\ affine_dynamics (md_f M) 1 1 0, quadratic_cost (md_L M) 1 0 1 0 0 0, convex_in_control (1 : Qf) 0 1 &
  exists tab tab2, [/\ directShooting (md_f M) (md_L M) (@fd_ad Qf) (@taxi Qf) (md_T M) blocks n (md_xs M) 1 k = Some tab,
    directShooting (md_f M) (md_L M) (@fd_ad Qf) (@taxi Qf) (md_T M) blocks n (md_xs M) 2 k = Some tab2 &
    forall i j, (i < nx)%N -> (j < nx)%N -> exists v v2, [/\ entry tab i j = Some v, entry tab2 i j = Some v2, v <= v2 &
      unique_least (fun ab : seq Qf * seq Qf => [/\ size ab.1 = n, size ab.2 = n &
          simulate (md_f M) (piecewise ab.1 ab.2 h) h (nth 0 (md_xs M) i) n = nth 0 (md_xs M) j])
        (fun ab => simulated_cost (md_f M) (md_L M) (piecewise ab.1 ab.2 h) h (nth 0 (md_xs M) i) n) v]]].
Proof. exact: ex_lin. Qed.

(** C88 is false of the code: a number in the table need not belong to any control.  No control leads from x0 to x0 - 3,
    and the entry for these two is a number, for both parametrisations and every number of iterations. *)
Theorem C88_reachable_refuted (R : realFieldType) (ad : forall m, ('cV[R]_m -> R) -> ('cV[R]_m -> 'cV[R]_1) -> nlp R m 1)
  (norm : forall m, 'cV[R]_m -> R) (x0 : R) : exists g L,
  (forall u h n, 0 <= h -> simulate g u h x0 n <> x0 - 3%:R) /\
  (exact_derivatives (shoot_nlp ad (fc_1 g L 1 (steps := 1)) x0 (x0 - 3%:R)) ->
   exact_derivatives (shoot_nlp ad (fc_2 g L 1 (steps := 1)) x0 (x0 - 3%:R)) -> forall method k,
   exists tab v, directShooting g L ad norm 1 1 1 [:: x0; x0 - 3%:R] method k = Some tab /\ entry tab 0 1 = Some v).
Proof. exact: cor_bad. Qed.
Print Assumptions C88_reachable_refuted.
Example C88_example (x0 : Qf) : exists g L,
  (forall u h n, 0 <= h -> simulate g u h x0 n <> x0 - 3%:R) /\ (forall method k,
   exists tab v, directShooting g L (@fd_ad Qf) (@taxi Qf) 1 1 1 [:: x0; x0 - 3%:R] method k = Some tab /\ entry tab 0 1 = Some v) /\
  exact_derivatives (shoot_nlp (@fd_ad Qf) (fc_1 g L 1 (steps := 1)) x0 (x0 - 3%:R)) /\
  exact_derivatives (shoot_nlp (@fd_ad Qf) (fc_2 g L 1 (steps := 1)) x0 (x0 - 3%:R)).
Proof. exact: cor_bad_fd. Qed.

(** C89 is false of the code: for the shipped upwind model every entry is nan, although the control 0 leads from every
    state to the same state at no cost *)
Theorem C89_upwind_nan_refuted (R : realFieldType) (ad : forall m, ('cV[R]_m -> R) -> ('cV[R]_m -> 'cV[R]_1) -> nlp R m 1)
  (norm : forall m, 'cV[R]_m -> R) (nx nu : nat) (T : R) (blocks n : nat) (xs : seq R) (method k : nat) :
  T != 0 -> (0 < blocks)%N -> (0 < n)%N -> (0 < k)%N ->
  (forall m (f : 'cV[R]_m -> R) c, (forall z, f z = 0) -> let Q := with_ad ad f c in
     (forall x, is_gradient (fun x => pf Q x - dot 0 (pc Q x)) x (pdl Q x 0)) /\ (forall x, is_jacobian (pdl Q ^~ 0) x (phl Q x 0))) ->
  let M := upwind_model R nx nu in
  (forall h x i, simulate (md_f M) (fun _ _ => 0) h x i = x) /\
  (forall h x i, simulated_cost (md_f M) (md_L M) (fun _ _ => 0) h x i = 0) /\
  exists2 tab, directShooting (md_f M) (md_L M) ad norm T blocks n xs method k = Some tab & table_of xs (fun _ _ e => e = None) tab.
Proof. exact: cor_free. Qed.
Print Assumptions C89_upwind_nan_refuted.
Example C89_example (m : nat) (f : 'cV[Qf]_m -> Qf) c : (forall z, f z = 0) -> let Q := with_ad (@fd_ad Qf) f c in
   (forall x, is_gradient (fun x => pf Q x - dot 0 (pc Q x)) x (pdl Q x 0)) /\ (forall x, is_jacobian (pdl Q ^~ 0) x (phl Q x 0)).
Proof. exact: fd_free. Qed.
