(** C92, C93: continuous-time optimality and exact discretisation over the real numbers, with the true matrix exponential
    ([expmR], the sum of the power series). *)
From Coq Require Import Reals.
From mathcomp Require Import all_ssreflect all_algebra.
From Verif Require Import RealF MxBase LqtModel LqtSpec LinModModel LinModSpec ClqrModel ClqrSpec ClqrEx RealExpSpec RealAssm ClqrOptSpec ClqrOpt RealDisc ClqrOptEx.
Import Order.TTheory GRing.Theory Num.Theory.
Set Implicit Arguments. Unset Strict Implicit. Unset Printing Implicit Defensive.
Local Open Scope ring_scope.

(** ** C92 *)
(** The backward pass with method 'exact' returns: at every grid time the matrix of the optimal cost-to-go over all controls
    (no control does better, one reaches it, and only one), and the gains of the optimal feedback. *)
Theorem C92_exact_optimal (n m : nat) (q : clqr Rf n m) : symm (qU q) -> pd (qU q) -> symm (qX q) -> psd (qX q) -> symm (qXT q) -> psd (qXT q) ->
  forall steps, (0 < steps)%N -> 0 <= qT q -> let t j := j%:R * (qT q / steps%:R) in
  exists Ks Ss, [/\ clqr_seqBackwardPass expmR q steps None None Exact = Some (Ks, Ss), size Ks = steps, size Ss = steps.+1 &
  forall i, (i <= steps)%N ->
  [/\ forall x u c ts, driven q x u c ts (t i) -> qf (nth 0 Ss i) (x (t i)) / 2%:R <= cost_to_go q x c (t i),
      forall x0, exists x u c, [/\ driven q x u c [::] (t i), x (t i) = x0, forall s, mcont u s,
        cost_to_go q x c (t i) = qf (nth 0 Ss i) x0 / 2%:R & forall j, (i <= j < steps)%N -> u (t j) = - nth 0 Ks j *m x (t j)]
    & forall x u c ts x' u' c' ts', driven q x u c ts (t i) -> driven q x' u' c' ts' (t i) -> x (t i) = x' (t i) ->
        cost_to_go q x c (t i) = qf (nth 0 Ss i) (x (t i)) / 2%:R -> cost_to_go q x' c' (t i) = qf (nth 0 Ss i) (x (t i)) / 2%:R ->
        forall s : Rf, t i < s < qT q -> s \notin ts -> s \notin ts' -> u s = u' s]].
Proof. exact: exact_optimal. Qed.
Print Assumptions C92_exact_optimal.
Example C92_exact_optimal_ex : let q := ex_reg (1 : Rf) 0 in
  [/\ symm (qU q) /\ pd (qU q), symm (qX q) /\ psd (qX q), symm (qXT q) /\ psd (qXT q) & 0 <= qT q].
Proof. exact: ex_opt_hyp. Qed.
Example C92_exact_optimal_ex2 : clqr_seqBackwardPass expmR (ex_reg (1 : Rf) 0) 2 None None Exact =
  Some ([:: (1 / 2%:R)%:M; (2%:R / 3%:R)%:M], [:: (1 / 2%:R)%:M; (2%:R / 3%:R)%:M; 1%:M]).
Proof. exact: ex_opt_pass. Qed.

(** ** C93 *)
(** what the theorems C60, C74, C81 and C82 assume of the matrix exponential holds of [expmR] *)
Theorem C93_exponential : natural_exp expmR /\ (forall n (M : 'M[Rf]_n), exponential_of expmR M) /\ expm_series expmR.
Proof. exact (conj expmR_natural (conj expmR_group expmR_nilpotent)). Qed.
Print Assumptions C93_exponential.

(** every solution of dx/dt = F x + G u with constant u satisfies the discrete equation *)
Theorem C93_input (n q m : nat) (F : 'M[Rf]_n) (L : 'M[Rf]_(n, q)) (G : 'M[Rf]_(n, m)) (Qc : option 'M[Rf]_q) (dt : Rf) : 0 <= dt ->
  forall (x : R -> 'cV[Rf]_n) (u : 'cV[Rf]_m) (t : Rf), solves (fun x => F *m x + G *m u) x t (t + dt) ->
  let: (A, B, _) := lti_disc_u expmR F L G Qc dt in x (t + dt) = A *m x t + B *m u.
Proof. exact: disc_u_exact. Qed.
Print Assumptions C93_input.
Theorem C93_input_exists (n m : nat) (F : 'M[Rf]_n) (G : 'M[Rf]_(n, m)) (dt : Rf) (x0 : 'cV[Rf]_n) (u : 'cV[Rf]_m) (t : Rf) :
  exists x, solves (fun x => F *m x + G *m u) x t (t + dt) /\ x t = x0.
Proof. exact: disc_exists_u. Qed.
Print Assumptions C93_input_exists.
Example C93_input_ex : solves (fun x => 1%:M *m x + 1%:M *m 0) (fun t => (exp t : Rf)%:M : 'cV[Rf]_1) 0 1.
Proof. exact: ex_disc_sol. Qed.
Example C93_input_ex2 : (lti_disc expmR 1%:M (0 : 'M[Rf]_1) None 1).1 = (exp 1 : Rf)%:M :> 'M[Rf]_1.
Proof. exact: ex_disc_val. Qed.

(** every solution of the covariance equation dP/dt = F P + P F' + L Qc L' satisfies the discrete equation *)
Theorem C93_noise (n q : nat) (F : 'M[Rf]_n) (L : 'M[Rf]_(n, q)) (Qc : option 'M[Rf]_q) (dt : Rf) : 0 <= dt ->
  forall (P : R -> 'M[Rf]_n) (t : Rf),
  solves (fun P => F *m P + P *m F^T + L *m (if Qc is Some Q then Q else 1%:M) *m L^T) P t (t + dt) ->
  let: (A, Q) := lti_disc expmR F L Qc dt in P (t + dt) = A *m P t *m A^T + Q.
Proof. exact: disc_noise_exact. Qed.
Print Assumptions C93_noise.
Theorem C93_noise_exists (n q : nat) (F : 'M[Rf]_n) (L : 'M[Rf]_(n, q)) (Qc : option 'M[Rf]_q) (dt : Rf) (P0 : 'M[Rf]_n) (t : Rf) :
  exists P, solves (fun P => F *m P + P *m F^T + L *m (if Qc is Some Q then Q else 1%:M) *m L^T) P t (t + dt) /\ P t = P0.
Proof. exact: disc_noise_exists. Qed.
Print Assumptions C93_noise_exists.

(** the regulation problem of the mass-spring-damper chain samples the chain exactly *)
Theorem C93_mass (N : nat) (dt Tf : Ra) : (0 < N)%N -> 0 < dt -> 0 <= Tf -> exists M P,
  [/\ mass_init Ra N = Some M, mass_getLQT (R := Ra) expmR N dt Tf = Some (P, mmx0 M) &
   all_stages (fun s => forall (x : R -> 'cV[Rf]_(2 * N)) u (t : Rf), solves (fun y => mmF M *m y + mmL M *m u) x t (t + dt) ->
     x (t + dt) = next s (x t) u) (stages P)].
Proof. exact: mass_sampled. Qed.
Print Assumptions C93_mass.
