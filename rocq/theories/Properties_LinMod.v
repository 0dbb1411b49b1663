(** C60, C61, C74: discretisation and the linear-quadratic example problems. *)
From mathcomp Require Import all_ssreflect all_algebra.
From Verif Require Import MxBase LqtModel LqtSpec LinModModel LinModSpec LinModProofs LinModTrack LinModMain LinModMass LinModEx.
Import Order.TTheory GRing.Theory Num.Theory.
Set Implicit Arguments. Unset Strict Implicit. Unset Printing Implicit Defensive.
Local Open Scope ring_scope.
Local Notation Qf := [realFieldType of rat].
Local Notation Qa := [archiFieldType of rat].

(** C60: LinearModel.getLQT *)
Theorem C60_linear :
  forall (R : realFieldType) (expm : forall n, 'M[R]_n -> 'M[R]_n) (xy : seq 'cV[R]_2) steps,
  expm_series expm -> (0 < steps)%N -> xy <> [::] ->
  let dt := steps%:R^-1 in let T := (steps * size xy)%N in
  exists P, lm_getLQT expm xy steps = Some (P, state (nth 0 xy 0) 0) /\ problem_ok P /\ size (stages P) = T /\
  all_stages (fun s => forall q v u, next s (state q v) u = state (q + dt *: v + (dt ^+ 2 / 2%:R) *: u) (v + dt *: u)) (stages P) /\
  forall x us, size us = T -> let xs := traj (stages P) x us in
  total_cost P x us =
    \sum_(i < size xy) 50%:R * norm2 (pos (nth 0 xs (i * steps)) - nth 0 xy i)
    + \sum_(k < T | (k %% steps != 0)%N) 10%:R ^- 6 / 2%:R * norm2 (pos (nth 0 xs k) - nth 0 xy (k %/ steps))
    + \sum_(k < T) norm2 (nth 0 us k) / 20%:R
    + norm2 (nth 0 xs T - state (last 0 xy) 0) / 2%:R.
Proof. exact lm_l. Qed.
Print Assumptions C60_linear.
Theorem C60_linear_raises :
  forall (R : realFieldType) (expm : forall n, 'M[R]_n -> 'M[R]_n) (xy : seq 'cV[R]_2) steps,
  lm_getLQT expm xy steps = None <-> steps = 0%N \/ xy = [::].
Proof. exact lm_None. Qed.
Print Assumptions C60_linear_raises.
(** C60: NonlinearModel.getLQT *)
Theorem C60_nonlinear :
  forall (R : realFieldType) (xy : seq 'cV[R]_3) steps, (0 < steps)%N -> xy <> [::] ->
  let T := (steps * size xy)%N in
  exists P, nm_getLQT xy steps = Some (P, at_rest3 (nth 0 xy 0)) /\ problem_ok P /\ size (stages P) = T /\
  all_stages (fun s => forall q v u, next s (state q v) u = state q (v + u)) (stages P) /\
  forall x us, size us = T -> let xs := traj (stages P) x us in
  total_cost P x us =
    \sum_(i < size xy) (let e := pose3 (nth 0 xs (i * steps)) - nth 0 xy i in
                        50%:R * coord e 0 ^+ 2 + 50%:R * coord e 1 ^+ 2 + 500%:R * coord e 2 ^+ 2)
    + \sum_(k < T | (k %% steps != 0)%N) 10%:R ^- 6 / 2%:R * norm2 (pose3 (nth 0 xs k) - nth 0 xy (k %/ steps))
    + \sum_(k < T) (coord (nth 0 us k) 0 ^+ 2 / 2%:R + 50%:R * coord (nth 0 us k) 1 ^+ 2)
    + 10%:R ^- 6 / 2%:R * norm2 (pose3 (nth 0 xs T) - last 0 xy).
Proof. exact nm_l. Qed.
Print Assumptions C60_nonlinear.
Theorem C60_nonlinear_raises :
  forall (R : realFieldType) (xy : seq 'cV[R]_3) steps, nm_getLQT xy steps = None <-> steps = 0%N \/ xy = [::].
Proof. exact nm_None. Qed.
Print Assumptions C60_nonlinear_raises.
Example C60_ex_expm : exists expm, expm_series (R := Qf) expm.
Proof. exact ex_expm. Qed.
Example C60_ex : exists P, lm_getLQT (@trunc_exp Qf) ex_pts 3 = Some (P, state (const_mx 1) 0) /\ size (stages P) = 6%N /\ problem_ok P.
Proof. exact ex_lm. Qed.
Example C60_ex_nonlinear : exists P, nm_getLQT ex_poses 3 = Some (P, at_rest3 (const_mx 1)) /\ size (stages P) = 6%N /\ problem_ok P.
Proof. exact ex_nm. Qed.

(** C61: the chain of masses between two walls, controlled at both ends *)
Theorem C61_chain :
  forall (R : realFieldType) N, (0 < N)%N -> exists M, mass_init R N = Some M /\
  (forall x u i, (i < N)%N -> let f := mmF M *m x + mmL M *m u in
     disp f i = velo x i /\
     velo f i = pull 1 (disp x) i + pull (2%:R / 10%:R) (velo x) i
                + (if i == 0%N then coord u 0 else 0) - (if i == N.-1 then coord u 1 else 0)) /\
  forall i, (i < N)%N -> disp (mmx0 M) i = (if (i == 0%N) || (i == N./2) then 1 else 0) /\ velo (mmx0 M) i = 0.
Proof. exact mass_chain. Qed.
Print Assumptions C61_chain.
Theorem C61_raises : forall (R : realFieldType) N, mass_init R N = None <-> N = 0%N.
Proof. exact mass_None. Qed.
Print Assumptions C61_raises.
Theorem C61_problem :
  forall (R : archiFieldType) (expm : forall n, 'M[R]_n -> 'M[R]_n) N dt Tf, (0 < N)%N -> 0 < dt -> 0 <= Tf ->
  exists M P T, mass_init R N = Some M /\ mass_getLQT expm N dt Tf = Some (P, mmx0 M) /\
  T%:R * dt <= Tf < T.+1%:R * dt /\ size (stages P) = T /\ problem_ok P /\
  (let AB := (lti_disc_u expm (mmF M) (mmL M) (mmL M) (Some 1%:M) dt).1 in
   all_stages (fun s => forall x u, next s x u = AB.1 *m x + AB.2 *m u) (stages P)) /\
  forall x us, size us = T -> let xs := traj (stages P) x us in
  total_cost P x us = \sum_(k < T) (norm2 (nth 0 xs k) / 2%:R + norm2 (nth 0 us k) / 20%:R) + norm2 (nth 0 xs T) / 2%:R.
Proof. exact mass_lqt. Qed.
Print Assumptions C61_problem.
Example C61_ex : exists M P, mass_init Qa 3 = Some M /\ mass_getLQT (@trunc_exp Qa) 3 (1 / 2%:R) 1 = Some (P, mmx0 M) /\
  size (stages P) = 2%N /\ [seq disp (mmx0 M) i | i <- [:: 0; 1; 2]%N] = [:: 1; 1; 0].
Proof. exact ex_mass. Qed.

(** C74: the discretisation is exact on systems with F F = 0 *)
Theorem C74_discretisation :
  forall (R : realFieldType) (expm : forall n, 'M[R]_n -> 'M[R]_n), expm_series expm ->
  forall n q m (F : 'M[R]_n) (L : 'M[R]_(n, q)) (G : 'M[R]_(n, m)) Q dt, F *m F = 0 ->
  let W := L *m (if Q is Some Q' then Q' else 1%:M) *m L^T in
  lti_disc_u expm F L G Q dt =
  (1%:M + dt *: F, dt *: G + (dt ^+ 2 / 2%:R) *: (F *m G),
   dt *: W + (dt ^+ 2 / 2%:R) *: (F *m W + W *m F^T) + (dt ^+ 3 / 3%:R) *: (F *m W *m F^T)).
Proof. exact disc_l. Qed.
Print Assumptions C74_discretisation.
Example C74_ex : lm_F Qf *m lm_F Qf = 0 /\ lm_F Qf <> 0.
Proof. exact ex_disc. Qed.
