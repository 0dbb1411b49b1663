(** Models of the linear-quadratic problems built by the example models: the discretisation (disc.py),
    LinearModel.getLQT (linear_model_np.py), NonlinearModel.getLQT (nonlinear_model_np.py) and MassModel
    (mass_model_np.py).  Floating-point numbers are elements of a field; scipy's linalg.expm is a parameter. *)
From mathcomp Require Import all_ssreflect all_algebra.
From Verif Require Import MxBase LqtModel FscModel.
Import Order.TTheory GRing.Theory Num.Theory.
Set Implicit Arguments. Unset Strict Implicit. Unset Printing Implicit Defensive.
Local Open Scope ring_scope.

Section Disc.
Variable R : realFieldType.
Variable expm : forall n, 'M[R]_n -> 'M[R]_n.
(** disc.py 11-43: lti_disc; Qc = None is the identity.  Simplification: a scalar Qc is given as a 1 x 1 matrix *)
Definition lti_disc n q (F : 'M[R]_n) (L : 'M[R]_(n, q)) (Qc : option 'M[R]_q) (dt : R) : 'M[R]_n * 'M[R]_n :=
  let Qc := if Qc is Some Q then Q else 1%:M in
  let Phi := block_mx F (L *m Qc *m L^T) 0 (- F^T) in
  let E := expm (dt *: Phi) in
  let A := ulsubmx E in
  (A, ursubmx E *m A^T).
(** disc.py 45-80: lti_disc_u; G is given (None is np.eye(n)) *)
Definition lti_disc_u n q m (F : 'M[R]_n) (L : 'M[R]_(n, q)) (G : 'M[R]_(n, m)) (Qc : option 'M[R]_q) (dt : R) :
    'M[R]_n * 'M[R]_(n, m) * 'M[R]_n :=
  let: (A, Q) := lti_disc F L Qc dt in
  let Psi := block_mx F G 0 0 in
  let E := expm (dt *: Psi) in
  (A, ursubmx E, Q).

(** np.array of numbers *)
Definition mx_of n m (rows : seq (seq R)) : 'M[R]_(n, m) := \matrix_(i, j) nth 0 (nth [::] rows i) j.
(** v[i] *)
Definition ent n (v : 'cV[R]_n) (i : nat) : R := if insub i is Some j then v j 0 else 0.
Definition cv_of n (v : seq R) : 'cV[R]_n := \col_i nth 0 v i.

(** linear_model_np.py 139-151 and nonlinear_model_np.py 183-195: the loop over k; xy is the list of the columns of the array *)
Fixpoint ref_loop p (Xl Xn : 'M[R]_p) (xy : seq 'cV[R]_p) (steps k n i : nat) (curr : 'cV[R]_p) :
    option (seq ('M[R]_p * 'cV[R]_p) * 'cV[R]_p) :=
  match n with
  | 0%N => Some ([::], curr)
  | n'.+1 =>
      if (k %% steps == 0)%N then
        let? c := List.nth_error xy i in
        let? '(l, last) := ref_loop Xl Xn xy steps k.+1 n' i.+1 c in Some ((Xl, c) :: l, last)
      else
        let? '(l, last) := ref_loop Xl Xn xy steps k.+1 n' i curr in Some ((Xn, curr) :: l, last)
  end.
(** LQT.checkAndExpand(F, L, X, U, XT, None, H, r, HT, rT, T=T): c, Z, s, M get their defaults *)
Definition tracking n m p pT (F : 'M[R]_n) (L : 'M[R]_(n, m)) (U : 'M[R]_m) (H : 'M[R]_(p, n)) (Xr : seq ('M[R]_p * 'cV[R]_p))
    (XT : 'M[R]_pT) (HT : 'M[R]_(pT, n)) (rT : 'cV[R]_pT) : lqt R n m :=
  Lqt [seq VStage (Stage F L z.1 U 0 H z.2 1%:M 0 0) | z <- Xr] XT HT rT.

(** linear_model_np.py 97-157: LinearModel.getLQT.  1.0 / steps and xy[:, 0] may raise. *)
Definition lm_F : 'M[R]_4 := mx_of 4 4 [:: [:: 0; 0; 1; 0]; [:: 0; 0; 0; 1]; [:: 0; 0; 0; 0]; [:: 0; 0; 0; 0]].
Definition lm_L : 'M[R]_(4, 2) := mx_of 4 2 [:: [:: 0; 0]; [:: 0; 0]; [:: 1; 0]; [:: 0; 1]].
Definition lm_H : 'M[R]_(2, 4) := mx_of 2 4 [:: [:: 1; 0; 0; 0]; [:: 0; 1; 0; 0]].
Definition tenth : R := 10%:R^-1.
Definition milli2 : R := tenth ^+ 6.
Definition lm_getLQT (xy : seq 'cV[R]_2) (steps : nat) : option (lqt R 4 2 * 'cV[R]_4) :=
  if steps == 0%N then None
  else
    let dt := 1 / steps%:R in
    let U := tenth *: 1%:M in
    let Xl := 100%:R *: 1%:M in
    let Xn := milli2 *: 1%:M in
    let: (F, L, Q) := lti_disc_u lm_F lm_L lm_L (Some 1%:M) dt in
    let T := (steps * size xy)%N in
    let? curr := List.nth_error xy 0 in
    let x0 := cv_of 4 [:: ent curr 0; ent curr 1; 0; 0] in
    let? '(Xr, last) := ref_loop Xl Xn xy steps 0 T 0 curr in
    let rT := cv_of 4 [:: ent last 0; ent last 1; 0; 0] in
    Some (tracking F L U lm_H Xr 1%:M 1%:M rT, x0).

(** nonlinear_model_np.py 158-201: NonlinearModel.getLQT.  An empty list of weights makes checkAndExpand raise. *)
Definition nm_L : 'M[R]_(4, 2) := mx_of 4 2 [:: [:: 0; 0]; [:: 0; 0]; [:: 1; 0]; [:: 0; 1]].
Definition nm_H : 'M[R]_(3, 4) := mx_of 3 4 [:: [:: 1; 0; 0; 0]; [:: 0; 1; 0; 0]; [:: 0; 0; 1; 0]].
Definition diag_of n (v : seq R) : 'M[R]_n := diag_mx (\row_i nth 0 v i).
Definition nm_getLQT (xyt : seq 'cV[R]_3) (steps : nat) : option (lqt R 4 2 * 'cV[R]_4) :=
  let U := diag_of 2 [:: 1; 100%:R] in
  let Xl := diag_of 3 [:: 100%:R; 100%:R; 1000%:R] in
  let Xn := milli2 *: 1%:M in
  let T := (steps * size xyt)%N in
  let? curr := List.nth_error xyt 0 in
  let x0 := cv_of 4 [:: ent curr 0; ent curr 1; ent curr 2; 0] in
  let? '(Xr, last) := ref_loop Xl Xn xyt steps 0 T 0 curr in
  let rT := cv_of 3 [:: ent last 0; ent last 1; ent last 2] in
  if T == 0%N then None else Some (tracking 1%:M nm_L U nm_H Xr Xn nm_H rT, x0).

(** ** mass_model_np.py 30-65: MassModel.__init__; an array is the list of its rows *)
Definition zeros2 (r c : nat) : seq (seq R) := nseq r (nseq c 0).
Definition mass_row (N : nat) (m c d : R) (i : nat) (Fc : seq (seq R)) : option (seq (seq R)) :=
  let? Fc := upd2 Fc (2 * i) (2 * i + 1) (1 / m) in
  let? Fc := upd2 Fc (2 * i + 1) (2 * i) (- 2%:R * c / m) in
  let? Fc := upd2 Fc (2 * i + 1) (2 * i + 1) (- 2%:R * d / m) in
  let? Fc := (if (0 < i)%N then
      let? Fc := upd2 Fc (2 * i + 1) (2 * (i - 1)) (c / m) in upd2 Fc (2 * i + 1) (2 * (i - 1) + 1) (d / m)
    else Some Fc) in
  if (i < N - 1)%N then
      let? Fc := upd2 Fc (2 * i + 1) (2 * (i + 1)) (c / m) in upd2 Fc (2 * i + 1) (2 * (i + 1) + 1) (d / m)
  else Some Fc.
Fixpoint foldo {A B} (f : A -> B -> option B) (l : seq A) (b : B) : option B :=
  if l is a :: l' then let? b := f a b in foldo f l' b else Some b.
Definition mass_Fc (N : nat) (m c d : R) : option (seq (seq R)) := foldo (mass_row N m c d) (iota 0 N) (zeros2 (2 * N) (2 * N)).
(** Lc[-1, 1] is the last row *)
Definition mass_Lc (N : nat) (m : R) : option (seq (seq R)) :=
  let? Lc := upd2 (zeros2 (2 * N) 2) 1 0 (1 / m) in upd2 Lc (2 * N - 1) 1 (- 1 / m).
Definition set1 (v : seq R) (i : nat) (a : R) : option (seq R) := if (i < size v)%N then Some (set_nth 0 v i a) else None.
Definition mass_x0 (N : nat) : option (seq R) :=
  let? x0 := set1 (nseq (2 * N) 0) 0 1 in
  if (N %% 2 == 0)%N then set1 x0 N 1 else set1 x0 (N - 1) 1.
Record mass_model (N : nat) := MassModel { mmF : 'M[R]_(2 * N); mmL : 'M[R]_(2 * N, 2); mmx0 : 'cV[R]_(2 * N) }.
(** m = 1.0, c = 1.0, d = 0.2 *)
Definition mass_init (N : nat) : option (mass_model N) :=
  let? Fc := mass_Fc N 1 1 (2%:R * tenth) in
  let? Lc := mass_Lc N 1 in
  let? x0 := mass_x0 N in
  Some (MassModel (mx_of (2 * N) (2 * N) Fc) (mx_of (2 * N) 2 Lc) (cv_of (2 * N) x0)).
(** mass_model_np.py 67-85: getLQT; [T] is int(Tf / dt) *)
Definition mass_problem (N : nat) (M : mass_model N) (dt : R) (T : nat) : lqt R (2 * N) 2 * 'cV[R]_(2 * N) :=
  let: (F, L, Q) := lti_disc_u (mmF M) (mmL M) (mmL M) (Some 1%:M) dt in
  (tracking F L (tenth *: 1%:M) 1%:M (nseq T (1%:M, 0)) 1%:M 1%:M 0, mmx0 M).
End Disc.

Section Int.
Variable R : archiFieldType.
Lemma some_bound (a : R) : exists n : nat, a < n.+1%:R.
Proof.
exists (Num.bound `|a|); apply: le_lt_trans (ler_norm a) _; apply: lt_le_trans (archi_boundP (normr_ge0 a)) _.
by rewrite ler_nat.
Qed.
(** int(a) for a >= 0; a negative number of steps behaves like none *)
Definition int_of (a : R) : nat := ex_minn (some_bound a).
(** mass_model_np.py 67-85: getLQT(dt, Tf); a zero dt raises *)
Definition mass_getLQT (expm : forall n, 'M[R]_n -> 'M[R]_n) (N : nat) (dt Tf : R) : option (lqt R (2 * N) 2 * 'cV[R]_(2 * N)) :=
  let? M := mass_init R N in
  if dt == 0 then None else Some (mass_problem expm M dt (int_of (Tf / dt))).
End Int.
