(** Specification of finite-state control, independent of the algorithms. *)
From Coq Require Import List Arith.
From Verif Require Import Ord FscModel.
Import ListNotations.

Section Spec.
Variable K : ordcost.

(** M is an n x m table all of whose entries satisfy Q *)
Definition table {X} (n m : nat) (Q : X -> Prop) (M : list (list X)) : Prop :=
  length M = n /\ Forall (fun r => length r = m /\ Forall Q r) M.

(** A well-formed problem with n >= 1 states and m >= 1 controls. *)
Record valid (n m : nat) (P : fsc K) : Prop := Valid {
  v_n : 1 <= n; v_m : 1 <= m;
  v_f : Forall (table n m (fun x => x < n)) (ff P);
  v_L : Forall (table n m (fun _ => True)) (fL P);
  v_len : length (fL P) = length (ff P);
  v_LT : length (fLT P) = n
}.

(** Control list of horizon T with controls 0..m-1. *)
Definition controls (m T : nat) (us : list nat) : Prop := length us = T /\ Forall (fun u => u < m) us.

(** cost of running controls us from state x, by direct simulation *)
Fixpoint run_cost (fs : list (list (list nat))) (Ls : list (list (list K))) (LT : list K)
    (x : nat) (us : list nat) : option K :=
  match fs, Ls, us with
  | [], [], [] => nth_error LT x
  | f :: fs', L :: Ls', u :: us' =>
      do l <- get2 L x u; do x' <- get2 f x u; do c <- run_cost fs' Ls' LT x' us'; Some (cadd l c)
  | _, _, _ => None
  end.

(** states visited by controls us from x (including x) *)
Fixpoint run_states (fs : list (list (list nat))) (x : nat) (us : list nat) : option (list nat) :=
  match fs, us with
  | [], [] => Some [x]
  | f :: fs', u :: us' => do x' <- get2 f x u; do r <- run_states fs' x' us'; Some (x :: r)
  | _, _ => None
  end.

(** v is the least cost-to-go from state x at time k, and it is attained *)
Definition least_cost (m : nat) (P : fsc K) (k x : nat) (v : K) : Prop :=
  let fs := skipn k (ff P) in let Ls := skipn k (fL P) in
  (forall us, controls m (length fs) us -> exists c, run_cost fs Ls (fLT P) x us = Some c /\ cleb v c = true) /\
  (exists us, controls m (length fs) us /\ run_cost fs Ls (fLT P) x us = Some v).

(** us is an optimal control list from x0 *)
Definition optimal (m : nat) (P : fsc K) (x0 : nat) (us : list nat) : Prop :=
  controls m (length (ff P)) us /\
  exists c, run_cost (ff P) (fL P) (fLT P) x0 us = Some c /\ least_cost m P 0 x0 c.
End Spec.
Arguments valid {K}. Arguments run_cost {K}. Arguments least_cost {K}. Arguments optimal {K}.

Section Spec2.
Variable K : ordcost.

(** The internal infinity dominates: optimal costs-to-go at neighbouring times differ by at most it. *)
Definition sentinel_dominates (n m : nat) (infty : K) (P : fsc K) : Prop :=
  forall k x x' v v', k < length (ff P) -> x < n -> x' < n ->
    least_cost m P k x v -> least_cost m P (S k) x' v' -> cleb v (cadd infty v') = true.
Definition sentinel_strictly_dominates (n m : nat) (infty : K) (P : fsc K) : Prop :=
  forall k x x' v v', k < length (ff P) -> x < n -> x' < n ->
    least_cost m P k x v -> least_cost m P (S k) x' v' -> cltb v (cadd infty v') = true.

Definition init_dominates (n m : nat) (infty : K) (P : fsc K) (x0 : nat) : Prop :=
  forall x v v', x < n -> least_cost m P 0 x0 v -> least_cost m P 0 x v' -> cltb v (cadd infty v') = true.

(** sum of k copies *)
Fixpoint nmul (k : nat) (a : K) : K := match k with 0 => czero | S k' => cadd a (nmul k' a) end.

(** every stage and terminal cost lies between lo and hi *)
Definition costs_between (lo hi : K) (P : fsc K) : Prop :=
  Forall (Forall (Forall (fun c => cleb lo c = true /\ cleb c hi = true))) (fL P) /\
  Forall (fun c => cleb lo c = true /\ cleb c hi = true) (fLT P).

(** a feedback law: for every time a vector of valid controls *)
Definition feedback_law (n m T : nat) (ul : list (list nat)) : Prop :=
  length ul = T /\ Forall (fun v => length v = n /\ Forall (fun u => u < m) v) ul.

(** state x at time k lies on an optimal trajectory from x0 *)
Definition on_optimal_trajectory (m : nat) (P : fsc K) (x0 k x : nat) : Prop :=
  exists us xs, optimal m P x0 us /\ run_states (ff P) x0 us = Some xs /\ nth_error xs k = Some x.

Definition unique_optimal_states (m : nat) (P : fsc K) (x0 : nat) : Prop :=
  forall us us', optimal m P x0 us -> optimal m P x0 us' -> run_states (ff P) x0 us = run_states (ff P) x0 us'.

(** an array whose data match its shape *)
Definition arr_ok {X} (a : arr X) : Prop := length (adata a) = shape0 a /\ Forall (fun r => length r = shape1 a) (adata a).

(** an argument (one array, or a list of arrays) stands for the list of T arrays l *)
Definition stands_for {X} (a : arg X) (T : nat) (l : list X) : Prop :=
  match a with One x => l = repeat x T | Many xs => l = xs /\ length xs = T end.

(** what the constructor is documented to accept, and the object it builds *)
Definition constructs (one : K) (f : arg (arr nat)) (L : arg (arr K)) (LT : option (list K)) (T : option nat) (P : fsc K) : Prop :=
  exists T' fs Ls lt xdim udim,
    1 <= T' /\ stands_for f T' fs /\ stands_for L T' Ls /\
    (match f, L with One _, One _ => T = Some T' | _, _ => True end) /\
    Forall (fun a => shape0 a = xdim /\ shape1 a = udim) fs /\
    Forall (fun a => shape0 a = xdim /\ shape1 a = udim) Ls /\
    length lt = xdim /\ lt = match LT with Some v => v | None => repeat one xdim end /\
    P = FSC (map adata fs) (map adata Ls) lt.
End Spec2.
Arguments sentinel_dominates {K}. Arguments sentinel_strictly_dominates {K}. Arguments nmul {K}.
Arguments costs_between {K}. Arguments on_optimal_trajectory {K}. Arguments unique_optimal_states {K}.
Arguments constructs {K}. Arguments init_dominates {K}.
