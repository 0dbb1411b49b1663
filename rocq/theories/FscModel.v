(** Model of parallel_control/fsc_np.py (finite-state control).

    Numbers: any [ordcost] K (exact arithmetic, one dtype; the truncation done by
    np.zeros_like on integer L with float LT is not modelled).
    2-d arrays are lists of rows. Negative indices are not modelled: states and controls
    are naturals, an index outside the array raises (None).
    [infty] is the constant _FSC_NP_INFTY = 1e20 (line 18). *)
From Coq Require Import List Arith Bool.
From Verif Require Import ScanModel Ord.
Import ListNotations.

Notation "'do' x <- a ; b" := (match a with None => None | Some x => b end)
  (at level 200, x pattern, a at level 100, b at level 200, right associativity).

(** list comprehension whose body may raise *)
Fixpoint mapM {A B} (g : A -> option B) (l : list A) : option (list B) :=
  match l with
  | [] => Some []
  | a :: t => do b <- g a; do r <- mapM g t; Some (b :: r)
  end.

Definition get2 {X} (M : list (list X)) (i j : nat) : option X :=
  do r <- nth_error M i; nth_error r j.

Definition upd2 {X} (M : list (list X)) (i j : nat) (v : X) : option (list (list X)) :=
  do r <- nth_error M i; do r' <- upd r j v; upd M i r'.

(** .shape[1]; an array with no rows has lost its column count: 0 *)
Definition ncols {X} (M : list (list X)) : nat := match M with [] => 0 | r :: _ => length r end.

Section Fsc.
Variable K : ordcost.
Variable infty : K.

(** fsc_np.py 103-114. gamma = 1.0 is always multiplied in; it is dropped here. *)
Record fsc := FSC { ff : list (list (list nat)); fL : list (list (list K)); fLT : list K }.

(** ** fsc_np.py 26-41: combine_V.  Row plus column: broadcasting of equal lengths only. *)
Fixpoint vadd (a b : list K) : option (list K) :=
  match a, b with
  | [], [] => Some []
  | x :: a', y :: b' => do r <- vadd a' b'; Some (cadd x y :: r)
  | _, _ => None
  end.
Definition column {X} (M : list (list X)) (k : nat) : option (list X) := mapM (fun r => nth_error r k) M.

Definition combine_V (Vij Vjk : list (list K)) : option (list (list K)) :=
  mapM (fun row => mapM (fun k => do c <- column Vjk k; do s <- vadd row c; vmin s)
                        (seq 0 (ncols Vjk))) Vij.

(** fsc_np.py 43-58: combine_f, fik = fjk[fij] *)
Definition combine_f (fij fjk : list nat) : option (list nat) := mapM (fun i => nth_error fjk i) fij.

(** fsc_np.py 61-92 *)
Definition par_backward_pass_scan elems := my_assoc_scan combine_V elems true.
Definition par_forward_pass_scan elems := my_assoc_scan combine_f elems false.
Definition par_fwdbwd_pass_scan elems := my_assoc_scan combine_V elems false.

(** ** fsc_np.py 185-187 and 303-305: the table Vu[x,u] = L[x,u] + V[f[x,u]]; the loop runs over
    the columns of L. The code computes column by column, the model entry by entry. *)
Definition vu_table (L : list (list K)) (f : list (list nat)) (V : list K) : option (list (list K)) :=
  mapM (fun x => mapM (fun u => do l <- get2 L x u; do xp <- get2 f x u; do v <- nth_error V xp;
                                Some (cadd l v)) (seq 0 (ncols L)))
       (seq 0 (length L)).

(** fsc_np.py 169-197: seqBackwardPass (append and final reverse = cons) *)
Definition seq_bwd_body (P : fsc) (k : nat) (s : list K * list (list nat) * list (list K)) :=
  let '(V, us, Vs) := s in
  do L <- nth_error (fL P) k; do f <- nth_error (ff P) k;
  do Vu <- vu_table L f V;
  do u <- mapM argmin Vu;
  do V' <- mapM vmin Vu;
  Some (V', u :: us, V' :: Vs).
Definition seqBackwardPass (P : fsc) : option (list (list nat) * list (list K)) :=
  do s <- for_ (rev (seq 0 (length (ff P)))) (seq_bwd_body P) (fLT P, [], [fLT P]);
  let '(_, us, Vs) := s in Some (us, Vs).

(** fsc_np.py 200-224: seqForwardPass *)
Definition seqForwardPass (P : fsc) (x0 : nat) (u_list : list (list nat)) : option (list nat * list nat) :=
  do s <- for_ (seq 0 (length u_list))
      (fun k s => let '(x, us, xs) := s in
         do uk <- nth_error u_list k; do u <- nth_error uk x;
         do f <- nth_error (ff P) k; do x' <- get2 f x u;
         Some (x', us ++ [u], xs ++ [x'])) (x0, [], [x0]);
  let '(_, us, xs) := s in Some (us, xs).

(** fsc_np.py 227-248: seqSimulation *)
Definition seqSimulation (P : fsc) (x0 : nat) (u_list : list nat) : option (list nat) :=
  do s <- for_ (seq 0 (length u_list))
      (fun k s => let '(x, xs) := s in
         do u <- nth_error u_list k; do f <- nth_error (ff P) k; do x' <- get2 f x u;
         Some (x', xs ++ [x'])) (x0, [x0]);
  Some (snd s).

(** fsc_np.py 615-630: cost *)
Definition fsc_cost (P : fsc) (x_list u_list : list nat) : option K :=
  do xT <- nth_error x_list (length x_list - 1);
  do r <- nth_error (fLT P) xT;
  for_ (seq 0 (length u_list))
    (fun k res => do M <- nth_error (fL P) k; do x <- nth_error x_list k; do u <- nth_error u_list k;
                  do l <- get2 M x u; Some (cadd res l)) r.

(** ** fsc_np.py 266-275, 416-428, 497-502: the conditional value function of one stage *)
Definition full (n : nat) : list (list K) := repeat (repeat infty n) n.
Definition elem_body (L : list (list K)) (f : list (list nat)) (x u : nat) (V : list (list K)) :=
  do v <- get2 L x u; do xp <- get2 f x u; do cur <- get2 V x xp;
  if cltb v cur then upd2 V x xp v else Some V.
Definition stage_elem (xdim udim : nat) (L : list (list K)) (f : list (list nat)) : option (list (list K)) :=
  for_ (seq 0 xdim) (fun x => for_ (seq 0 udim) (elem_body L f x)) (full xdim).
Definition stage_elems (P : fsc) (xdim udim : nat) : option (list (list (list K))) :=
  mapM (fun k => do L <- nth_error (fL P) k; do f <- nth_error (ff P) k; stage_elem xdim udim L f)
       (seq 0 (length (ff P))).

(** fsc_np.py 254-283: parBackwardPass_init; f[0] of an empty list raises *)
Definition parBackwardPass_init (P : fsc) : option (list (list (list K))) :=
  do f0 <- nth_error (ff P) 0;
  let xdim := length f0 in
  do es <- stage_elems P xdim (ncols f0);
  do lst <- mapM (fun x => do v <- nth_error (fLT P) x; Some (repeat v xdim)) (seq 0 xdim);
  Some (es ++ [lst]).

(** fsc_np.py 285-309: parBackwardPass_extract *)
Definition parBackwardPass_extract (P : fsc) (elems : list (list (list K))) :
    option (list (list nat) * list (list K)) :=
  do e0 <- nth_error elems 0; do V0 <- column e0 0;
  do s <- for_ (seq 0 (length elems - 1))
     (fun k s => let '(us, Vs) := s in
        do e <- nth_error elems (k + 1); do V <- column e 0;
        do L <- nth_error (fL P) k; do f <- nth_error (ff P) k;
        do Vu <- vu_table L f V; do u <- mapM argmin Vu;
        Some (us ++ [u], Vs ++ [V])) ([], [V0]);
  Some s.

(** fsc_np.py 311-321 *)
Definition parBackwardPass (P : fsc) :=
  do e <- parBackwardPass_init P; do e' <- par_backward_pass_scan e; parBackwardPass_extract P e'.

(** fsc_np.py 327-354: parForwardPass_init *)
Definition parForwardPass_init (P : fsc) (x0 : nat) (u_list : list (list nat)) : option (list (list nat)) :=
  do f0 <- nth_error (ff P) 0;
  let xdim := length f0 in
  do c0 <- column f0 0;                                         (* self.f[0][:,0] *)
  do es <- mapM (fun k => do u <- nth_error u_list k; do f <- nth_error (ff P) k;
                          mapM (fun x => do ux <- nth_error u x; get2 f x ux) (seq 0 xdim))
                (seq 0 (length (ff P)));
  Some (repeat x0 (length c0) :: es).

(** fsc_np.py 356-377: parForwardPass_extract *)
Definition parForwardPass_extract (elems u_list : list (list nat)) : option (list nat * list nat) :=
  for_ (seq 0 (length elems))
    (fun k s => let '(us, xs) := s in
       do e <- nth_error elems k; do x <- nth_error e 0;
       if k <? length u_list then
         do uk <- nth_error u_list k; do u <- nth_error uk x; Some (us ++ [u], xs ++ [x])
       else Some (us, xs ++ [x])) ([], []).

(** fsc_np.py 379-394 *)
Definition parForwardPass (P : fsc) (x0 : nat) (u_list : list (list nat)) :=
  do e <- parForwardPass_init P x0 u_list; do e' <- par_forward_pass_scan e; parForwardPass_extract e' u_list.

(** fsc_np.py 401-432: parFwdBwdPass_init *)
Definition parFwdBwdPass_init (P : fsc) (x0 : nat) : option (list (list (list K))) :=
  do f0 <- nth_error (ff P) 0;
  let xdim := length f0 in
  do V <- for_ (seq 0 xdim) (fun x V => upd2 V x x0 czero) (full xdim);      (* V[:,x0] = 0 *)
  do es <- stage_elems P xdim (ncols f0);
  Some (V :: es).

(** fsc_np.py 434-457: parFwdBwdPass_extract *)
Definition parFwdBwdPass_extract (elems : list (list (list K))) (u_list : list (list nat)) (V_list : list (list K)) :
    option (list nat * list nat) :=
  for_ (seq 0 (length elems))
    (fun k s => let '(us, xs) := s in
       do e <- nth_error elems k; do Vf <- nth_error e 0; do V <- nth_error V_list k;
       do s <- vadd Vf V; do x <- argmin s;
       if k <? length u_list then
         do uk <- nth_error u_list k; do u <- nth_error uk x; Some (us ++ [u], xs ++ [x])
       else Some (us, xs ++ [x])) ([], []).

(** fsc_np.py 459-475 *)
Definition parFwdBwdPass (P : fsc) (x0 : nat) u_list V_list :=
  do e <- parFwdBwdPass_init P x0; do e' <- par_fwdbwd_pass_scan e; parFwdBwdPass_extract e' u_list V_list.

(** fsc_np.py 482-506: parFwdBwdPass2_init *)
Definition parFwdBwdPass2_init (P : fsc) : option (list (list (list K))) :=
  do f0 <- nth_error (ff P) 0; stage_elems P (length f0) (ncols f0).

(** fsc_np.py 508-535: parFwdBwdPass2_extract *)
Definition parFwdBwdPass2_extract (x0 : nat) (elems : list (list (list K))) (u_list : list (list nat))
    (V_list : list (list K)) : option (list nat * list nat) :=
  for_ (seq 0 (length elems + 1))
    (fun k s => let '(us, xs) := s in
       do x <- (match k with
                | 0 => Some x0
                | S k' => do e <- nth_error elems k'; do Vf <- nth_error e x0; do V <- nth_error V_list k;
                          do s <- vadd Vf V; argmin s
                end);
       if k <? length u_list then
         do uk <- nth_error u_list k; do u <- nth_error uk x; Some (us ++ [u], xs ++ [x])
       else Some (us, xs ++ [x])) ([], []).

(** fsc_np.py 537-553 *)
Definition parFwdBwdPass2 (P : fsc) (x0 : nat) u_list V_list :=
  do e <- parFwdBwdPass2_init P; do e' <- par_fwdbwd_pass_scan e; parFwdBwdPass2_extract x0 e' u_list V_list.

(** ** fsc_np.py 559-609: batch_solution.  [start] is the constant 1e10 of line 577.
    A while loop gets fuel; running out of fuel is a separate outcome. *)
Inductive outcome (R : Type) := Done (r : R) | Raised | OutOfFuel.
Arguments Done {R}. Arguments Raised {R}. Arguments OutOfFuel {R}.

(** lines 584-594: cost and states of the current control list *)
Definition batch_eval (P : fsc) (x0 : nat) (u_list : list nat) : option (K * list nat) :=
  do s <- for_ (seq 0 (length (ff P)))
     (fun k s => let '(c, x, xs) := s in
        do u <- nth_error u_list k; do L <- nth_error (fL P) k; do f <- nth_error (ff P) k;
        do l <- get2 L x u; do x' <- get2 f x u;
        Some (cadd c l, x', xs ++ [x'])) (czero, x0, [x0]);
  let '(c, x, xs) := s in
  do v <- nth_error (fLT P) x; Some (cadd c v, xs).

(** lines 600-607: the odometer. Returns the new list and whether it overflowed (done = True).
    The index loop "while u_list[i] == udim-1: u_list[i] = 0; i += 1" is read as recursion on the list. *)
Fixpoint odometer (udim : nat) (u_list : list nat) : list nat * bool :=
  match u_list with
  | [] => ([], true)
  | u :: t => if u =? udim - 1 then let (t', o) := odometer udim t in (0 :: t', o) else (S u :: t, false)
  end.

Fixpoint batch_loop (P : fsc) (x0 udim : nat) (fuel : nat) (u_list : list nat)
    (best : list nat * list nat * K) : outcome (list nat * list nat * K) :=
  match fuel with
  | 0 => OutOfFuel
  | S fuel' =>
      match batch_eval P x0 u_list with
      | None => Raised
      | Some (c, xs) =>
          let '(mu, mx, mc) := best in
          let best' := if cltb c mc then (u_list, xs, c) else best in
          let (u', stop) := odometer udim u_list in
          if stop : bool then Done best' else batch_loop P x0 udim fuel' u' best'
      end
  end.

Definition batch_solution (start : K) (fuel : nat) (P : fsc) (x0 : nat) : outcome (list nat * list nat * K) :=
  let u0 := repeat 0 (length (ff P)) in
  match nth_error (ff P) 0 with
  | None => Raised
  | Some f0 => batch_loop P x0 (ncols f0) fuel u0 (u0, [], start)
  end.

(** the control lists tried by the loop, in order *)
Fixpoint tried (udim fuel : nat) (u_list : list nat) : list (list nat) :=
  match fuel with
  | 0 => []
  | S fuel' => u_list :: (let (u', stop) := odometer udim u_list in if stop : bool then [] else tried udim fuel' u')
  end.

(** ** fsc_np.py 116-163: checkAndExpand.  An array carries its shape; an argument is one array or a list.
    [one] is the entry of np.ones. *)
Record arr (X : Type) := Arr { shape0 : nat; shape1 : nat; adata : list (list X) }.
Arguments shape0 {X}. Arguments shape1 {X}. Arguments adata {X}. Arguments Arr {X}.
Inductive arg (X : Type) := One (a : X) | Many (l : list X).
Arguments One {X}. Arguments Many {X}.

Definition checkAndExpand (one : K) (f : arg (arr nat)) (L : arg (arr K)) (LT : option (list K)) (T : option nat) :
    option fsc :=
  do T' <- (match f, L with
            | Many fs, _ => Some (length fs)
            | One _, Many Ls => Some (length Ls)
            | One _, One _ => T
            end);
  let fs := match f with Many fs => fs | One a => repeat a T' end in
  let Ls := match L with Many Ls => Ls | One a => repeat a T' end in
  if length fs =? length Ls then
    do f0 <- nth_error fs 0;
    let xdim := shape0 f0 in
    let udim := shape1 f0 in
    let lt := match LT with Some v => v | None => repeat one xdim end in
    do _ <- for_ (seq 0 T')
       (fun k _ => do fk <- nth_error fs k; do Lk <- nth_error Ls k;
          if (shape0 fk =? xdim) && (shape1 fk =? udim) then
            if (shape0 Lk =? xdim) && (shape1 Lk =? udim) then Some tt else None
          else None) tt;
    if xdim =? length lt then Some (FSC (map adata fs) (map adata Ls) lt) else None
  else None.
End Fsc.
Arguments FSC {K}. Arguments ff {K}. Arguments fL {K}. Arguments fLT {K}.
Arguments combine_V {K}. Arguments vadd {K}. Arguments vu_table {K}. Arguments seqBackwardPass {K}.
Arguments seqForwardPass {K}. Arguments seqSimulation {K}. Arguments fsc_cost {K}.
Arguments full {K}. Arguments elem_body {K}. Arguments stage_elem {K}. Arguments stage_elems {K}.
Arguments parBackwardPass_init {K}. Arguments parBackwardPass_extract {K}. Arguments parBackwardPass {K}.
Arguments parForwardPass_init {K}. Arguments parForwardPass {K}.
Arguments parFwdBwdPass_init {K}. Arguments parFwdBwdPass_extract {K}. Arguments parFwdBwdPass {K}.
Arguments parFwdBwdPass2_init {K}. Arguments parFwdBwdPass2_extract {K}. Arguments parFwdBwdPass2 {K}.
Arguments par_backward_pass_scan {K}. Arguments par_fwdbwd_pass_scan {K}. Arguments seq_bwd_body {K}.
Arguments batch_eval {K}. Arguments batch_loop {K}. Arguments batch_solution {K}.
Arguments Done {R}. Arguments Raised {R}. Arguments OutOfFuel {R}.
Arguments Arr {X}. Arguments shape0 {X}. Arguments shape1 {X}. Arguments adata {X}.
Arguments One {X}. Arguments Many {X}. Arguments checkAndExpand {K}.
