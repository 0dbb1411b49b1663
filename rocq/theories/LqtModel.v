(** Model of parallel_control/lqt_np.py over an arbitrary real field (exact arithmetic).

    State dimension [n], control dimension [m].  The seven (twelve) parallel lists of an LQT object,
    which the constructor makes equally long, are one list of records here; the output dimension p may
    differ from step to step, as in the code.  None is a raised exception. *)
From mathcomp Require Import all_ssreflect all_algebra.
From Verif Require Import ScanModel MxBase.
Import Order.TTheory GRing.Theory Num.Theory.
Set Implicit Arguments. Unset Strict Implicit. Unset Printing Implicit Defensive.
Local Open Scope ring_scope.

Notation "'let?' x := a 'in' b" := (obind (fun x => b) a)
  (at level 200, x name, a at level 100, b at level 200, right associativity).
Notation "'let?' ' p := a 'in' b" := (obind (fun z => let p := z in b) a)
  (at level 200, p strict pattern, a at level 100, b at level 200, right associativity).

Section Lqt.
Variable R : realFieldType.
Variables n m : nat.

(** ** lqt_np.py 20-38: combine_abcej *)
Record elem := Elem { eA : 'M[R]_n; eb : 'cV[R]_n; eC : 'M[R]_n; eeta : 'cV[R]_n; eJ : 'M[R]_n }.

Definition combine_abcej (e f : elem) : option elem :=
  let LU := 1%:M + eC e *m eJ f in
  let? x1 := solve LU (eA e) in
  let? x2 := solve LU (eb e + eC e *m eeta f) in
  let? x3 := solve LU (eC e *m (eA f)^T) in
  let LU' := 1%:M + eJ f *m eC e in
  let? y1 := solve LU' (eeta f - eJ f *m eb e) in
  let? y2 := solve LU' (eJ f *m eA e) in
  Some (Elem (eA f *m x1) (eA f *m x2 + eb f) (eA f *m x3 + eC f)
             ((eA e)^T *m y1 + eeta e) ((eA e)^T *m y2 + eJ e)).

(** lqt_np.py 41-53: combine_fc *)
Definition combine_fc (x y : 'M[R]_n * 'cV[R]_n) : 'M[R]_n * 'cV[R]_n :=
  (y.1 *m x.1, y.1 *m x.2 + y.2).

(** lqt_np.py 56-89 *)
Definition par_backward_pass_scan (es : seq elem) := my_assoc_scan combine_abcej es true.
Definition par_forward_pass_scan es := my_assoc_scan (fun x y => Some (combine_fc x y)) es false.
Definition par_fwdbwd_pass_scan (es : seq elem) := my_assoc_scan combine_abcej es false.

(** ** lqt_np.py 397-444: the parameters of class LQT *)
Record stage (p : nat) := Stage {
  sF : 'M[R]_n; sL : 'M[R]_(n, m); sX : 'M[R]_p; sU : 'M[R]_m; scc : 'cV[R]_n;
  sH : 'M[R]_(p, n); sr : 'cV[R]_p; sZ : 'M[R]_m; ss : 'cV[R]_m; sM : 'M[R]_(p, m) }.
Record vstage := VStage { vp : nat; vst :> stage vp }.
Record lqt := Lqt { stages : seq vstage; pT : nat; XT : 'M[R]_pT; HT : 'M[R]_(pT, n); rT : 'cV[R]_pT }.

(** lqt_np.py 628-638 (and 761-773): gain and offset from the value function of the next step *)
Definition gain p (s : stage p) (Sv : 'M[R]_n) (v : 'cV[R]_n) : option ('M[R]_(m, n) * 'cV[R]_m) :=
  let W := (sZ s)^T *m sU s *m sZ s + (sL s)^T *m Sv *m sL s in
  let? K := solve_pos W ((sZ s)^T *m (sM s)^T *m sH s + (sL s)^T *m Sv *m sF s) in
  let? d := solve_pos W ((sZ s)^T *m sU s *m ss s + (sZ s)^T *m (sM s)^T *m sr s
                     - (sL s)^T *m Sv *m scc s + (sL s)^T *m v) in
  Some (K, d).

(** lqt_np.py 627-649: body of the loop of seqBackwardPass *)
Definition seq_bwd_body (s : vstage)
    (acc : option ('M[R]_n * 'cV[R]_n * (seq 'M[R]_(m, n) * seq 'cV[R]_m * seq 'M[R]_n * seq 'cV[R]_n))) :=
  let? '(Sv, v, (Ks, ds, Ss, vs)) := acc in
  let? '(K, d) := gain s Sv v in
  let v' := (sH s)^T *m sX s *m sr s - K^T *m (sZ s)^T *m sU s *m ss s + (sH s)^T *m sM s *m ss s
            - K^T *m (sZ s)^T *m (sM s)^T *m sr s + (sF s - sL s *m K)^T *m (v - Sv *m scc s) in
  let Sv' := (sH s)^T *m sX s *m sH s - (sH s)^T *m sM s *m sZ s *m K
            + (sF s)^T *m Sv *m (sF s - sL s *m K) in
  Some (Sv', v', (K :: Ks, d :: ds, Sv' :: Ss, v' :: vs)).

(** lqt_np.py 609-658: seqBackwardPass (append and final reverse = cons) *)
Definition seqBackwardPass (P : lqt) :=
  let Sv := (HT P)^T *m XT P *m HT P in
  let v := (HT P)^T *m XT P *m rT P in
  let? '(_, _, r) := foldr seq_bwd_body (Some (Sv, v, ([::], [::], [:: Sv], [:: v]))) (stages P) in
  Some r.

(** lqt_np.py 660-682: seqForwardPass; the loop runs over Kx_list *)
Fixpoint seq_fwd (sts : seq vstage) (Ks : seq 'M[R]_(m, n)) (ds : seq 'cV[R]_m) (x : 'cV[R]_n) :
    option (seq 'cV[R]_m * seq 'cV[R]_n) :=
  match Ks with
  | [::] => Some ([::], [::])
  | K :: Ks' =>
      match sts, ds with
      | s :: sts', d :: ds' =>
          let u := - K *m x + d in
          let x' := sF s *m x + scc s + sL s *m u in
          let? '(us, xs) := seq_fwd sts' Ks' ds' x' in
          Some (u :: us, x' :: xs)
      | _, _ => None
      end
  end.
Definition seqForwardPass (P : lqt) (x0 : 'cV[R]_n) Ks ds :=
  let? '(us, xs) := seq_fwd (stages P) Ks ds x0 in Some (us, x0 :: xs).

(** lqt_np.py 684-702: seqSimulation *)
Fixpoint seq_sim (sts : seq vstage) (us : seq 'cV[R]_m) (x : 'cV[R]_n) : option (seq 'cV[R]_n) :=
  match us with
  | [::] => Some [::]
  | u :: us' =>
      match sts with
      | s :: sts' => let x' := sF s *m x + scc s + sL s *m u in let? xs := seq_sim sts' us' x' in Some (x' :: xs)
      | [::] => None
      end
  end.
Definition seqSimulation (P : lqt) x0 us := let? xs := seq_sim (stages P) us x0 in Some (x0 :: xs).

(** lqt_np.py 1209-1226: cost.  The three terms of step k are summed from the left, onto res. *)
Fixpoint cost_loop (sts : seq vstage) (us : seq 'cV[R]_m) (xs : seq 'cV[R]_n) (res : R) : option R :=
  match us with
  | [::] => Some res
  | u :: us' =>
      match sts, xs with
      | s :: sts', x :: xs' =>
          let e := sH s *m x - sr s in
          let w := sZ s *m u - ss s in
          cost_loop sts' us' xs'
            (res + sc (2%:R^-1 *: e^T *m sX s *m e) + sc (2%:R^-1 *: w^T *m sU s *m w) + sc (e^T *m sM s *m w))
      | _, _ => None
      end
  end.
Definition lqt_cost (P : lqt) (us : seq 'cV[R]_m) (xs : seq 'cV[R]_n) : option R :=
  match xs with
  | [::] => None
  | x :: t =>
      let e := HT P *m last x t - rT P in
      cost_loop (stages P) us xs (sc (2%:R^-1 *: e^T *m XT P *m e))
  end.

(** ** lqt_np.py 719-732 (again 906-921, 995-1010): the element of one stage *)
Definition stage_elem p (s : stage p) : option elem :=
  let LU := sU s *m sZ s in
  let? a := solve LU ((sM s)^T *m sH s) in
  let? b1 := solve LU ((sM s)^T *m sr s) in
  let? b2 := solve (sZ s) (ss s) in
  let? c := solve_pos ((sZ s)^T *m sU s *m sZ s) (sL s)^T in
  let? y := solve (sU s) (sM s)^T in
  let Y := sX s - sM s *m y in
  Some (Elem (sF s - sL s *m a) (scc s + sL s *m b1 + sL s *m b2) (sL s *m c)
             ((sH s)^T *m Y *m sr s) ((sH s)^T *m Y *m sH s)).

Fixpoint omap_seq {X Y} (f : X -> option Y) (l : seq X) : option (seq Y) :=
  match l with [::] => Some [::] | x :: l' => let? y := f x in let? ys := omap_seq f l' in Some (y :: ys) end.

(** lqt_np.py 708-740: parBackwardPass_init; self.F[0] raises when there is no stage *)
Definition parBackwardPass_init (P : lqt) : option (seq elem) :=
  let? es := omap_seq (fun s : vstage => stage_elem s) (stages P) in
  if stages P is [::] then None
  else Some (rcons es (Elem 0 0 0 ((HT P)^T *m XT P *m rT P) ((HT P)^T *m XT P *m HT P))).

(** lqt_np.py 742-780: parBackwardPass_extract; the loop runs over elems[1:] *)
Fixpoint par_bwd_extract (sts : seq vstage) (es : seq elem) :
    option (seq 'M[R]_(m, n) * seq 'cV[R]_m * seq 'M[R]_n * seq 'cV[R]_n) :=
  match es with
  | [::] => Some ([::], [::], [::], [::])
  | e :: es' =>
      match sts with
      | [::] => None
      | s :: sts' =>
          let? '(K, d) := gain s (eJ e) (eeta e) in
          let? '(Ks, ds, Ss, vs) := par_bwd_extract sts' es' in
          Some (K :: Ks, d :: ds, eJ e :: Ss, eeta e :: vs)
      end
  end.
Definition parBackwardPass_extract (P : lqt) (es : seq elem) :=
  match es with
  | [::] => None
  | e :: es' => let? '(Ks, ds, Ss, vs) := par_bwd_extract (stages P) es' in Some (Ks, ds, eJ e :: Ss, eeta e :: vs)
  end.

(** lqt_np.py 782-799 *)
Definition parBackwardPass (P : lqt) :=
  let? es := parBackwardPass_init P in let? es' := par_backward_pass_scan es in parBackwardPass_extract P es'.

(** ** lqt_np.py 806-830: parForwardPass_init *)
Fixpoint par_fwd_elems (sts : seq vstage) (Ks : seq 'M[R]_(m, n)) (ds : seq 'cV[R]_m) :
    option (seq ('M[R]_n * 'cV[R]_n)) :=
  match Ks with
  | [::] => Some [::]
  | K :: Ks' =>
      match sts, ds with
      | s :: sts', d :: ds' =>
          let? es := par_fwd_elems sts' Ks' ds' in Some ((sF s - sL s *m K, scc s + sL s *m d) :: es)
      | _, _ => None
      end
  end.
Definition parForwardPass_init (P : lqt) (x0 : 'cV[R]_n) (Ks : seq 'M[R]_(m, n)) (ds : seq 'cV[R]_m) :=
  match Ks with
  | [::] => Some [::]
  | K :: Ks' =>
      match stages P, ds with
      | s :: sts', d :: ds' =>
          let? es := par_fwd_elems sts' Ks' ds' in
          Some ((0, (sF s - sL s *m K) *m x0 + scc s + sL s *m d) :: es)
      | _, _ => None
      end
  end.

(** lqt_np.py 832-858: parForwardPass_extract; [x] is elems[k-1][1], or x0 when k = 0 *)
Fixpoint par_fwd_extract (Ks : seq 'M[R]_(m, n)) (ds : seq 'cV[R]_m) (es : seq ('M[R]_n * 'cV[R]_n)) (x : 'cV[R]_n) :
    option (seq 'cV[R]_m * seq 'cV[R]_n) :=
  match Ks with
  | [::] => Some ([::], [::])
  | K :: Ks' =>
      match ds, es with
      | d :: ds', e :: es' =>
          let? '(us, xs) := par_fwd_extract Ks' ds' es' e.2 in Some (- K *m x + d :: us, e.2 :: xs)
      | _, _ => None
      end
  end.
Definition parForwardPass_extract x0 Ks ds es :=
  let? '(us, xs) := par_fwd_extract Ks ds es x0 in Some (us, x0 :: xs).

(** lqt_np.py 860-880 *)
Definition parForwardPass (P : lqt) x0 Ks ds :=
  let? es := parForwardPass_init P x0 Ks ds in let? es' := par_forward_pass_scan es in parForwardPass_extract x0 Ks ds es'.

(** ** lqt_np.py 888-925: parFwdBwdPass_init *)
Definition parFwdBwdPass_init (P : lqt) (x0 : 'cV[R]_n) : option (seq elem) :=
  if stages P is [::] then None
  else let? es := omap_seq (fun s : vstage => stage_elem s) (stages P) in Some (Elem 0 x0 0 0 0 :: es).

(** lqt_np.py 927-953: parFwdBwdPass_extract; no control for the last element *)
Fixpoint fb_extract (Ks : seq 'M[R]_(m, n)) (ds : seq 'cV[R]_m) (Ss : seq 'M[R]_n) (vs : seq 'cV[R]_n) (es : seq elem) :
    option (seq 'cV[R]_m * seq 'cV[R]_n) :=
  match es with
  | [::] => Some ([::], [::])
  | e :: es' =>
      match Ss, vs with
      | Sv :: Ss', v :: vs' =>
          let? x := solve (1%:M + eC e *m Sv) (eb e + eC e *m v) in
          match es' with
          | [::] => Some ([::], [:: x])
          | _ => match Ks, ds with
                 | K :: Ks', d :: ds' =>
                     let? '(us, xs) := fb_extract Ks' ds' Ss' vs' es' in Some (- K *m x + d :: us, x :: xs)
                 | _, _ => None
                 end
          end
      | _, _ => None
      end
  end.
(** lqt_np.py 955-976 *)
Definition parFwdBwdPass (P : lqt) x0 Ks ds Ss vs :=
  let? es := parFwdBwdPass_init P x0 in let? es' := par_fwdbwd_pass_scan es in fb_extract Ks ds Ss vs es'.

(** ** lqt_np.py 984-1014: parFwdBwdPass2_init *)
Definition parFwdBwdPass2_init (P : lqt) : option (seq elem) :=
  omap_seq (fun s : vstage => stage_elem s) (stages P).

(** lqt_np.py 1016-1045: parFwdBwdPass2_extract.  [fb2 .. x es] is the loop from index k on, where x is the
    state already computed for k and es = elems[k:]. *)
Fixpoint fb2_loop (x0 : 'cV[R]_n) (Ks : seq 'M[R]_(m, n)) (ds : seq 'cV[R]_m) (Ss : seq 'M[R]_n) (vs : seq 'cV[R]_n)
    (es : seq elem) (x : 'cV[R]_n) : option (seq 'cV[R]_m * seq 'cV[R]_n) :=
  match es with
  | [::] => Some ([::], [:: x])
  | e :: es' =>
      match Ks, ds, Ss, vs with
      | K :: Ks', d :: ds', Sv :: Ss', v :: vs' =>
          let? x' := solve (1%:M + eC e *m Sv) (eA e *m x0 + eb e + eC e *m v) in
          let? '(us, xs) := fb2_loop x0 Ks' ds' Ss' vs' es' x' in Some (- K *m x + d :: us, x :: xs)
      | _, _, _, _ => None
      end
  end.
Definition parFwdBwdPass2_extract (x0 : 'cV[R]_n) Ks ds (Ss : seq 'M[R]_n) (vs : seq 'cV[R]_n) es :=
  fb2_loop x0 Ks ds (behead Ss) (behead vs) es x0.
(** lqt_np.py 1047-1067 *)
Definition parFwdBwdPass2 (P : lqt) x0 Ks ds Ss vs :=
  let? es := parFwdBwdPass2_init P in let? es' := par_fwdbwd_pass_scan es in parFwdBwdPass2_extract x0 Ks ds Ss vs es'.

(** ** lqt_np.py 1158-1203: seqTransformedBackwardPass.
    linalg.inv is [solve A 1].  The inner checkAndExpand gets no Z, s, M and fills in eye(m), zeros(m) and
    zeros((p0, m)) with p0 = rows of X[0]; its shape check on M then raises unless every step has p = p0. *)
Definition trans_stage p (s : stage p) : option (stage p) :=
  let? UI := solve (sU s) 1%:M in
  Some (Stage (sF s - sL s *m UI *m (sM s)^T *m sH s) (sL s)
              (sX s - sM s *m UI *m (sM s)^T) (sU s)
              (scc s + sL s *m UI *m (sM s)^T *m sr s + sL s *m ss s)
              (sH s) (sr s) 1%:M 0 0).
Definition trans_back p (s : stage p) (Kd : 'M[R]_(m, n) * 'cV[R]_m) : option ('M[R]_(m, n) * 'cV[R]_m) :=
  let? UI := solve (sU s) 1%:M in
  Some (Kd.1 + UI *m (sM s)^T *m sH s, Kd.2 + UI *m (sM s)^T *m sr s + ss s).
Fixpoint trans_back_list (sts : seq vstage) (Ks : seq 'M[R]_(m, n)) (ds : seq 'cV[R]_m) :=
  match sts, Ks, ds with
  | [::], _, _ => Some (Ks, ds)
  | s :: sts', K :: Ks', d :: ds' =>
      let? '(K', d') := trans_back s (K, d) in let? '(Ks'', ds'') := trans_back_list sts' Ks' ds' in Some (K' :: Ks'', d' :: ds'')
  | _, _, _ => None
  end.
Definition seqTransformedBackwardPass (P : lqt) :=
  if stages P is s0 :: _ then
    let? sts := omap_seq (fun s : vstage => let? t := trans_stage s in Some (VStage t)) (stages P) in
    if all (fun s : vstage => vp s == vp s0) sts then
      let? '(Ks, ds, Ss, vs) := seqBackwardPass (Lqt sts (XT P) (HT P) (rT P)) in
      let? '(Ks', ds') := trans_back_list (stages P) Ks ds in
      Some (Ks', ds', Ss, vs)
    else None
  else None.

(** ** lqt_np.py 98-388: class LQR (time-invariant, no offsets) *)
Record lqr := Lqr { lF : 'M[R]_n; lL : 'M[R]_(n, m); lX : 'M[R]_n; lU : 'M[R]_m; lXT : 'M[R]_n }.

(** lqt_np.py 147-148, 228-229, 344-345, 360-361, 386-387 *)
Definition lqr_gain (q : lqr) (Sv : 'M[R]_n) : option 'M[R]_(m, n) :=
  solve_pos (lU q + (lL q)^T *m Sv *m lL q) ((lL q)^T *m Sv *m lF q).
(** lqt_np.py 149, 362 *)
Definition lqr_ric (q : lqr) (Sv : 'M[R]_n) (K : 'M[R]_(m, n)) : 'M[R]_n :=
  (lF q)^T *m Sv *m (lF q - lL q *m K) + lX q.

(** lqt_np.py 129-156 *)
Fixpoint lqr_seq_loop (q : lqr) (T : nat) (Sv : 'M[R]_n) Ks Ss : option (seq 'M[R]_(m, n) * seq 'M[R]_n) :=
  match T with
  | 0%N => Some (Ks, Ss)
  | T'.+1 => let? K := lqr_gain q Sv in let Sv' := lqr_ric q Sv K in lqr_seq_loop q T' Sv' (K :: Ks) (Sv' :: Ss)
  end.
Definition lqr_seqBackwardPass (q : lqr) (T : nat) := lqr_seq_loop q T (lXT q) [::] [:: lXT q].

(** lqt_np.py 158-179 *)
Fixpoint lqr_fwd (q : lqr) (Ks : seq 'M[R]_(m, n)) (x : 'cV[R]_n) : seq 'cV[R]_m * seq 'cV[R]_n :=
  match Ks with
  | [::] => ([::], [::])
  | K :: Ks' => let u := - K *m x in let x' := lF q *m x + lL q *m u in
                let (us, xs) := lqr_fwd q Ks' x' in (u :: us, x' :: xs)
  end.
Definition lqr_seqForwardPass (q : lqr) x0 Ks := let (us, xs) := lqr_fwd q Ks x0 in (us, x0 :: xs).

(** lqt_np.py 185-209 *)
Definition lqr_elem (q : lqr) : option elem :=
  let? c := solve_pos (lU q) (lL q)^T in Some (Elem (lF q) 0 (lL q *m c) 0 (lX q)).
Definition lqr_parBackwardPass_init (q : lqr) (T : nat) : option (seq elem) :=
  let? e := lqr_elem q in Some (rcons (nseq T e) (Elem 0 0 0 0 (lXT q))).
(** lqt_np.py 211-232 *)
Definition lqr_parBackwardPass_extract (q : lqr) (es : seq elem) : option (seq 'M[R]_(m, n) * seq 'M[R]_n) :=
  match es with
  | [::] => None
  | e :: es' => let? Ks := omap_seq (fun e => lqr_gain q (eJ e)) es' in Some (Ks, [seq eJ e | e <- es])
  end.
(** lqt_np.py 234-252 *)
Definition lqr_parBackwardPass (q : lqr) (T : nat) :=
  let? es := lqr_parBackwardPass_init q T in let? es' := par_backward_pass_scan es in lqr_parBackwardPass_extract q es'.

(** lqt_np.py 258-279 *)
Definition lqr_parForwardPass_init (q : lqr) (x0 : 'cV[R]_n) (Ks : seq 'M[R]_(m, n)) : seq ('M[R]_n * 'cV[R]_n) :=
  match Ks with
  | [::] => [::]
  | K :: Ks' => (0, (lF q - lL q *m K) *m x0) :: [seq (lF q - lL q *m K, 0) | K <- Ks']
  end.
(** lqt_np.py 281-309 *)
Fixpoint lqr_fwd_extract (Ks : seq 'M[R]_(m, n)) (es : seq ('M[R]_n * 'cV[R]_n)) (x : 'cV[R]_n) :
    option (seq 'cV[R]_m * seq 'cV[R]_n) :=
  match Ks with
  | [::] => Some ([::], [::])
  | K :: Ks' =>
      match es with
      | e :: es' => let? '(us, xs) := lqr_fwd_extract Ks' es' e.2 in Some (- K *m x :: us, e.2 :: xs)
      | [::] => None
      end
  end.
(** lqt_np.py 311-329 *)
Definition lqr_parForwardPass (q : lqr) x0 Ks :=
  let? es := par_forward_pass_scan (lqr_parForwardPass_init q x0 Ks) in
  let? '(us, xs) := lqr_fwd_extract Ks es x0 in Some (us, x0 :: xs).

(** lqt_np.py 347-364: lqrIter; the gain is None when n = 0 *)
Fixpoint lqr_iter_loop (q : lqr) (k : nat) (K : option 'M[R]_(m, n)) (Sv : 'M[R]_n) :
    option (option 'M[R]_(m, n) * 'M[R]_n) :=
  match k with
  | 0%N => Some (K, Sv)
  | k'.+1 => let? K' := lqr_gain q Sv in lqr_iter_loop q k' (Some K') (lqr_ric q Sv K')
  end.
Definition lqrIter (q : lqr) (k : nat) := lqr_iter_loop q k None (lX q).

(** lqt_np.py 366-388: lqrDouble (general solve for U here, unlike lines 198) *)
Definition lqr_double_elem (q : lqr) : option elem :=
  let? c := solve (lU q) (lL q)^T in Some (Elem (lF q) 0 (lL q *m c) 0 (lX q)).
Fixpoint double_loop (k : nat) (e : elem) : option elem :=
  match k with 0%N => Some e | k'.+1 => let? e' := combine_abcej e e in double_loop k' e' end.
Definition lqrDouble (q : lqr) (k : nat) : option ('M[R]_(m, n) * 'M[R]_n) :=
  let? e := lqr_double_elem q in let? e' := double_loop k e in let? K := lqr_gain q (eJ e') in Some (K, eJ e').

End Lqt.
