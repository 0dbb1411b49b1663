(** The tracking problems built by LinearModel.getLQT and NonlinearModel.getLQT. *)
From Coq Require Import Ring Field.
From mathcomp Require Import all_ssreflect all_algebra zify.
From Verif Require Import MxBase LinComb Rk4Proofs LqtModel LqtSpec FscModel LinModModel LinModSpec LinModProofs.
Import Order.TTheory GRing.Theory Num.Theory.
Set Implicit Arguments. Unset Strict Implicit. Unset Printing Implicit Defensive.
Local Open Scope ring_scope.

Lemma nthE {X} (d : X) (l : seq X) i : (i < size l)%N -> List.nth_error l i = Some (nth d l i).
Proof. by elim: l i => [|x l IH] [|i] //=; exact: IH. Qed.

Section Loop.
Variables (R : realFieldType) (p : nat) (Xl Xn : 'M[R]_p) (xy : seq 'cV[R]_p) (steps : nat).
Hypothesis s0 : (0 < steps)%N.
Definition ref_at (k : nat) := (if (k %% steps == 0)%N then Xl else Xn, nth 0 xy (k %/ steps)).
Lemma ref_loopE n k i curr : (k + n <= steps * size xy)%N ->
  (if (k %% steps == 0)%N then i = (k %/ steps)%N else i = (k %/ steps).+1 /\ curr = nth 0 xy (k %/ steps)) ->
  ref_loop Xl Xn xy steps k n i curr =
  Some ([seq ref_at j | j <- iota k n], if n is n'.+1 then nth 0 xy ((k + n') %/ steps) else curr).
Proof.
elim: n k i curr => [|n IH] k i curr le inv //=.
have q : (k %/ steps < size xy)%N by rewrite ltn_divLR // mulnC; lia.
have step (c : 'cV[R]_p) : ref_loop Xl Xn xy steps k.+1 n (k %/ steps).+1 (nth 0 xy (k %/ steps)) =
    Some ([seq ref_at j | j <- iota k.+1 n], nth 0 xy ((k + n) %/ steps)).
  rewrite IH; first by case: n {IH le} => [|n]; rewrite ?addn0 // addSnnS.
  - by lia.
  rewrite divnS //.
  rewrite -/(dvdn steps k.+1); by case: (steps %| k.+1)%N; rewrite ?add1n ?add0n.
case: ifP inv => [h ->|h [-> ->]]; rewrite /ref_at ?h.
  by rewrite (nthE 0 q) /= step.
by rewrite step.
Qed.
(** the whole loop *)
Lemma ref_loop_all curr : xy <> [::] ->
  ref_loop Xl Xn xy steps 0 (steps * size xy) 0 curr = Some (mkseq ref_at (steps * size xy), last 0 xy).
Proof.
move=> ne; rewrite ref_loopE ?mod0n ?div0n ?eqxx //.
have sz : (0 < size xy)%N by case: xy ne.
have : (0 < steps * size xy)%N by rewrite muln_gt0 s0.
case E : (steps * size xy)%N => [|T'] // _; rewrite add0n.
have -> : (T' %/ steps = (size xy).-1)%N.
  have -> : (T' = (size xy).-1 * steps + steps.-1)%N by move: E; case: (size xy) sz => // a _; rewrite mulnS; case: (steps) s0 => // b _ /=; lia.
  by rewrite divnMDl // divn_small ?addn0 // prednK.
by rewrite nth_last.
Qed.
End Loop.

Section Track.
Variable R : realFieldType.
Add Ring Rr : (mc_ring R).
Add Field Rf : (mc_field R).
Ltac sfield := rsn R; field; repeat split; num_neq0 R.
Variables n m p pT : nat.
Variables (F : 'M[R]_n) (L : 'M[R]_(n, m)) (U : 'M[R]_m) (H : 'M[R]_(p, n)) (XT : 'M[R]_pT) (HT : 'M[R]_(pT, n)) (rT : 'cV[R]_pT).
Local Notation stg := (fun z : 'M[R]_p * 'cV[R]_p => VStage (Stage F L z.1 U 0 H z.2 1%:M 0 0)).
Lemma track_ctg (P : lqt R n m) Xr x us : size us = size Xr ->
  let xs := traj [seq stg z | z <- Xr] x us in
  cost_to_go P [seq stg z | z <- Xr] x us =
  \sum_(k < size Xr) (qf (nth (0, 0) Xr k).1 (H *m nth 0 xs k - (nth (0, 0) Xr k).2) / 2%:R + qf U (nth 0 us k) / 2%:R)
  + final_cost P (nth 0 xs (size Xr)).
Proof.
elim: Xr x us => [|z Xr IH] x [|u us] //= sz; first by rewrite big_ord0 add0r.
rewrite IH; last by case: sz.
rewrite big_ord_recl /= /stage_cost /= mul1mx subr0 mul0mx dot0r addr0 -!addrA; congr (_ + _).
Qed.
Lemma track_ok Xr : symm U -> pd U -> symm XT -> psd XT -> (forall z, z \in Xr -> symm z.1 /\ psd z.1) ->
  problem_ok (tracking F L U H Xr XT HT rT).
Proof.
move=> sU pU sXT pXT h; split=> //=; elim: Xr h => [|z Xr IH] //= h; split; last first.
  by apply: IH => y yin; apply: h; rewrite inE yin orbT.
have [sz pz] := h z (mem_head _ _).
split=> //= [e w|u u0]; last by rewrite mul1mx; exact: pU.
by rewrite mul0mx dot0r mul0rn addr0 addr_ge0 ?pz // (pd_psd pU).
Qed.
Lemma track_next (Q : (vstage R n m) -> Prop) Xr : (forall z, Q (stg z)) -> all_stages Q (stages (tracking F L U H Xr XT HT rT)).
Proof. by move=> h /=; elim: Xr => //= z Xr IH; split. Qed.
End Track.

Section Sum.
Variable R : realFieldType.
(** over steps * N indices: the multiples of steps, and the others *)
Lemma sum_mult (f : nat -> R) steps N : (0 < steps)%N ->
  \sum_(k < steps * N | (k %% steps == 0)%N) f k = \sum_(i < N) f (i * steps)%N.
Proof.
move=> s0; elim: N => [|N IH]; first by rewrite muln0 !big_ord0.
rewrite big_ord_recr /= -IH -(big_mkord (fun k => (k %% steps == 0)%N)) -(big_mkord (fun k => (k %% steps == 0)%N)).
rewrite (big_cat_nat _ _ (n := (steps * N)%N)) //=; last by lia.
congr (_ + _); rewrite big_ltn_cond; last by lia.
rewrite mulnC modnMl eqxx big_nat_cond big_pred0 ?addr0 // => k.
apply/negP => /andP[/andP[h1 h2] /eqP h3].
have h4 := divn_eq k steps; rewrite h3 addn0 in h4.
have a : (N < k %/ steps)%N by rewrite -(ltn_pmul2r s0) -h4.
have b : (k %/ steps < N.+1)%N by rewrite -(ltn_pmul2r s0) -h4 mulnC.
lia.
Qed.
Lemma sum_refs p (Xl Xn : 'M[R]_p) (xy : seq 'cV[R]_p) (h : nat -> 'cV[R]_p) steps : (0 < steps)%N ->
  let T := (steps * size xy)%N in
  \sum_(k < T) qf (nth (0, 0) (mkseq (ref_at Xl Xn xy steps) T) k).1 (h k - (nth (0, 0) (mkseq (ref_at Xl Xn xy steps) T) k).2) / 2%:R =
  \sum_(i < size xy) qf Xl (h (i * steps)%N - nth 0 xy i) / 2%:R
  + \sum_(k < T | (k %% steps != 0)%N) qf Xn (h k - nth 0 xy (k %/ steps)) / 2%:R.
Proof.
move=> s0 T; rewrite (bigID (fun k : 'I_T => (k %% steps == 0)%N)) /=; congr (_ + _); last first.
  by apply: eq_bigr => k hk; rewrite nth_mkseq // /ref_at (negPf hk).
under eq_bigr => k hk do rewrite nth_mkseq // /ref_at hk /=.
rewrite (sum_mult (fun k => qf Xl (h k - nth 0 xy (k %/ steps)) / 2%:R)) //.
by apply: eq_bigr => i _; rewrite mulnK.
Qed.
End Sum.
