(** The Riccati equation of the continuous-time tracker against the Hamilton-Jacobi-Bellman equation, and the sequential
    passes step by step. *)
From Coq Require Import Ring Field.
From mathcomp Require Import all_ssreflect all_algebra zify.
From Verif Require Import ScanModel ScanSpec ScanProofs ScanUse MxBase LqtModel LqtSpec LqtCore LqtElem LinComb Rk4Model Rk4Spec Rk4Proofs.
From Verif Require Import ClqtModel ClqtPack ClqtFwd ClqtFwd2 ClqtSpec ClqtBwd ClqtVal ClqtTfModel ClqtTf ClqtTf2 ClqtTf3 ClqtTf4.
Import Order.TTheory GRing.Theory Num.Theory.
Set Implicit Arguments. Unset Strict Implicit. Unset Printing Implicit Defensive.
Local Open Scope ring_scope.

Section Hjb.
Variable R : realFieldType.
Variables n m p pT : nat.
Variable P : clqt R n m p pT.
Add Ring Rr : (mc_ring R).
Add Field Rf : (mc_field R).
Ltac sfield := rsn R; field; repeat split; num_neq0 R.

Lemma ULT_pos t : symm (kU P t) -> pd (kU P t) -> ULT P t = Some (invmx (kU P t) *m (kL P t)^T).
Proof. by move=> sU pU; rewrite /ULT solve_posE. Qed.
Lemma tf_ULT_pos : (forall t, symm (kU P t) /\ pd (kU P t)) -> forall t, tf_ULT P t = ULT P t.
Proof. by move=> H t; have [sU pU] := H t; rewrite ULT_pos // /tf_ULT solve_unit // pd_unit. Qed.

Lemma ham_opt t (Q : 'M[R]_n) (v : 'cV[R]_n) ult x u : symm (kU P t) -> pd (kU P t) -> ULT P t = Some ult ->
  let us := - (ult *m Q) *m x + ult *m v in
  hamiltonian P t Q v x u = hamiltonian P t Q v x us + qf (kU P t) (u - us) / 2%:R.
Proof.
move=> sU pU; rewrite ULT_pos // => -[<-] us; rewrite /hamiltonian.
have E : kU P t *m us = - ((kL P t)^T *m (Q *m x - v)).
  by rewrite /us mulmxDr mulNmx mulmxN !mulmxA mulmxV ?pd_unit // mul1mx mulmxBr opprB -!mulmxA addrC.
have -> : qf (kU P t) u = qf (kU P t) (us + (u - us)) by rewrite addrC subrK.
rewrite (qfD us) // E; set g := Q *m x - v.
rewrite (dotDr g (_ + kL P t *m u)) (dotDr g (kF P t *m x)) (dotDr g (_ + kL P t *m us)) (dotDr g (kF P t *m x)).
rewrite !(dotMr (kL P t)) dotNl dotBr mulr2n.
by move: (dot _ us) (dot _ u) (dot _ (kc P t)) (dot _ (kF P t *m x)) (qf _ _) (qf _ us) (qf _ (u - us)) => *; sfield.
Qed.

Lemma ham_value t (Q : 'M[R]_n) (v : 'cV[R]_n) ult : symm (kU P t) -> pd (kU P t) -> symm (kX P t) -> symm Q -> ULT P t = Some ult ->
  let r := riccati_rhs P t (kL P t *m ult) (Q, v) in
  forall x, let us := - (ult *m Q) *m x + ult *m v in
  hamiltonian P t Q v x us = - (qf r.1 x / 2%:R - dot r.2 x) +
     (qf (kX P t) (kr P t) / 2%:R - qf (kL P t *m ult) v / 2%:R - dot v (kc P t)).
Proof.
move=> sU pU sX sQ E; set N := kL P t *m ult => r x us.
have sN : N^T = N.
  by move: E; rewrite /N ULT_pos // => -[<-]; rewrite !trmx_mul trmxK symm_inv // mulmxA.
have EU : kU P t *m us = - ((kL P t)^T *m (Q *m x - v)).
  move: E; rewrite /us ULT_pos // => -[<-].
  by rewrite mulmxDr mulNmx mulmxN !mulmxA mulmxV ?pd_unit // mul1mx mulmxBr opprB -!mulmxA addrC.
have Lu : kL P t *m us = - (N *m (Q *m x - v)) by rewrite /us /N; mxabel.
rewrite /hamiltonian (qf_dot (kU P t)) EU Lu; set g := Q *m x - v.
have -> : dot us (- ((kL P t)^T *m g)) = dot g (N *m g) by rewrite dotNr dotMr trmxK Lu dotNl opprK dotC.
rewrite /r /riccati_rhs /=; move: (kF P t) (kX P t) sX (kH P t) (kr P t) (kc P t) N sN {Lu EU us r E} => F X sX H r c N sN.
have sX' : X^T = X := sX; have sQ' : Q^T = Q := sQ.
rewrite /g !qf_dot; mxexp; rewrite ?(dotDr, dotDl, dotNr, dotNl, dotMl) ?trmx_mul ?mulmxA ?trmxK ?sN ?sX' ?sQ'.
rewrite ?mulmxN ?dotNr ?mulmxA.
have -> : dot x (F^T *m Q *m x) = dot x (Q *m F *m x) by rewrite dotC dotMl !trmx_mul trmxK sQ'.
have -> : dot r (X *m H *m x) = dot x (H^T *m X *m r) by rewrite dotC dotMl !trmx_mul sX'.
have -> : dot v (N *m Q *m x) = dot x (Q *m N *m v) by rewrite dotC dotMl !trmx_mul sN sQ'.
have -> : dot c (Q *m x) = dot x (Q *m c) by rewrite dotC dotMl sQ'.
move: (dot x (Q *m F *m x)) (dot x (H^T *m X *m r)) (dot x (Q *m N *m v)) (dot x (Q *m c)) (dot x (Q *m N *m Q *m x)) => a1 a2 a3 a4 a5.
by move: (dot r _) (dot v (N *m v)) (dot v c) (dot v (F *m x)) (dot x _) => *; sfield.
Qed.

(** the Riccati equation is the Hamilton-Jacobi-Bellman equation, and the gains give its minimiser *)
Theorem hjb_riccati t Q v y : symm (kU P t) -> pd (kU P t) -> symm (kX P t) -> symm Q ->
  riccati_ode_f P (pack_Sv (Q, v)) t = Some y ->
  let K := invmx (kU P t) *m (kL P t)^T *m Q in let d := invmx (kU P t) *m (kL P t)^T *m v in
  (exists kappa, forall x, hamiltonian P t Q v x (- K *m x + d) = - (qf (unpack_Sv y).1 x / 2%:R - dot (unpack_Sv y).2 x) + kappa) /\
  forall x u, hamiltonian P t Q v x (- K *m x + d) <= hamiltonian P t Q v x u /\
      (hamiltonian P t Q v x u <= hamiltonian P t Q v x (- K *m x + d) -> u = - K *m x + d).
Proof.
move=> sU pU sX sQ; have E := ULT_pos sU pU; rewrite /riccati_ode_f E obindS Sv_unpack; set w := riccati_rhs _ _ _ _ => Ey; have {Ey} <- : pack_Sv w = y by case: Ey.
split.
  by eexists => x; rewrite !Sv_unpack; exact: (@ham_value t Q v _ sU pU sX sQ E x).
move=> x u; rewrite (@ham_opt t Q v _ x u sU pU E) /=; split.
  by rewrite ler_addl divr_ge0 ?ler0n //; exact: pd_psd.
rewrite ger_addl => H; apply/eqP; rewrite -subr_eq0; apply/negPn/negP => /pU; rewrite ltNge => /negP; apply.
by rewrite -(@pmulr_lle0 _ (2%:R^-1)) ?invr_gt0 ?ltr0n // mulrC.
Qed.

(** the sequential backward pass, step by step *)
Definition back_steps (dt t0 : R) (a l : nat) (r : bwd_res R n m) :=
  let: (Ks, ds, Ss, vs) := r in
  forall i, (a <= i < a + l)%N -> exists y ult,
    [/\ classical_step (V := matrix_lmodType R n (n + 1)) (riccati_ode_f P) (- dt)
          (pack_Sv (nth 0 Ss (i - a).+1, nth 0 vs (i - a).+1)) (t0 + i.+1%:R * dt) y,
        nth 0 Ss (i - a) = symz (unpack_Sv y).1, nth 0 vs (i - a) = (unpack_Sv y).2,
        ULT P (t0 + i%:R * dt) = Some ult & nth 0 Ks (i - a) = ult *m nth 0 Ss (i - a) /\ nth 0 ds (i - a) = ult *m nth 0 vs (i - a)].
Lemma bwd_loop_steps dt t0 l N Q v Ks ds Ss vs r :
  back_steps dt t0 l N (Ks, ds, Q :: Ss, v :: vs) ->
  bwd_loop P dt t0 l (Q, v) (Ks, ds, Q :: Ss, v :: vs) = Some r ->
  back_steps dt t0 0 (l + N) r.
Proof.
elim: l N Q v Ks ds Ss vs => [|l IH] N Q v Ks ds Ss vs H; first by case=> <-.
rewrite -[bwd_loop _ _ _ _.+1 _ _]/(let? Sv' := bwd_step P dt t0 l (Q, v) in
      let? '(K, d) := bwd_gain P dt t0 l Sv' in
      bwd_loop P dt t0 l Sv' (K :: Ks, d :: ds, Sv'.1 :: Q :: Ss, Sv'.2 :: v :: vs)).
case E: (bwd_step P dt t0 l (Q, v)) => [[Q' v']|]; last by [].
rewrite obindS; case G: (bwd_gain P dt t0 l (Q', v')) => [[K d]|]; last by [].
rewrite obindS addSnnS; apply: IH => i hi.
have [/eqP li|li] := boolP (l == i).
  subst i; rewrite subnn.
  move: E; rewrite /bwd_step; case E: (rk4_xt _ _ _ _) => [y|]; last by [].
  rewrite obindS => E2; move: G; rewrite /bwd_gain; case U: (ULT P _) => [ult|]; last by [].
  rewrite obindS => -[<- <-]; exists y, ult.
  have [<- <-] : (symz (unpack_Sv y).1, (unpack_Sv y).2) = (Q', v') by move: E2; case: (unpack_Sv y) => a b [-> ->].
  by split=> //; exact/rk4_classical.
have [|y [ult]] := H i; first by lia.
have e : (i - l = (i - l.+1).+1)%N by lia.
by rewrite !e => *; exists y, ult.
Qed.
Theorem seq_backward_steps steps dt t0 Q v Ks ds Ss vs :
  clqt_seqBackwardPass P steps dt t0 Q v = Some (Ks, ds, Ss, vs) ->
  exists h, dt_or P dt [:: steps] = Some h /\
  forall i, (i < steps)%N -> exists y ult,
    [/\ classical_step (V := matrix_lmodType R n (n + 1)) (riccati_ode_f P) (- h)
          (pack_Sv (nth 0 Ss i.+1, nth 0 vs i.+1)) (or_else t0 0 + i.+1%:R * h) y,
        nth 0 Ss i = symz (unpack_Sv y).1, nth 0 vs i = (unpack_Sv y).2,
        ULT P (or_else t0 0 + i%:R * h) = Some ult & nth 0 Ks i = ult *m nth 0 Ss i /\ nth 0 ds i = ult *m nth 0 vs i].
Proof.
rewrite /clqt_seqBackwardPass; case E: (dt_or P dt [:: steps]) => [h|]; last by [].
rewrite obindS => /(@bwd_loop_steps _ _ _ 0) H; exists h; split=> // i hi.
have /H/(_ i) : back_steps h (or_else t0 0) steps 0 ([::], [::], [:: or_else Q (ST P)], [:: or_else v (vT P)]) by move=> j; lia.
by rewrite addn0 subn0; apply.
Qed.

(** the sequential forward pass, step by step *)
Lemma fwd_loop_steps dt t0 zoh Ks ds k x us xs :
  fwd_loop P dt t0 zoh Ks ds k x = Some (us, xs) ->
  [/\ size us = size Ks, size xs = size Ks &
  forall i, (i < size Ks)%N ->
    nth 0 us i = - nth 0 Ks i *m nth 0 (x :: xs) i + nth 0 ds i /\
    classical_step (V := matrix_lmodType R n 1) (cl_ode P zoh (nth 0 Ks i) (nth 0 ds i) (nth 0 us i)) dt (nth 0 (x :: xs) i) (t0 + (k + i)%:R * dt) (nth 0 xs i)].
Proof.
elim: Ks ds k x us xs => [|K Ks IH] ds k x us xs; first by case=> <- <-.
case: ds => [|d ds]; first by [].
rewrite -[fwd_loop _ _ _ _ _ _ _ _]/(let? x' := rk4_xt (V := matrix_lmodType R n 1) (cl_ode P zoh K d (- K *m x + d)) dt x (t0 + k%:R * dt) in
          let? '(us, xs) := fwd_loop P dt t0 zoh Ks ds k.+1 x' in Some ((- K *m x + d) :: us, x' :: xs)).
case E: (rk4_xt _ _ _ _) => [x'|]; last by []; rewrite obindS.
case E2: (fwd_loop _ _ _ _ _ _ _ _) => [[us' xs']|]; last by [].
rewrite obindS => -[<- <-]; have [s1 s2 H] := IH _ _ _ _ _ E2; split; [by rewrite /= s1 | by rewrite /= s2|].
move=> [_|i hi]; first by split=> //; rewrite addn0; exact/rk4_classical.
by have := H i hi; rewrite addSnnS.
Qed.
Theorem seq_forward_steps x0 Ks ds dt t0 zoh us xs :
  clqt_seqForwardPass P x0 Ks ds dt t0 zoh = Some (us, xs) ->
  exists h, [/\ dt_or P dt [:: size Ks] = Some h, size us = size Ks, size xs = (size Ks).+1, nth 0 xs 0 = x0 &
  forall i, (i < size Ks)%N ->
    nth 0 us i = - nth 0 Ks i *m nth 0 xs i + nth 0 ds i /\
    classical_step (V := matrix_lmodType R n 1)
      (fun x t => Some (kF P t *m x + kL P t *m (if zoh then nth 0 us i else - nth 0 Ks i *m x + nth 0 ds i) + kc P t))
      h (nth 0 xs i) (or_else t0 0 + i%:R * h) (nth 0 xs i.+1)].
Proof.
rewrite /clqt_seqForwardPass; case E: (dt_or P dt _) => [h|]; last by []; rewrite obindS.
case E2: (fwd_loop _ _ _ _ _ _ _ _) => [[us' xs']|]; last by []; rewrite obindS => -[<- <-].
have [s1 s2 H] := fwd_loop_steps E2; exists h; split=> //; first by rewrite /= s2.
move=> i hi; have [H1 H2] := H i hi; split=> //; move: H2; rewrite add0n /cl_ode.
by case: (zoh).
Qed.
End Hjb.

Section Main.
Variable R : realFieldType.
Variables n m p pT : nat.
Variable P : clqt R n m p pT.
Hypothesis U : forall t, symm (kU P t) /\ pd (kU P t).

(** short blocks of the Euler discretisation *)
Lemma euler_backward t ult e : ULT P t = Some ult ->
  exists delta B, [/\ 0 < delta, 0 <= B & forall h, 0 < h -> h <= delta ->
    exists f e', [/\ stage_elem (euler_stage P t h) = Some f, combine_abcej f e = Some e' &
      elem_within (B * h ^+ 2) e' (elem_move (- h) (bw_rhs P t (kL P t *m ult) e) e)]].
Proof.
move=> E; have [delta [B [d0 B0 H]]] := @bw_first_order _ _ _ _ _ P t ult e E; exists delta, B; split=> // h h0 hd.
have [|e' [E1 E2]] := H h; first by rewrite ger0_norm // ltW.
have [sU pU] := U t; exists (short_block P t (kL P t *m ult) h), e'; split=> //; exact: short_block_euler.
Qed.
Lemma euler_forward t ult e : ULT P t = Some ult ->
  exists delta B, [/\ 0 < delta, 0 <= B & forall h, 0 < h -> h <= delta ->
    exists f e', [/\ stage_elem (euler_stage P t h) = Some f, combine_abcej e f = Some e' &
      elem_within (B * h ^+ 2) e' (elem_move h (fw_rhs P t (kL P t *m ult) e) e)]].
Proof.
move=> E; have [delta [B [d0 B0 H]]] := @fw_first_order _ _ _ _ _ P t ult e E; exists delta, B; split=> // h h0 hd.
have [|e' [E1 E2]] := H h; first by rewrite ger0_norm // ltW.
have [sU pU] := U t; exists (short_block P t (kL P t *m ult) h), e'; split=> //; exact: short_block_euler.
Qed.
(** the same through the functions on packed matrices *)
Lemma euler_backward_ode t e y : bwpass_bw_ode_f P (pack_abcej e) t = Some y ->
  exists delta B, [/\ 0 < delta, 0 <= B & forall h, 0 < h -> h <= delta ->
    exists f e', [/\ stage_elem (euler_stage P t h) = Some f, combine_abcej f e = Some e' &
      elem_within (B * h ^+ 2) e' (elem_move (- h) (unpack_abcej y) e)]].
Proof.
have [sU pU] := U t; rewrite /bwpass_bw_ode_f (ULT_pos sU pU) obindS abcej_unpack; set w := bw_rhs _ _ _ _ => Ey; have {Ey} <- : pack_abcej w = y by case: Ey.
rewrite abcej_unpack; apply: euler_backward; exact: ULT_pos.
Qed.
Lemma euler_forward_ode t e y : bwpass_fw_ode_f P (pack_abcej e) t = Some y ->
  exists delta B, [/\ 0 < delta, 0 <= B & forall h, 0 < h -> h <= delta ->
    exists f e', [/\ stage_elem (euler_stage P t h) = Some f, combine_abcej e f = Some e' &
      elem_within (B * h ^+ 2) e' (elem_move h (unpack_abcej y) e)]].
Proof.
have [sU pU] := U t; rewrite /bwpass_fw_ode_f (ULT_pos sU pU) obindS abcej_unpack; set w := fw_rhs _ _ _ _ => Ey; have {Ey} <- : pack_abcej w = y by case: Ey.
rewrite abcej_unpack; apply: euler_forward; exact: ULT_pos.
Qed.
(** J, eta obey the Riccati equation; A, b, C the equation of the forward value function *)
Lemma same_riccati t e y : bwpass_bw_ode_f P (pack_abcej e) t = Some y ->
  exists z, riccati_ode_f P (pack_Sv (eJ e, eeta e)) t = Some z /\ unpack_Sv z = (eJ (unpack_abcej y), eeta (unpack_abcej y)).
Proof.
have [sU pU] := U t; rewrite /bwpass_bw_ode_f /riccati_ode_f (ULT_pos sU pU) !obindS abcej_unpack Sv_unpack.
set w := bw_rhs _ _ _ _ => Ey; have {Ey} <- : pack_abcej w = y by case: Ey.
by eexists; split; first by []; rewrite abcej_unpack Sv_unpack -(bw_riccati P t _ e).
Qed.
Lemma same_abc t e y : bwpass_fw_ode_f P (pack_abcej e) t = Some y ->
  exists z, fwdbwdpass_ode_f P (pack_abc (eA e, eb e, eC e)) t = Some z /\
    unpack_abc z = (eA (unpack_abcej y), eb (unpack_abcej y), eC (unpack_abcej y)).
Proof.
have [sU pU] := U t; rewrite /bwpass_fw_ode_f /fwdbwdpass_ode_f (ULT_pos sU pU) !obindS abcej_unpack abc_unpack.
set w := fw_rhs _ _ _ _ => Ey; have {Ey} <- : pack_abcej w = y by case: Ey.
by eexists; split; first by []; rewrite abcej_unpack abc_unpack -(fw_abc P t _ e).
Qed.
(** integrated over a block *)
Lemma block_J blocks steps dt t0 k es : (k < blocks)%N -> clqt_parBackwardPass_init P blocks steps dt t0 false = Some es ->
  exists Ks ds Ss vs, clqt_seqBackwardPass P steps (Some dt) (Some (t0 + (k * steps)%:R * dt)) (Some 0) (Some 0) = Some (Ks, ds, Ss, vs) /\
    nth 0 Ss 0 = eJ (nth (Elem 0 0 0 0 0) es k) /\ nth 0 vs 0 = eeta (nth (Elem 0 0 0 0 0) es k).
Proof.
move=> hk; rewrite /clqt_parBackwardPass_init; case E: (omap_seq _ _) => [es'|]; last by [].
rewrite obindS => -[<-]; have se := omap_seq_size E; rewrite size_iota in se.
have [i [Ei]] : exists e, block_elem P dt t0 steps false k = Some e /\ nth (Elem 0 0 0 0 0) (rcons es' (Elem 0 0 0 (vT P) (ST P))) k = e.
  have : exists e, block_elem P dt t0 steps false (nth 0%N (iota 0 blocks) k) = Some e /\ nth (Elem 0 0 0 0 0) es' k = e.
    have hk' : (k < size (iota 0 blocks))%N by rewrite size_iota.
    elim: (iota 0 blocks) k es' hk' E {hk se} => // a l IH [|k] es' h; rewrite -[omap_seq _ _]/(let? y := block_elem P dt t0 steps false a in let? ys := omap_seq (block_elem P dt t0 steps false) l in Some (y :: ys));
      case E: (block_elem _ _ _ _ _ _) => [y|] //; rewrite obindS; case E2: (omap_seq _ _) => [ys|] //; rewrite obindS => -[<-]; first by exists y.
    exact: (IH k ys).
  by rewrite nth_iota // add0n => -[e [H1 H2]]; exists e; split=> //; rewrite nth_rcons se hk.
move=> ->; have := block_Jeta P dt t0 steps k; rewrite Ei.
case: (clqt_seqBackwardPass _ _ _ _ _ _) => [[[[Ks ds] Ss] vs]|]; last by [].
rewrite obindS /heads; case: Ss => [|Q Ss] //; case: vs => [|v vs] // H; exists Ks, ds, (Q :: Ss), (v :: vs); split=> //.
by case: H => -> ->.
Qed.
Lemma seq_backward_total steps dt t0 Q v : dt_or P dt [:: steps] <> None -> exists r, clqt_seqBackwardPass P steps dt t0 Q v = Some r.
Proof.
rewrite /clqt_seqBackwardPass; case: (dt_or _ _ _) => // h _; rewrite obindS.
move: (or_else Q _) (or_else v _) (or_else t0 0) => {}Q {}v {}t0.
have : forall acc, exists r, bwd_loop P h t0 steps (Q, v) acc = Some r.
  elim: steps Q v => [|k IH] Q v [[[Ks ds] Ss] vs]; first by eexists.
  rewrite -[bwd_loop _ _ _ _.+1 _ _]/(let? Sv' := bwd_step P h t0 k (Q, v) in
      let? '(K, d) := bwd_gain P h t0 k Sv' in bwd_loop P h t0 k Sv' (K :: Ks, d :: ds, Sv'.1 :: Ss, Sv'.2 :: vs)).
  have [[Q' v'] ->] : exists z, bwd_step P h t0 k (Q, v) = Some z.
    rewrite /bwd_step (@rk4_ext R (matrix_lmodType R n (n + 1)) _ (fun x t => Some (pack_Sv (riccati_rhs P t (kL P t *m (invmx (kU P t) *m (kL P t)^T)) (unpack_Sv x))))).
      by rewrite rk4_total obindS; case: (unpack_Sv _) => a b; eexists.
    by move=> z s; have [sU pU] := U s; rewrite /riccati_ode_f (ULT_pos sU pU) obindS.
  have [sU pU] := U (t0 + k%:R * h); rewrite obindS /bwd_gain (ULT_pos sU pU) !obindS; exact: IH.
by apply.
Qed.
End Main.

Section Stmts.
Variable R : realFieldType.
Variables n m p pT : nat.
Lemma C42_np_l : [/\ cancel (@pack_abcej R n) (@unpack_abcej R n) /\ cancel (@unpack_abcej R n) (@pack_abcej R n),
      cancel (@pack_abc R n) (@unpack_abc R n) /\ cancel (@unpack_abc R n) (@pack_abc R n),
      cancel (@pack_Psiphi R n) (@unpack_Psiphi R n) /\ cancel (@unpack_Psiphi R n) (@pack_Psiphi R n)
    & cancel (@pack_Sv R n) (@unpack_Sv R n) /\ cancel (@unpack_Sv R n) (@pack_Sv R n)].
Proof.
by split; split; [exact: abcej_unpack|exact: abcej_pack|exact: abc_unpack|exact: abc_pack|exact: Psiphi_unpack|exact: Psiphi_pack|exact: Sv_unpack|exact: Sv_pack].
Qed.
Lemma C42_tf_l : [/\ cancel (@tf_pack_abcej R n) (@tf_unpack_abcej R n) /\ cancel (@tf_unpack_abcej R n) (@tf_pack_abcej R n),
      cancel (@tf_pack_abc R n) (@tf_unpack_abc R n) /\ cancel (@tf_unpack_abc R n) (@tf_pack_abc R n),
      cancel (@tf_pack_Psiphi R n) (@tf_unpack_Psiphi R n) /\ cancel (@tf_unpack_Psiphi R n) (@tf_pack_Psiphi R n)
    & cancel (@tf_pack_Sv R n) (@tf_unpack_Sv R n) /\ cancel (@tf_unpack_Sv R n) (@tf_pack_Sv R n)].
Proof.
by split; split; [exact: abcej_unpack_tf|exact: abcej_pack_tf|exact: abc_unpack_tf|exact: abc_pack_tf|exact: Psiphi_unpack_tf|exact: Psiphi_pack_tf|exact: Sv_unpack_tf|exact: Sv_pack_tf].
Qed.
Lemma C42_layout_l (e : elem R n) (f : 'M[R]_n * 'cV[R]_n * 'M[R]_n) (g : 'M[R]_n * 'cV[R]_n) :
  [/\ forall i j, ent (tf_pack_abcej e) i j = ent (pack_abcej e) i j, forall i j, ent (tf_pack_abc f) i j = ent (pack_abc f) i j,
      tf_pack_Psiphi g = pack_Psiphi g & tf_pack_Sv g = pack_Sv g].
Proof. by split; [exact: abcej_tf_np|exact: abc_tf_np|exact: Psiphi_tf_np|exact: Sv_tf_np]. Qed.
Lemma C42_linear_l (a : R) (e f : elem R n) (x y : 'M[R]_(n, 3 * n + 2))
    (x' y' : 'M[R]_(n, n + (n + (n + (1 + 1))))) (g h : 'M[R]_n * 'cV[R]_n) (z w : 'M[R]_(n, n + 1))
    (i j : 'M[R]_n * 'cV[R]_n * 'M[R]_n) :
  let lin e f := Elem (a *: eA e + eA f) (a *: eb e + eb f) (a *: eC e + eC f) (a *: eeta e + eeta f) (a *: eJ e + eJ f) in
  [/\ pack_abcej (lin e f) = a *: pack_abcej e + pack_abcej f /\ unpack_abcej (a *: x + y) = lin (unpack_abcej x) (unpack_abcej y),
      tf_pack_abcej (lin e f) = a *: tf_pack_abcej e + tf_pack_abcej f /\
      tf_unpack_abcej (a *: x' + y') = lin (tf_unpack_abcej x') (tf_unpack_abcej y'),
      pack_Psiphi (a *: g.1 + h.1, a *: g.2 + h.2) = a *: pack_Psiphi g + pack_Psiphi h /\
      unpack_Psiphi (a *: z + w) = (a *: (unpack_Psiphi z).1 + (unpack_Psiphi w).1, a *: (unpack_Psiphi z).2 + (unpack_Psiphi w).2),
      pack_Sv (a *: g.1 + h.1, a *: g.2 + h.2) = a *: pack_Sv g + pack_Sv h /\
      unpack_Sv (a *: z + w) = (a *: (unpack_Sv z).1 + (unpack_Sv w).1, a *: (unpack_Sv z).2 + (unpack_Sv w).2)
    & pack_abc (a *: i.1.1 + j.1.1, a *: i.1.2 + j.1.2, a *: i.2 + j.2) = a *: pack_abc i + pack_abc j].
Proof.
split; [split; [exact: abcej_pack_lin|exact: abcej_unpack_lin]|split; [exact: abcej_pack_tf_lin|exact: abcej_unpack_tf_lin]|
 split; [exact: Psiphi_pack_lin|exact: Psiphi_unpack_lin]|split; [exact: Psiphi_pack_lin|exact: Psiphi_unpack_lin]|exact: abc_pack_lin].
Qed.
Variable P : clqt R n m p pT.
Lemma C43_np_l (x0 : 'cV[R]_n) (Ks : seq 'M[R]_(m, n)) (ds : seq 'cV[R]_m) (blocks steps : nat) (dt t0 : option R) (forward : bool) :
  ((blocks * steps)%N = size Ks ->
     clqt_parForwardPass P x0 Ks ds blocks steps dt t0 forward false = clqt_seqForwardPass P x0 Ks ds dt t0 false) /\
  ((blocks * steps)%N <> size Ks -> clqt_parForwardPass P x0 Ks ds blocks steps dt t0 forward false = None).
Proof. by split; [exact: par_forward_eq_l | exact: par_forward_size_l]. Qed.
Let Upos := forall t, symm (kU P t) /\ pd (kU P t).
Lemma C45_backward_l t (e : elem R n) y : Upos -> bwpass_bw_ode_f P (pack_abcej e) t = Some y ->
  exists delta B, [/\ 0 < delta, 0 <= B & forall h, 0 < h -> h <= delta ->
    exists f e', [/\ stage_elem (euler_stage P t h) = Some f, combine_abcej f e = Some e' &
      elem_within (B * h ^+ 2) e' (elem_move (- h) (unpack_abcej y) e)]].
Proof. by move=> U; exact: euler_backward_ode. Qed.
Lemma C45_forward_l t (e : elem R n) y : Upos -> bwpass_fw_ode_f P (pack_abcej e) t = Some y ->
  exists delta B, [/\ 0 < delta, 0 <= B & forall h, 0 < h -> h <= delta ->
    exists f e', [/\ stage_elem (euler_stage P t h) = Some f, combine_abcej e f = Some e' &
      elem_within (B * h ^+ 2) e' (elem_move h (unpack_abcej y) e)]].
Proof. by move=> U; exact: euler_forward_ode. Qed.
Lemma C45_same_l (t : R) (e : elem R n) : Upos ->
  (forall y, bwpass_bw_ode_f P (pack_abcej e) t = Some y ->
     exists z, riccati_ode_f P (pack_Sv (eJ e, eeta e)) t = Some z /\ unpack_Sv z = (eJ (unpack_abcej y), eeta (unpack_abcej y))) /\
  (forall y, bwpass_fw_ode_f P (pack_abcej e) t = Some y ->
     exists z, fwdbwdpass_ode_f P (pack_abc (eA e, eb e, eC e)) t = Some z /\
       unpack_abc z = (eA (unpack_abcej y), eb (unpack_abcej y), eC (unpack_abcej y))).
Proof. by move=> U; split; [exact: same_riccati | exact: same_abc]. Qed.
Lemma C46_seq_l (steps : nat) (dt t0 : option R) Ks ds Ss vs :
  symm (kXT P) -> clqt_seqBackwardPass P steps dt t0 None None = Some (Ks, ds, Ss, vs) ->
  [/\ size Ks = steps, size ds = steps, size Ss = steps.+1, size vs = steps.+1 &
    [/\ forall Q, Q \in Ss -> symm Q, last 0 Ss = (kHT P)^T *m kXT P *m kHT P & last 0 vs = (kHT P)^T *m kXT P *m krT P]].
Proof.
move=> sX; have sQ : symm (or_else None (ST P)) by exact: symm_cong.
move=> /(@seq_backward_spec _ _ _ _ _ _ _ _ _ None None _ _ _ _ sQ) [-> -> [A [B [-> -> sA sB H]]]].
by rewrite !size_rcons sA sB !last_rcons; split.
Qed.
Lemma C46_returns_l (steps : nat) (dt t0 : option R) : Upos -> (0 < steps)%N \/ dt <> None ->
  exists r, clqt_seqBackwardPass P steps dt t0 None None = Some r.
Proof.
move=> U H; apply: (seq_backward_total U); case: dt H => [h|] //= [|//].
by case: steps.
Qed.
Lemma C68_seq_l : Upos ->
  [/\ forall steps dt t0 Q v, tf_seq_backwardpass P steps dt t0 Q v =
        omap (fun r => let: (Ks, ds, Ss, vs) := r in (Ss, vs, Ks, ds))
          (clqt_seqBackwardPass P steps (Some dt) (Some t0) (Some Q) (Some v)),
      forall x0 Ks ds dt t0 zoh, size Ks = size ds -> (0 < size ds)%N ->
        tf_seq_forwardpass P x0 Ks ds dt t0 zoh =
        omap (fun z => (z.2, z.1)) (clqt_seqForwardPass P x0 Ks ds (Some dt) (Some t0) zoh)
    & forall x0 steps dt t0 A b C, tf_seq_fwdbwdpass P steps dt t0 (A, b, C) =
        clqt_seqFwdBwdPass P x0 steps (Some dt) (Some t0) (Some A) (Some b) (Some C)].
Proof.
move=> U; have U' := tf_ULT_pos U; split; [exact: seq_backward_tf | exact: seq_forward_tf | exact: seq_fwdbwd_tf].
Qed.
Lemma C68_par_bwd_l (blocks steps : nat) (dt t0 : R) (forward : bool) (mp : nat) :
  Upos -> symm (kXT P) -> psd (kXT P) -> (0 < steps)%N -> (blocks + 1 < 2 * mp)%N ->
  (forall k e, (k < blocks)%N -> block_elem P dt t0 steps forward k = Some e -> psd (eC e) /\ psd (eJ e)) ->
  tf_par_backwardpass P blocks steps dt t0 (tf_ST P) (tf_vT P) forward mp =
  omap (fun r => let: (Ks, ds, Ss, vs) := r in (Ss, vs, Ks, ds))
    (clqt_parBackwardPass P blocks steps (Some dt) (Some t0) forward).
Proof. by move=> U sX pX s0 lim bp; have U' := tf_ULT_pos U; exact: par_backward_tf. Qed.
Lemma C68_par_fb_l x0 Ks ds Ss vs (blocks steps : nat) (dt t0 : R) (forward : bool) (mp : nat) us xs :
  Upos -> (0 < steps)%N -> (0 < blocks)%N -> (blocks + 1 < 2 * mp)%N -> size ds = size Ks -> size vs = size Ss ->
  (forall k e, (k < blocks)%N -> block_elem P dt t0 steps forward k = Some e -> psd (eC e) /\ psd (eJ e)) ->
  clqt_parFwdBwdPass P x0 Ks ds Ss vs blocks steps (Some dt) (Some t0) forward = Some (us, xs) ->
  tf_par_fwdbwdpass P blocks steps x0 Ss vs Ks ds dt t0 forward mp = Some (xs, us).
Proof. by move=> U s0 b0 lim h1 h2 bp; have U' := tf_ULT_pos U; exact: par_fwdbwd_tf. Qed.
Lemma dt_orE dt k h : dt_or P dt [:: k] = Some h -> if dt is Some h' then h = h' else h = kT P / k%:R.
Proof. by case: dt => [h'|] /=; [case=> -> | case: (k == 0%N) => // -[->]]. Qed.
Lemma C70_backward_l (steps : nat) (dt t0 : option R) Q v Ks ds Ss vs : Upos ->
  clqt_seqBackwardPass P steps dt t0 Q v = Some (Ks, ds, Ss, vs) ->
  exists h, (if dt is Some h' then h = h' else h = kT P / steps%:R) /\
  let tau i := (if t0 is Some t then t else 0) + i%:R * h in
  forall i, (i < steps)%N -> exists y,
    [/\ classical_step (V := matrix_lmodType R n (n + 1)) (riccati_ode_f P) (- h) (pack_Sv (nth 0 Ss i.+1, nth 0 vs i.+1)) (tau i.+1) y,
        nth 0 Ss i = 2%:R^-1 *: ((unpack_Sv y).1 + (unpack_Sv y).1^T), nth 0 vs i = (unpack_Sv y).2,
        nth 0 Ks i = invmx (kU P (tau i)) *m (kL P (tau i))^T *m nth 0 Ss i
      & nth 0 ds i = invmx (kU P (tau i)) *m (kL P (tau i))^T *m nth 0 vs i].
Proof.
move=> U /seq_backward_steps [h [E H]]; exists h; split; first exact: dt_orE E.
move=> tau i hi; have [y [ult [H1 H2 H3 H4 [H5 H6]]]] := H i hi; exists y.
have [sU pU] := U (tau i); have E2 : Some ult = Some (invmx (kU P (tau i)) *m (kL P (tau i))^T) by rewrite -H4; exact: ULT_pos.
by case: E2 => <-.
Qed.
Lemma C70_forward_l x0 Ks ds (dt t0 : option R) zoh us xs :
  clqt_seqForwardPass P x0 Ks ds dt t0 zoh = Some (us, xs) ->
  exists h, [/\ (if dt is Some h' then h = h' else h = kT P / (size Ks)%:R), size us = size Ks, size xs = (size Ks).+1, nth 0 xs 0 = x0 &
  forall i, (i < size Ks)%N ->
    nth 0 us i = - nth 0 Ks i *m nth 0 xs i + nth 0 ds i /\
    classical_step (V := matrix_lmodType R n 1)
      (fun x t => Some (kF P t *m x + kL P t *m (if zoh then nth 0 us i else - nth 0 Ks i *m x + nth 0 ds i) + kc P t))
      h (nth 0 xs i) ((if t0 is Some t then t else 0) + i%:R * h) (nth 0 xs i.+1)].
Proof.
move=> /seq_forward_steps [h [E H1 H2 H3 H4]]; exists h; split=> //; exact: dt_orE E.
Qed.
End Stmts.
