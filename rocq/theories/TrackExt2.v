(** The forward value functions and the elements of the extended state. *)
From Coq Require Import Ring Field.
From mathcomp Require Import all_ssreflect all_algebra zify.
From Verif Require Import ScanModel ScanSpec ScanProofs ScanUse MxBase LqtModel LqtCore LqtElem LqtMore LinComb Rk4Model Rk4Spec Rk4Proofs ClqtModel ClqtPack ClqtFwd ClqtFwd2 ClqtBwd ClqtVal ScanRel ClqrModel ClqrSpec ClqrProofs TrackSpec TrackExt.
Import Order.TTheory GRing.Theory Num.Theory.
Set Implicit Arguments. Unset Strict Implicit. Unset Printing Implicit Defensive.
Local Open Scope ring_scope.
Local Arguments rk4_xt : simpl never.
Local Arguments rk4_xtp : simpl never.
Local Arguments rk4_x : simpl never.
Local Arguments rk4_xp : simpl never.

Section Blocks.
Variable R : realFieldType.
Variable n : nat.
Lemma inv_is k (M H : 'M[R]_k) : M *m H = 1%:M -> invmx M = H.
Proof. by move=> E; have [u _] := mulmx1_unit E; rewrite -[H]mul1mx -(mulVmx u) -mulmxA E mulmx1. Qed.
Lemma one_block : (1%:M : 'M[R]_(n + 1)) = block_mx 1%:M 0 0 1%:M. Proof. exact: scalar_mx_block. Qed.
Lemma unit_ublock (M : 'M[R]_n) (w : 'cV[R]_n) : (block_mx M w 0 1%:M \in unitmx) = (M \in unitmx).
Proof. by rewrite !unitmxE det_ublock det1 mulr1. Qed.
Lemma unit_lblock (M : 'M[R]_n) (w : 'rV[R]_n) : (block_mx M 0 w 1%:M \in unitmx) = (M \in unitmx).
Proof. by rewrite !unitmxE det_lblock det1 mulr1. Qed.
Lemma inv_ublock (M : 'M[R]_n) (w : 'cV[R]_n) : M \in unitmx -> invmx (block_mx M w 0 1%:M) = block_mx (invmx M) (- (invmx M *m w)) 0 1%:M.
Proof.
move=> u; apply: inv_is; rewrite mulmx_block one_block !(mulmx0, mul0mx, addr0, add0r, mulmx1, mul1mx) mulmxV //.
by rewrite mulmxN mulmxA mulmxV // mul1mx addNr.
Qed.
Lemma inv_lblock (M : 'M[R]_n) (w : 'rV[R]_n) : M \in unitmx -> invmx (block_mx M 0 w 1%:M) = block_mx (invmx M) 0 (- (w *m invmx M)) 1%:M.
Proof.
move=> u; apply: inv_is; rewrite mulmx_block one_block !(mulmx0, mul0mx, addr0, add0r, mulmx1, mul1mx) mulmxV //.
by rewrite subrr.
Qed.
Definition blk0 (C : 'M[R]_n) : 'M[R]_(n + 1) := block_mx C 0 0 0.
Definition blkJ (J : 'M[R]_n) (e : 'cV[R]_n) s : 'M[R]_(n + 1) := block_mx J (- e) (- e^T) s.
Lemma LU_ext C a b c d : 1%:M + blk0 C *m block_mx a b c d = block_mx (1%:M + C *m a) (C *m b) 0 1%:M.
Proof. by rewrite one_block mulmx_block add_block_mx !mul0mx !addr0 add0r. Qed.
Lemma LU'_ext J e s C : 1%:M + blkJ J e s *m blk0 C = block_mx (1%:M + J *m C) 0 (- (e^T *m C)) 1%:M.
Proof. by rewrite one_block mulmx_block add_block_mx !mulmx0 !addr0 add0r mulNmx. Qed.
Lemma solve_ext C (S : 'M[R]_(n + 1)) b :
  solve (1%:M + blk0 C *m S) (extend b) = omap (@extend R n) (solve (1%:M + C *m ulsubmx S) (b + C *m - ursubmx S)).
Proof.
rewrite -[S in LHS]submxK LU_ext /solve unit_ublock; case: ifP => // u; rewrite inv_ublock //; congr (Some _).
by rewrite /extend mul_block_col mul0mx add0r !mulmx1 mulmxDr !mulmxN.
Qed.
End Blocks.

Section Ext.
Variable R : realFieldType.
Variable expm : forall n, 'M[R]_n -> 'M[R]_n.
Variables n m p pT : nat.
Variable P : clqt R n m p pT.
Hypothesis cP : constant P.
Hypothesis wP : weights_ok P.
Local Notation q := (extended P).
Local Notation ult := (invmx (kU P 0) *m (kL P 0)^T).
Local Notation N := (kL P 0 *m ult).
Local Notation ult1 := (row_mx ult (0 : 'cV[R]_m)).
Local Notation N1 := (block_mx N (0 : 'cV[R]_n) (0 : 'rV[R]_n) (0 : 'M[R]_1)).
Local Notation abc k := ('M[R]_k * 'cV[R]_k * 'M[R]_k)%type.

(** ** forward value functions; the matrix A does not matter *)
Definition fext (e : abc n) (e' : abc (n + 1)) : Prop := e'.1.2 = extend e.1.2 /\ e'.2 = blk0 e.2.
Definition fext' (e : abc n) (e' : abc (n + 1)) : Prop := e'.1.2 = col_mx e.1.2 0 /\ e'.2 = blk0 e.2.
Lemma fext_rhs t e e' : fext e e' -> fext' (abc_rhs P t N e) (qabc_rhs q N1 e').
Proof.
case: e => -[A b] C; case: e' => -[A' b'] C' [h1 h2]; have {h1} -> : b' = extend b := h1; have {h2} -> : C' = blk0 C := h2.
rewrite /abc_rhs /qabc_rhs (X_ext wP).
case: (cP t) => -[-> _] [-> _] -> -> ->; split=> /=.
  rewrite /extend /blk0 mulmx_block !mul_block_col !(mul0mx, mulmx0, addr0, mulmx1) opp_col_mx add_col_mx oppr0 addr0; congr col_mx.
  by rewrite mulmxN !mulmxA !opprD opprK; abel.
rewrite /blk0 tr_block_mx !trmx0 !mulmx_block !(mul0mx, mulmx0, addr0, add0r) opp_block_mx !add_block_mx !oppr0 !addr0.
by rewrite !mulmxA.
Qed.
Lemma abc_lin k x x' a : unpack_abc (a *: x + x' : 'M[R]_(k, 2 * k + 1)) =
  (a *: (unpack_abc x).1.1 + (unpack_abc x').1.1, a *: (unpack_abc x).1.2 + (unpack_abc x').1.2, a *: (unpack_abc x).2 + (unpack_abc x').2).
Proof. exact: abc_unpack_lin. Qed.
Lemma abc0 k : unpack_abc (0 : 'M[R]_(k, 2 * k + 1)) = (0, 0, 0). Proof. by rewrite /unpack_abc !get0. Qed.
Lemma fextD e e' d d' : fext e e' -> fext' d d' -> fext (e.1.1 + d.1.1, e.1.2 + d.1.2, e.2 + d.2) (e'.1.1 + d'.1.1, e'.1.2 + d'.1.2, e'.2 + d'.2).
Proof.
move=> [h1 h2] [h3 h4]; split; first by rewrite /= h1 h3 /extend add_col_mx addr0.
by rewrite /= h2 h4 /blk0 add_block_mx !addr0.
Qed.
Lemma fextD' e e' d d' : fext' e e' -> fext' d d' -> fext' (e.1.1 + d.1.1, e.1.2 + d.1.2, e.2 + d.2) (e'.1.1 + d'.1.1, e'.1.2 + d'.1.2, e'.2 + d'.2).
Proof.
move=> [h1 h2] [h3 h4]; split; first by rewrite /= h1 h3 add_col_mx addr0.
by rewrite /= h2 h4 /blk0 add_block_mx !addr0.
Qed.
Lemma fextZ a e e' : fext' e e' -> fext' (a *: e.1.1, a *: e.1.2, a *: e.2) (a *: e'.1.1, a *: e'.1.2, a *: e'.2).
Proof.
move=> [h1 h2]; split; first by rewrite /= h1 scale_col_mx scaler0.
by rewrite /= h2 /blk0 scale_block_mx !scaler0.
Qed.
Lemma abc_step_ext dt t e e' : fext e e' -> orel fext (abc_step P dt t e) (qabc_step q dt e').
Proof.
move=> h; rewrite /abc_step /qabc_step.
apply: (@orel_bind _ _ _ _ (fun (x : 'M[R]_(n, 2 * n + 1)) (y : 'M[R]_(n + 1, 2 * (n + 1) + 1)) => fext (unpack_abc x) (unpack_abc y))); last first.
  move=> x y; case: (unpack_abc x) => -[A b] C; case: (unpack_abc y) => -[A' b'] C' [/= -> ->]; split=> //=.
  by have := symz_block C (0 : 'cV[R]_n) (0 : 'M[R]_1); rewrite trmx0 symz1.
apply: (@rk4_rel R (matrix_lmodType R n (2 * n + 1)) (matrix_lmodType R (n + 1) (2 * (n + 1) + 1)) _
  (fun (x : 'M[R]_(n, 2 * n + 1)) (y : 'M[R]_(n + 1, 2 * (n + 1) + 1)) => fext' (unpack_abc x) (unpack_abc y))).
- by move=> v w dv dw h1 h2; have := abc_lin v dv 1; have := abc_lin w dw 1; rewrite !scale1r => -> ->; exact: fextD h1 h2.
- by move=> a v w h1; have := abc_lin v 0 a; have := abc_lin w 0 a; rewrite !addr0 !abc0 !addr0 => -> ->; exact: (fextZ a h1).
- by move=> v w dv dw h1 h2; have := abc_lin v dv 1; have := abc_lin w dw 1; rewrite !scale1r => -> ->; exact: fextD' h1 h2.
- move=> v w s h1; rewrite /fwdbwdpass_ode_f /qfwdbwdpass_ode_f (ULT_const cP wP) (qULT_ext wP) !obindS N_ext /orel !abc_unpack.
  by case: (cP s) => -[_ ->] _ _ _ _; exact: fext_rhs.
by rewrite !abc_unpack.
Qed.
Lemma abc_loop_ext dt t0 steps k e e' : fext e e' -> orel (List.Forall2 fext) (abc_loop P dt t0 steps k e) (qabc_loop q dt steps e').
Proof.
elim: steps k e e' => [|s IH] k e e' h; first by constructor.
rewrite -[abc_loop _ _ _ _ _ _]/(let? e' := abc_step P dt (t0 + k%:R * dt) e in let? l := abc_loop P dt t0 s k.+1 e' in Some (e :: l)).
rewrite -[qabc_loop _ _ _ _]/(let? e1 := qabc_step q dt e' in let? l := qabc_loop q dt s e1 in Some (e' :: l)).
apply: orel_bind (abc_step_ext _ _ h) _ => a b hab; apply: orel_bind (IH k.+1 _ _ hab) _ => l l' hl; by constructor.
Qed.
Lemma combine_ext (Ks : seq 'M[R]_(m, n + 1)) (Ss : seq 'M[R]_(n + 1)) es es' : List.Forall2 fext es es' ->
  combineForwardBackward (map lsubmx Ks) (map (fun K => - rsubmx K) Ks) (map ulsubmx Ss) (map (fun S => - ursubmx S) Ss) es =
  omap (@split_states R n m) (qcombineForwardBackward Ks Ss es').
Proof.
elim: Ss Ks es es' => [|S Ss IH] Ks es es' //= h; case: h => [|[[A b] C] [[A' b'] C'] l l' [/= -> ->] hl] //.
rewrite solve_ext; case: (solve _ _) => [x|] //; case: Ks => [|K Ks] /=.
  have := IH [::] _ _ hl; rewrite /= => ->; case: (qcombineForwardBackward _ _ _) => [[us xs]|] //=.
  by rewrite /split_states /= /extend col_mxKu.
have -> : - K *m extend x = - lsubmx K *m x - rsubmx K.
  by rewrite -{1}(hsubmxK K) /extend opp_row_mx mul_row_col mulmx1.
rewrite (IH _ _ _ hl); case: (qcombineForwardBackward _ _ _) => [[us xs]|] //=.
by rewrite /split_states /= /extend col_mxKu.
Qed.
Theorem seq_fwdbwd_ext x0 steps dt t0 Ks Ss :
  (let? l := clqt_seqFwdBwdPass P x0 steps dt t0 None None None in
   combineForwardBackward (map lsubmx Ks) (map (fun K => - rsubmx K) Ks) (map ulsubmx Ss) (map (fun S => - ursubmx S) Ss) l) =
  omap (@split_states R n m) (let? l := clqr_seqFwdBwdPass q (extend x0) steps dt None None None Rk4 in qcombineForwardBackward Ks Ss l).
Proof.
rewrite /clqt_seqFwdBwdPass /clqr_seqFwdBwdPass /qdt_or /dt_or [qT q]/=.
case: (match dt with Some _ => _ | None => _ end) => [d|//]; rewrite !obindS.
have /(abc_loop_ext d (or_else t0 0) steps 0) : fext (0, x0, 0) (0, extend x0, 0).
  by split=> //=; rewrite /blk0 block_mx_const.
rewrite -[or_else None 0]/(0 : 'M[R]_n); case: (abc_loop _ _ _ _ _ _) => [l|]; case: (qabc_loop _ _ _ _) => [l'|] // h.
exact: combine_ext h.
Qed.

(** ** elements *)
Definition eext (fl : bool) (e : elem R n) (e' : elem R (n + 1)) : Prop :=
  [/\ symm_elem e, eC e' = blk0 (eC e), eeta e' = 0, exists s, eJ e' = blkJ (eJ e) (eeta e) s &
    (eA e' = block_mx (eA e) (eb e) 0 1%:M /\ eb e' = 0) \/ [/\ eA e' = 0, eA e = 0 & fl -> eb e' = extend (eb e)]].
End Ext.
