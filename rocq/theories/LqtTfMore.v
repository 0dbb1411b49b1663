(** Limits of lqt_tf.py: the horizon bound of the scan, and the parameters lqt_np_to_tf does not convert. *)
From Coq Require Import Ring Field Lia.
From mathcomp Require Import all_ssreflect all_algebra.
From Verif Require Import ScanModel TfScan MxBase LqtModel LqtSpec LqtCore LqtTfModel LqtTfSpec LqtTf LqtEx.
Import Order.TTheory GRing.Theory Num.Theory.
Set Implicit Arguments. Unset Strict Implicit. Unset Printing Implicit Defensive.
Local Open Scope ring_scope.

Section M.
Variable R : realFieldType.
Add Ring Rr : (mc_ring R).
Add Field Rf : (mc_field R).
Ltac sfield := rsn R; field; exact: two_neq0.

Lemma omap_size A B (f : A -> option B) l r : omap_seq f l = Some r -> size r = size l.
Proof.
elim: l r => [|x l IH] r /=; first by case=> <-.
by case: (f x) => //= y; case E: (omap_seq f l) => [l'|] //= -[<-]; rewrite /= (IH _ E).
Qed.
Lemma pow_coq k : Nat.pow 2 k = (2 ^ k)%N.
Proof. by elim: k => [//|k IH]; rewrite expnS -IH /= mul2n -addnn -plusE; lia. Qed.

Theorem tf_par_backward_long n m p (sts : seq (cstage R n m p)) f mp :
  (2 ^ (num_levels mp).+1 <= (size sts).+1)%N -> lqt_par_backwardpass sts f mp = None.
Proof.
move=> h; rewrite /lqt_par_backwardpass; case E: omap_seq => [em|] //; rewrite obindS.
suff -> : tfp_scan_rev (@lqt_par_comb_V R n) mp (em ++ [:: tf_elem_last f]) = None by [].
rewrite /tfp_scan_rev tfp_scan_too_long //.
  by rewrite /num_levels; apply: PeanoNat.Nat.le_max_r.
rewrite List.rev_length List.app_length /=.
have -> : length em = size sts by rewrite -(omap_size E); elim: (em) => //= ? ? ->.
rewrite !PeanoNat.Nat.add_1_r pow_coq.
by apply/ssrnat.leP.
Qed.

Definition dr_st : stage R 1 1 1 := Stage 1%:M 1%:M 0 1%:M 0 1%:M 0 1%:M 1%:M 0.
Definition dr_f : cfinal R 1 1 := CFinal 1%:M 0 0.
Theorem np_to_tf_drops : exists (sts : seq (stage R 1 1 1)) f (x0 : 'cV[R]_1),
  problem_ok (gen_lqt sts f) /\
  exists Ss vs Ks ds xs us us',
  [/\ lqt_seq_backwardpass (lqt_np_to_tf sts) f = Some (Ss, vs, Ks, ds),
      lqt_seq_forwardpass x0 (lqt_np_to_tf sts) Ks ds = Some (xs, us),
      size us' = size sts &
      total_cost (gen_lqt sts f) x0 us' < total_cost (gen_lqt sts f) x0 us].
Proof.
exists [:: dr_st], dr_f, 0; split.
  split=> /=; [exact: symm0|exact: psd0|split=> //].
  by apply: stage_ok_no_cross => //=; [exact: symm0|exact: psd0|exact: symm1|exact: pd1|exact: unitmx1].
have C a : total_cost (gen_lqt [:: dr_st] dr_f) 0 [:: a%:M] = (a - 1) ^+ 2 / 2%:R.
  rewrite /total_cost /= /final_cost /= /stage_cost /= /qf !mulmx0 !mul0mx !mulmx1 !mul1mx !subr0.
  rewrite !sc0 ?dot0r ?dot0l -raddfB tr_scalar_mx -scalar_mxM /sc !mxE eqxx !mulr1n -expr2; by sfield.
have G : tf_gain (CStage 1%:M 0 1%:M 1%:M 0 0 1%:M : cstage R 1 1 1) 0 0 = Some (0, 0).
  rewrite /tf_gain /chol_solve /= !(trmx1, mulmx0, mul0mx, mulmx1, addr0, subr0).
  by rewrite !solve_posE /= ?mulmx0 //; first [exact: symm1|exact: pd1].
do 4!eexists; exists [:: 0; 0], [:: 0], [:: 1%:M]; split.
- rewrite /lqt_seq_backwardpass /= /tf_ST /tf_vT /= !mul0mx !mulmx0 G /=; reflexivity.
- by rewrite /lqt_seq_forwardpass /= !(mulmx0, oppr0, addr0).
- by [].
- have -> : [:: (0 : 'cV[R]_1)] = [:: 0%:M] by rewrite raddf0.
  rewrite !C subrr sub0r expr0n /= mul0r sqrrN expr1n mul1r invr_gt0 ltr0n //.
Qed.

(** an admissible canonical problem: two states, two controls, any horizon *)
Definition ex_cstage (r : R) : cstage R 2 2 2 := CStage (exF R) (exc R) (exF R)^T (exF R) (r *: exc R) 2%:R%:M 2%:R%:M.
Definition ex_cfinal : cfinal R 2 2 := CFinal (exF R) (exc R) 1%:M.
Lemma ex_canon_ok T : problem_ok (np_lqt [seq ex_cstage k%:R | k <- iota 0 T] ex_cfinal).
Proof.
have p2 : pd (2%:R%:M : 'M[R]_2).
  by move=> u u0; rewrite qf_dot mul_scalar_mx dotZr mulr_gt0 ?ltr0n // dot_gt0.
split; [exact: symm1|exact: pd_psd (@pd1 R 2)|].
rewrite /np_lqt /stages; elim: (iota 0 T) => [//|k l IH]; split; last exact: IH.
by apply: stage_ok_no_cross => //=; try exact: tr_scalar_mx; [exact: pd_psd|exact: unitmx1].
Qed.
(** an admissible general problem with cross terms *)
Definition ex_gstages T : seq (stage R 2 2 2) := [seq ex_stage 1%:M k%:R | k <- iota 0 T].
Lemma ex_gen_ok T : problem_ok (gen_lqt (ex_gstages T) ex_cfinal) /\ all_stages (fun t => sZ t = 1%:M) (stages (gen_lqt (ex_gstages T) ex_cfinal)).
Proof.
split; first split; [exact: symm1|exact: pd_psd (@pd1 R 2)| |].
- rewrite /gen_lqt /stages /ex_gstages; elim: (iota 0 T) => [//|k l IH]; split; last exact: IH.
  exact: ex_stage_ok (unitmx1 _ _).
- by rewrite /gen_lqt /stages /ex_gstages; elim: (iota 0 T) => [//|k l IH]; split.
Qed.
End M.
