(** LQT.batchSolution returns the sequential solution. *)
From Coq Require Import Ring Field.
From mathcomp Require Import all_ssreflect all_algebra.
From Verif Require Import MxBase LqtModel LqtSpec LqtCore LqtProofs LqtBatchModel.
Import Order.TTheory GRing.Theory Num.Theory.
Set Implicit Arguments. Unset Strict Implicit. Unset Printing Implicit Defensive.
Local Open Scope ring_scope.

(** ** block vectors *)
Section Blocks.
Variable R : realFieldType.
Variables (T a b : nat).
Lemma sub_mul (D : 'I_T -> 'I_T -> 'M[R]_(a, b)) (x : 'cV[R]_(\sum_(i < T) b)) i :
  slice (\mxblock_(i < T, j < T) D i j *m x) i = \sum_j D i j *m slice x j.
Proof.
rewrite /slice -{1}[x]submxcolK mxblockEv mxcol_mul mxcolK mul_mxrow_mxcol.
by apply: eq_bigr => j _.
Qed.
Lemma sub_mul_diag (D : 'I_T -> 'M[R]_(a, b)) (x : 'cV[R]_(\sum_(i < T) b)) i :
  slice (\mxblock_(i < T, j < T) (if i == j then D i else 0) *m x) i = D i *m slice x i.
Proof.
rewrite sub_mul (bigD1 i) //= eqxx big1 ?addr0 // => j; rewrite eq_sym => /negPf ->.
by rewrite mul0mx.
Qed.
Lemma dot_blocks (x y : 'cV[R]_(\sum_(i < T) a)) : dot x y = \sum_i dot (slice x i) (slice y i).
Proof.
rewrite /slice /dot -{1}[x]submxcolK -{1}[y]submxcolK tr_mxcol mul_mxrow_mxcol /sc.
by rewrite summxE.
Qed.
End Blocks.

Section Batch.
Variable R : realFieldType.
Variables n m p : nat.
Add Ring Rr : (mc_ring R).
Add Field Rf : (mc_field R).
Ltac sfield := rsn R; field; exact: two_neq0.

(** nat-indexed trajectories *)
Fixpoint xk (st : nat -> stage R n m p) (us : nat -> 'cV[R]_m) (x : 'cV[R]_n) (k : nat) : 'cV[R]_n :=
  if k is k'.+1 then next (st k') (xk st us x k') (us k') else x.
Lemma xkS st us x k : xk st us x k.+1 = xk (fun i => st i.+1) (fun i => us i.+1) (next (st 0%N) x (us 0%N)) k.
Proof. by elim: k => [//|k IH]; rewrite [LHS]/= -/(xk st us x k.+1) IH. Qed.
Lemma mkseqS X (f : nat -> X) T : mkseq f T.+1 = f 0%N :: mkseq (fun i => f i.+1) T.
Proof. by rewrite /mkseq /= -[1%N]addn0 iotaDl -map_comp. Qed.
Lemma cost_mkseq (P : lqt R n m) T st us x :
  cost_to_go P (mkseq (fun i => VStage (st i)) T) x (mkseq us T) =
  \sum_(k < T) stage_cost (st k) (xk st us x k) (us k) + final_cost P (xk st us x T).
Proof.
elim: T st us x => [|T IH] st us x; first by rewrite big_ord0 add0r.
rewrite !mkseqS /= IH big_ord_recl -addrA; congr (_ + _).
rewrite -/(xk st us x T.+1) xkS; congr (_ + _).
by apply: eq_bigr => i _; rewrite -xkS.
Qed.
Lemma traj_mkseq T st us x :
  traj (mkseq (fun i => VStage (st i)) T) x (mkseq us T) = x :: mkseq (fun k => xk st us x k.+1) T.
Proof.
elim: T st us x => [//|T IH] st us x; rewrite !mkseqS /= IH; congr [:: _, _ & _].
by apply: eq_map => k; rewrite -xkS.
Qed.

Section T.
Variable T : nat.
Variable st : nat -> stage R n m p.
Variables (bXT : 'M[R]_p) (bHT : 'M[R]_(p, n)) (brT : 'cV[R]_p).
Variable x0 : 'cV[R]_n.
Definition ext k (u : 'cV[R]_(\sum_(i < T) k)) (i : nat) : 'cV[R]_k := oapp (slice u) 0 (insub i).
Lemma extE k (u : 'cV[R]_(\sum_(i < T) k)) (i : 'I_T) : ext u i = slice u i.
Proof. by rewrite /ext valK. Qed.
Lemma ext_seq k (u : 'cV[R]_(\sum_(i < T) k)) : [seq slice u i | i <- enum 'I_T] = mkseq (ext u) T.
Proof. by rewrite /mkseq -val_enum_ord -[RHS]map_comp; apply: eq_map => i; rewrite /= extE. Qed.

Notation bA := (bA T st). Notation bB := (bB T st). Notation bd := (bd T st x0).

Lemma slice_sub (q : nat) (E : 'I_T -> 'M[R]_(q, n)) (x : 'cV[R]_(\sum_(i < T) n)) (i : 'I_T) :
  slice (\mxblock_(i < T, j < T) (if (i == j.+1 :> nat) then E i else 0) *m x) i =
  (if (i : nat) is k.+1 then E i *m ext x k else 0).
Proof.
rewrite sub_mul; case Ei: (nat_of_ord i) => [|k].
  by rewrite big1 // => j _; rewrite mul0mx.
have kT : (k < T)%N by rewrite (leq_trans _ (ltnW (ltn_ord i))) // Ei.
rewrite (bigD1 (Ordinal kT)) //= eqxx -[k in RHS]/(nat_of_ord (Ordinal kT)) extE big1 ?addr0 //.
by move=> j jne; rewrite eqSS; case: eqP => [ek|_]; [case/eqP: jne; apply: val_inj | rewrite mul0mx].
Qed.
Lemma slice_A (x : 'cV[R]_(\sum_(i < T) n)) (i : 'I_T) :
  slice (bA *m x) i = ext x i - (if (i : nat) is k.+1 then sF (st i) *m ext x k else 0).
Proof.
have -> : bA = \mxblock_(i < T, j < T) (if i == j then 1%:M else 0 : 'M[R]_n) +
   \mxblock_(i < T, j < T) (if (i == j.+1 :> nat) then - sF (st i) else 0 : 'M[R]_n).
  rewrite -mxblockD; apply: eq_mxblock => a b; case: eqP => [->|_]; last by rewrite add0r.
  by rewrite -[X in X == _.+1]addn0 -addn1 eqn_add2l addr0.
rewrite mulmxDl /slice submxcolD -!/(slice _ _) sub_mul_diag mul1mx extE; congr (_ + _).
rewrite (slice_sub (fun i => - sF (st i))); case: (nat_of_ord i) => [|k]; first by rewrite oppr0.
by rewrite mulNmx.
Qed.

Lemma sliceP k (x y : 'cV[R]_(\sum_(i < T) k)) : (forall i, slice x i = slice y i) -> x = y.
Proof. by move=> E; apply/(mxcolP (p_ := fun _ => k)) => i; exact: E. Qed.
Lemma slice_col k (f : 'I_T -> 'cV[R]_k) i : slice (\mxcol_(i < T) f i) i = f i.
Proof. exact: (@mxcolK R T (fun _ => k) 1 f i). Qed.
Lemma sliceD k (x y : 'cV[R]_(\sum_(i < T) k)) i : slice (x + y) i = slice x i + slice y i.
Proof. exact: submxcolD. Qed.
Lemma sliceB k (x y : 'cV[R]_(\sum_(i < T) k)) i : slice (x - y) i = slice x i - slice y i.
Proof. exact: submxcolB. Qed.
Lemma slice0 k i : slice (0 : 'cV[R]_(\sum_(i < T) k)) i = 0.
Proof. exact: submxcol0. Qed.

Lemma A_unit : bA \in unitmx.
Proof.
apply: unit_ker => x Ax.
have E (i : 'I_T) : ext x i = (if (i : nat) is k.+1 then sF (st i) *m ext x k else 0).
  by apply/subr0_eq; rewrite -slice_A Ax slice0.
have Z k : (k < T)%N -> ext x k = 0.
  elim: k => [|k IH] kT; rewrite -[X in ext x X]/(nat_of_ord (Ordinal kT)) E //=.
  by rewrite IH ?mulmx0 // ltnW.
by apply: sliceP => i; rewrite slice0 -extE Z.
Qed.
Lemma A_state (u : 'cV[R]_(\sum_(i < T) m)) (x : 'cV[R]_(\sum_(i < T) n)) : bA *m x = bB *m u + bd ->
  forall k, (k < T)%N -> ext x k = xk st (ext u) x0 k.+1.
Proof.
move=> Ax.
have E (i : 'I_T) : ext x i = (if (i : nat) is k.+1 then sF (st i) *m ext x k else 0) + sL (st i) *m ext u i +
   (if (i == 0%N :> nat) then scc (st i) + sF (st 0%N) *m x0 else scc (st i)).
  have := slice_A x i; rewrite Ax sliceD sub_mul_diag slice_col => e.
  by rewrite !extE; apply: (lincomb (esym e)); rewrite extE; abel.
elim=> [|k IH] kT; rewrite -[X in ext x X]/(nat_of_ord (Ordinal kT)) E /=.
  by rewrite /next; abel.
by rewrite IH ?(ltnW kT) // [in RHS]/next -/(next (st k) _ _) -/(xk st (ext u) x0 k.+1); abel.
Qed.
End T.

Section Cost.
Variable T' : nat.
Notation T := T'.+1.
Variable st : nat -> stage R n m p.
Variables (bXT : 'M[R]_p) (bHT : 'M[R]_(p, n)) (brT : 'cV[R]_p).
Variable x0 : 'cV[R]_n.
Notation P := (batch_lqt T st bXT bHT brT).
Notation bA := (bA T st). Notation bB := (bB T st). Notation bd := (bd T st x0).
Notation tH1 := (btH1 T st bHT). Notation tr1 := (btr1 T st brT). Notation tX := (btX T st bXT).
Notation tH0 := (btH0 T st). Notation tr0 := (btr0 T st x0).
Notation tZ := (btZ T st). Notation ts := (bts T st). Notation tU := (btU T st). Notation tM := (btM T st).

Definition Jx (u : 'cV[R]_(\sum_(i < T) m)) (x : 'cV[R]_(\sum_(i < T) n)) : R :=
  qf tX (tH1 *m x - tr1) / 2%:R + qf tU (tZ *m u - ts) / 2%:R + dot (tH0 *m x - tr0) (tM *m (tZ *m u - ts)).

Lemma cost_blocks u x : bA *m x = bB *m u + bd ->
  total_cost P x0 [seq slice u i | i <- enum 'I_T] = qf (sX (st 0%N)) (sH (st 0%N) *m x0 - sr (st 0%N)) / 2%:R + Jx u x.
Proof.
move=> Ax; have S := A_state Ax.
rewrite /total_cost ext_seq (cost_mkseq P T st (ext u) x0).
set X := xk st (ext u) x0.
have E1 : qf tX (tH1 *m x - tr1) = \sum_(i < T') qf (sX (st i.+1)) (sH (st i.+1) *m X i.+1 - sr (st i.+1))
    + qf bXT (bHT *m X T - brT).
  rewrite qf_dot dot_blocks big_ord_recr /=; congr (_ + _).
    apply: eq_bigr => i _; rewrite sub_mul_diag sliceB sub_mul_diag slice_col -extE /= S; last by rewrite ltnS ltnW.
    by rewrite /bX1 /bH1 /br1 /= ltn_ord -qf_dot.
  rewrite sub_mul_diag sliceB sub_mul_diag slice_col -extE /= S //.
  by rewrite /bX1 /bH1 /br1 /= ltnn -qf_dot.
have Ew i : slice (tZ *m u - ts) i = sZ (st i) *m ext u i - ss (st i).
  by rewrite sliceB sub_mul_diag slice_col extE.
have E2 : qf tU (tZ *m u - ts) = \sum_(i < T) qf (sU (st i)) (sZ (st i) *m ext u i - ss (st i)).
  by rewrite qf_dot dot_blocks; apply: eq_bigr => i _; rewrite sub_mul_diag Ew -qf_dot.
have E3 : dot (tH0 *m x - tr0) (tM *m (tZ *m u - ts)) =
   \sum_(i < T) dot (sH (st i) *m X i - sr (st i)) (sM (st i) *m (sZ (st i) *m ext u i - ss (st i))).
  rewrite dot_blocks; apply: eq_bigr => i _; rewrite sub_mul_diag Ew sliceB slice_sub slice_col; congr dot.
  case Ei: (nat_of_ord i) => [|k] /=; first by rewrite sub0r opprB.
  rewrite S //; by rewrite -ltnS -Ei ltnW // ltnS ltn_ord.
rewrite /Jx E1 E2 E3 {E1 E2 E3}.
rewrite /stage_cost !big_split /= big_ord_recl /= -!mulr_suml /final_cost /=.
have -> : \sum_(i < T') qf (sX (st (bump 0 i))) (sH (st (bump 0 i)) *m X (bump 0 i) - sr (st (bump 0 i))) =
  \sum_(i < T') qf (sX (st i.+1)) (sH (st i.+1) *m X i.+1 - sr (st i.+1)) by [].
rewrite -/(next (st T') _ _) -/(xk st (ext u) x0 T) -/X.
change (X 0%N) with x0; move: (\sum_(i < T') _) (\sum_(i < T) _) (\sum_(i < T) _) => a b c.
sfield.
Qed.

(** the quadratic function of the stacked controls *)
Definition AB := invmx bA *m bB.
Definition Ad := invmx bA *m bd.
Definition A1 := tH1 *m AB. Definition b1 := tr1 - tH1 *m Ad.
Definition A0 := tH0 *m AB. Definition b0 := tr0 - tH0 *m Ad.
Definition Hs := A1^T *m tX *m A1 + tZ^T *m tU *m tZ + A0^T *m tM *m tZ + tZ^T *m tM^T *m A0.
Definition rh := A1^T *m tX *m b1 + tZ^T *m tU *m ts + A0^T *m tM *m ts + tZ^T *m tM^T *m b0.
Definition Ju u := Jx u (AB *m u + Ad).

Lemma xu_eq u : bA *m (AB *m u + Ad) = bB *m u + bd.
Proof. by rewrite mulmxDr !mulmxA !mulmxV ?A_unit // !mul1mx. Qed.

Hypothesis okP : problem_ok P.
Lemma mkseq_ok N (st0 : nat -> stage R n m p) k :
  all_stages (fun s => stage_ok s) (mkseq (fun i => VStage (st0 i)) N) -> (k < N)%N -> stage_ok (st0 k).
Proof.
elim: N k st0 => [//|N IH] k st0; rewrite mkseqS /= => -[o1 o2].
by case: k => [//|k] kN; apply: (IH k (fun i => st0 i.+1)).
Qed.
Lemma st_ok k : (k < T)%N -> stage_ok (st k).
Proof. by apply: mkseq_ok; case: okP. Qed.
Lemma symm_diag k (D : 'I_T -> 'M[R]_k) : (forall i, symm (D i)) -> symm (\mxblock_(i < T, j < T) (if i == j then D i else 0)).
Proof.
move=> sD; rewrite /symm tr_mxblock; apply: eq_mxblock => i j; rewrite eq_sym.
by case: eqP => [->|_]; rewrite ?trmx0 // sD.
Qed.
Lemma tU_symm : symm tU.
Proof. by apply: symm_diag => i; have [] := st_ok (ltn_ord i). Qed.
Lemma tX_symm : symm tX.
Proof.
apply: symm_diag => i; rewrite /bX1; case: ifP => lt; last by case: okP.
by have [] := @st_ok i.+1 lt.
Qed.

Lemma Ju_exp u h : Ju (u + h) = Ju u + dot (Hs *m u - rh) h + qf Hs h / 2%:R.
Proof.
rewrite /Ju /Jx.
have eA v : tH1 *m (AB *m v + Ad) - tr1 = A1 *m v - b1 by rewrite /A1 /b1; mxabel.
have eA0 v : tH0 *m (AB *m v + Ad) - tr0 = A0 *m v - b0 by rewrite /A0 /b0; mxabel.
rewrite !eA !eA0 /Hs /rh; move: A1 b1 A0 b0 => C1 c1 C0 c0.
move: (tX_symm) (tU_symm); move: tX tU tZ ts tM => X1 U1 Z1 s1 M1 sX sU.
have -> : C1 *m (u + h) - c1 = (C1 *m u - c1) + C1 *m h by mxabel.
have -> : C0 *m (u + h) - c0 = (C0 *m u - c0) + C0 *m h by mxabel.
have -> : Z1 *m (u + h) - s1 = (Z1 *m u - s1) + Z1 *m h by mxabel.
rewrite !qfD // !qfDl !qfM.
have -> : qf (C0^T *m M1 *m Z1) h = dot (C0 *m h) (M1 *m (Z1 *m h)) by rewrite qf_dot -!mulmxA dotMr trmxK.
have -> : qf (Z1^T *m M1^T *m C0) h = dot (C0 *m h) (M1 *m (Z1 *m h)).
  by rewrite qf_dot -!mulmxA dotMr trmxK dotMr trmxK dotC.
have -> : (C1^T *m X1 *m C1 + Z1^T *m U1 *m Z1 + C0^T *m M1 *m Z1 + Z1^T *m M1^T *m C0) *m u -
   (C1^T *m X1 *m c1 + Z1^T *m U1 *m s1 + C0^T *m M1 *m s1 + Z1^T *m M1^T *m c0) =
   C1^T *m (X1 *m (C1 *m u - c1)) + Z1^T *m (U1 *m (Z1 *m u - s1)) + C0^T *m (M1 *m (Z1 *m u - s1)) + Z1^T *m (M1^T *m (C0 *m u - c0)).
  by mxabel.
move: (C1 *m u - c1) (C0 *m u - c0) (Z1 *m u - s1) => a1 a0 az.
rewrite mulmxDr !dotDl !dotDr -!dotMr.
have -> : dot (M1 *m az) (C0 *m h) = dot (C0 *m h) (M1 *m az) by rewrite dotC.
sfield.
Qed.
Lemma qfHs h : h != 0 -> 0 < qf Hs h.
Proof.
move=> h0; have [Ks [ds [Ss [vs [us [xs [_ _ [sz un] _ _]]]]]]] := seq_optimal x0 okP.
have sT : size (stages P) = T by exact: size_mkseq.
rewrite sT in sz un.
pose w : 'cV[R]_(\sum_(i < T) m) := \mxcol_(i < T) nth 0 us i.
have Ew : [seq slice w i | i <- enum 'I_T] = us.
  rewrite ext_seq; apply: (@eq_from_nth _ 0); first by rewrite size_mkseq sz.
  move=> i; rewrite size_mkseq => iT; rewrite nth_mkseq // -[X in ext w X]/(nat_of_ord (Ordinal iT)) extE slice_col //.
have J v : total_cost P x0 [seq slice v i | i <- enum 'I_T] = qf (sX (st 0%N)) (sH (st 0%N) *m x0 - sr (st 0%N)) / 2%:R + Ju v.
  by apply: cost_blocks; exact: xu_eq.
have lt v : v != 0 -> Ju w < Ju (w + v).
  move=> v0; have := un [seq slice (w + v) i | i <- enum 'I_T].
  rewrite -{2}Ew !J ltr_add2l; apply; first by rewrite size_map size_enum_ord.
  rewrite -Ew => e; case/eqP: v0; apply/sliceP => i; rewrite slice0.
  have : nth 0 [seq slice (w + v) i | i <- enum 'I_T] i = nth 0 [seq slice w i | i <- enum 'I_T] i by rewrite e.
  by rewrite !ext_seq !nth_mkseq // !extE sliceD => /eqP; rewrite -subr_eq0 addrAC subrr add0r => /eqP.
have := ltr_add (lt h h0) (lt (- h) _); rewrite oppr_eq0 => /(_ h0); rewrite !Ju_exp qfN dotNr.
by rewrite -subr_gt0; congr (_ < _); sfield.
Qed.
Lemma Hs_unit : Hs \in unitmx. Proof. by apply: pd_unit => h; apply: qfHs. Qed.

Theorem batch_eq : exists Ks ds Ss vs us xs,
  [/\ seqBackwardPass P = Some (Ks, ds, Ss, vs), seqForwardPass P x0 Ks ds = Some (us, xs) &
      batchSolution T st bXT bHT brT x0 = Some (us, xs)].
Proof.
have [Ks [ds [Ss [vs [us [xs [E1 E2 [sz un] Ex _]]]]]]] := seq_optimal x0 okP.
exists Ks, ds, Ss, vs, us, xs; split => //.
have sT : size (stages P) = T by exact: size_mkseq.
rewrite sT in sz un.
rewrite /batchSolution !(solve_unit _ (A_unit T st)) /= -/AB -/Ad -/A1 -/A0 -/b1 -/b0 -/Hs -/rh (solve_unit _ Hs_unit) /=.
set u := invmx Hs *m rh.
have g0 : Hs *m u - rh = 0 by rewrite /u mulKVmx ?Hs_unit // subrr.
have J v : total_cost P x0 [seq slice v i | i <- enum 'I_T] = qf (sX (st 0%N)) (sH (st 0%N) *m x0 - sr (st 0%N)) / 2%:R + Ju v.
  by apply: cost_blocks; exact: xu_eq.
pose w : 'cV[R]_(\sum_(i < T) m) := \mxcol_(i < T) nth 0 us i.
have Ew : [seq slice w i | i <- enum 'I_T] = us.
  rewrite ext_seq; apply: (@eq_from_nth _ 0); first by rewrite size_mkseq sz.
  move=> i; rewrite size_mkseq => iT; rewrite nth_mkseq // -[X in ext w X]/(nat_of_ord (Ordinal iT)) extE slice_col //.
have uw : u = w.
  apply/eqP/negPn/negP => ne.
  have lt1 : Ju w < Ju u.
    have := un [seq slice u i | i <- enum 'I_T]; rewrite -{2}Ew !J ltr_add2l; apply; first by rewrite size_map size_enum_ord.
    rewrite -Ew => e; case/negP: ne; apply/eqP/sliceP => i.
    have : nth 0 [seq slice u i | i <- enum 'I_T] i = nth 0 [seq slice w i | i <- enum 'I_T] i by rewrite e.
    by rewrite !ext_seq !nth_mkseq // !extE.
  have : Ju u < Ju (u + (w - u)).
    rewrite Ju_exp g0 dot0l addr0 ltr_addl divr_gt0 ?ltr0n // qfHs //.
    by rewrite subr_eq0 eq_sym.
  by rewrite addrC subrK => lt2; have := lt_trans lt1 lt2; rewrite ltxx.
rewrite uw Ew Ex (_ : stages P = mkseq (fun i => VStage (st i)) T) //.
have -> : us = mkseq (ext w) T by rewrite -Ew ext_seq.
rewrite traj_mkseq (solve_unit _ (A_unit T st)) [obind _ _]/=; congr (Some (_, _ :: _)).
rewrite ext_seq; apply/eq_in_map => k; rewrite mem_iota add0n => /andP [_ kT].
by apply: (A_state (u := w)) => //; rewrite mulKVmx // A_unit.
Qed.
End Cost.
End Batch.
