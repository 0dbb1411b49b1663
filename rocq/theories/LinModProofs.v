(** The matrix exponential of nilpotent matrices, and the discretisation. *)
From Coq Require Import Ring Field.
From mathcomp Require Import all_ssreflect all_algebra.
From Verif Require Import MxBase LinComb Rk4Proofs LqtModel LqtSpec FscModel LinModModel LinModSpec.
Import Order.TTheory GRing.Theory Num.Theory.
Set Implicit Arguments. Unset Strict Implicit. Unset Printing Implicit Defensive.
Local Open Scope ring_scope.

Section Pow.
Variable R : realFieldType.
Lemma mxpowE n (A : 'M[R]_n.+1) k : mxpow A k = A ^+ k.
Proof. by elim: k => [|k IH] //=; rewrite IH exprS. Qed.
Lemma mxpow_add n (A : 'M[R]_n) j k : mxpow A (j + k) = mxpow A j *m mxpow A k.
Proof. by elim: j => [|j IH] /=; rewrite ?mul1mx // IH mulmxA. Qed.
Lemma mxpow_ge n (A : 'M[R]_n) K k : (K <= k)%N -> mxpow A K = 0 -> mxpow A k = 0.
Proof. by move=> h A0; rewrite -(subnK h) mxpow_add A0 mulmx0. Qed.
(** a nilpotent n x n matrix has zero n-th power *)
Lemma nilp_bound n (A : 'M[R]_n) K : mxpow A K = 0 -> mxpow A n = 0.
Proof.
case: n A => [|n] A A0; first by apply/matrixP => -[].
rewrite mxpowE; rewrite mxpowE in A0.
have : mxminpoly A %| 'X ^+ K.
  by apply: mxminpoly_min; rewrite rmorphX /= horner_mx_X A0.
move=> dv.
have m0 : mxminpoly A != 0 by rewrite monic_neq0 // mxminpoly_monic.
have [k [q]] := multiplicity_XsubC (mxminpoly A) 0; rewrite m0 subr0 /= => q0 E.
have sq : size q == 1%N.
  rewrite -coprimepp; apply: (coprimep_dvdl (q := 'X ^+ K)); first by apply: dvdp_trans dv; rewrite E dvdp_mulr.
  by apply: coprimep_expr; rewrite coprimepX.
have [c c0 qE] := size_poly1P _ sq.
have le : (k <= n.+1)%N.
  have := dvdp_leq (monic_neq0 (char_poly_monic A)) (mxminpoly_dvd_char A).
  by rewrite size_char_poly E qE mul_polyC size_scale // size_polyXn ltnS.
suff Ak : A ^+ k = 0.
  have -> : A ^+ n.+1 = A ^+ (n.+1 - k) * A ^+ k by rewrite -exprD subnK.
  by rewrite Ak mulr0.
have : horner_mx A (mxminpoly A) = 0 by exact: mx_root_minpoly.
rewrite E qE mul_polyC linearZ /= rmorphX /= horner_mx_X => /eqP; rewrite scaler_eq0 (negPf c0) /= => /eqP ->.
by [].
Qed.
Lemma trunc_exp_series : expm_series (@trunc_exp R).
Proof.
move=> n A K A0; rewrite /trunc_exp.
have An := nilp_bound A0.
have ext (J J' : nat) : mxpow A J = 0 -> (J <= J')%N ->
    \sum_(k < J') (k`!)%:R^-1 *: mxpow A k = \sum_(k < J) (k`!)%:R^-1 *: mxpow A k.
  move=> J0 le; rewrite -!(big_mkord xpredT (fun k => (k`!)%:R^-1 *: mxpow A k)).
  rewrite (big_cat_nat _ _ _ _ le) //= [X in _ + X]big_nat_cond [X in _ + X]big1 ?addr0 // => i /andP[/andP[h _] _].
  by rewrite (mxpow_ge h J0) scaler0.
by case: (leqP K n) => h; [rewrite (ext K n) | rewrite (ext n K) // ltnW].
Qed.
End Pow.

Section Disc.
Variable R : realFieldType.
Add Ring Rr : (mc_ring R).
Add Field Rf : (mc_field R).
Ltac sfield := rsn R; field; repeat split; num_neq0 R.
Variable expm : forall n, 'M[R]_n -> 'M[R]_n.
Arguments expm {n}.
Hypothesis hexp : expm_series (@expm).
Lemma mxpowZ n a (A : 'M[R]_n) k : mxpow (a *: A) k = a ^+ k *: mxpow A k.
Proof. by elim: k => [|k IH] /=; rewrite ?scale1r // IH -scalemxAl -scalemxAr scalerA exprS. Qed.
Lemma exp3 n (A : 'M[R]_n) a : A *m (A *m A) = 0 ->
  expm (a *: A) = 1%:M + a *: A + (a ^+ 2 / 2%:R) *: (A *m A).
Proof.
move=> A3; rewrite (hexp (K := 3%N)); last by rewrite mxpowZ /= mulmx1 A3 scaler0.
under eq_bigr do rewrite mxpowZ scalerA mulrC.
rewrite !big_ord_recr big_ord0 /= add0r !mulmx1.
have [-> -> ->] : [/\ 0`! = 1%N, 1`! = 1%N & 2`! = 2%N] by [].
by rewrite !invr1 !mulr1 expr0 expr1 scale1r.
Qed.
Lemma exp4 n (A : 'M[R]_n) a : A *m (A *m (A *m A)) = 0 ->
  expm (a *: A) = 1%:M + a *: A + (a ^+ 2 / 2%:R) *: (A *m A) + (a ^+ 3 / 6%:R) *: (A *m (A *m A)).
Proof.
move=> A4; rewrite (hexp (K := 4%N)); last by rewrite mxpowZ /= mulmx1 A4 scaler0.
under eq_bigr do rewrite mxpowZ scalerA mulrC.
rewrite !big_ord_recr big_ord0 /= add0r !mulmx1.
have [-> -> -> ->] : [/\ 0`! = 1%N, 1`! = 1%N, 2`! = 2%N & 3`! = 6%N] by [].
by rewrite !invr1 !mulr1 expr0 expr1 scale1r.
Qed.
Lemma disc_l n q m (F : 'M[R]_n) (L : 'M[R]_(n, q)) (G : 'M[R]_(n, m)) Q dt : F *m F = 0 ->
  let W := L *m (if Q is Some Q' then Q' else 1%:M) *m L^T in
  lti_disc_u (@expm) F L G Q dt =
  (1%:M + dt *: F, dt *: G + (dt ^+ 2 / 2%:R) *: (F *m G),
   dt *: W + (dt ^+ 2 / 2%:R) *: (F *m W + W *m F^T) + (dt ^+ 3 / 3%:R) *: (F *m W *m F^T)).
Proof.
move=> F2 W; rewrite /lti_disc_u /lti_disc -/W.
have FT2 : F^T *m F^T = 0 by rewrite -trmx_mul F2 trmx0.
set Phi := block_mx F W 0 (- F^T); set Psi := block_mx F G 0 0.
have P2 : Phi *m Phi = block_mx 0 (F *m W - W *m F^T) 0 0.
  by rewrite /Phi mulmx_block F2 !mulmx0 !mul0mx mulmxN mulNmx mulmxN FT2 !addr0 !oppr0 add0r.
have P3 : Phi *m (Phi *m Phi) = block_mx 0 (- (F *m W *m F^T)) 0 0.
  rewrite P2 /Phi mulmx_block !mulmx0 !mul0mx !addr0 mulmxBr !mulmxA F2 !mul0mx !add0r.
  by [].
have P4 : Phi *m (Phi *m (Phi *m Phi)) = 0.
  rewrite P3 /Phi mulmx_block !mulmx0 !mul0mx !addr0 mulmxN !mulmxA F2 !mul0mx oppr0.
  by rewrite block_mx0.
have S2 : Psi *m Psi = block_mx 0 (F *m G) 0 0.
  by rewrite /Psi mulmx_block F2 !mulmx0 !mul0mx !addr0.
have S3 : Psi *m (Psi *m Psi) = 0.
  by rewrite S2 /Psi mulmx_block !mulmx0 !mul0mx !addr0 mulmxA F2 mul0mx block_mx0.
rewrite (exp4 dt P4) (exp3 dt S3) P3 P2 S2 /Phi /Psi (scalar_mx_block n m 1) (scalar_mx_block n n 1) !scale_block_mx !add_block_mx !block_mxKul !block_mxKur.
congr (_, _, _); first by rewrite !scaler0 !addr0.
- by rewrite add0r.
rewrite !scaler0 !addr0 add0r [(_ + _)^T]linearD /= [(_ *: F)^T]linearZ /= trmx1 mulmxDr mulmx1 -scalemxAr.
rewrite !mulmxDl -!scalemxAl !mulNmx mulmxDl mulNmx -[W *m F^T *m F^T]mulmxA FT2 mulmx0 -[F *m W *m F^T *m F^T]mulmxA FT2 mulmx0 oppr0 addr0.
rewrite !scaler0 !addr0.
set W1 := F *m W; set W2 := W *m F^T; set W3 := W1 *m F^T.
lmod; sfield.
Qed.
End Disc.
