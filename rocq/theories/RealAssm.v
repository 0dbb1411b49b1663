(** The matrix exponential over the real numbers meets what the models assume of scipy's expm. *)
From Coq Require Import Reals Lra.
From Coquelicot Require Import Rbar Lim_seq Series PSeries Derive Hierarchy.
From mathcomp Require Import all_ssreflect all_algebra.
From Verif Require Import RealF MxBase LinModSpec ClqtSpec ClqrModel ClqrSpec RealExpSpec RealExp.
Import Order.TTheory GRing.Theory Num.Theory.
Set Implicit Arguments. Unset Strict Implicit. Unset Printing Implicit Defensive.
Local Open Scope ring_scope.
Delimit Scope R_scope with Re.

Theorem expmR_natural : natural_exp expmR.
Proof. by split; [exact: expm_tr | exact: expm_natural]. Qed.

Lemma pser2 n (A : 'M[Rf]_n) i j (g : Rf) :
  PSeries (coef A i j) g = coef A i j 0 + g * (coef A i j 1 + g * (PSeries (PS_decr_1 (PS_decr_1 (coef A i j))) g : Rf)).
Proof.
have h1 : ex_pseries (PS_decr_1 (coef A i j)) g by apply: CV_radius_inside; rewrite CV_radius_decr_1 coef_radius.
by rewrite (PSeries_decr_1 _ _ (coef_ex A i j g)) (PSeries_decr_1 _ _ h1).
Qed.
Definition tail_bound n (A : 'M[Rf]_n) i j : Rf := Series (fun k => Rabs (PS_decr_1 (PS_decr_1 (coef A i j)) k)).
Lemma tail_le n (A : 'M[Rf]_n) i j (g : Rf) : `|g| <= 1 -> `|PSeries (PS_decr_1 (PS_decr_1 (coef A i j))) g : Rf| <= tail_bound A i j.
Proof.
move=> g1; set c := PS_decr_1 _.
have ex1 : ex_series (fun k => Rabs (c k)).
  have := @CV_disk_inside c 1; rewrite /c !CV_radius_decr_1 coef_radius => /(_ I).
  by apply: ex_series_ext => k; rewrite pow1 Rmult_1_r.
have le k : (0 <= Rabs (c k * pow g k) <= Rabs (c k))%Re.
  split; first exact: Rabs_pos.
  apply/RleP; rewrite !RabsE RmultE normrM powE normrX ler_pimulr //; exact: exprn_ile1.
have ex2 : ex_series (fun k => Rabs (c k * pow g k)).
  apply: (ex_series_le (fun k => Rabs (c k * pow g k)) (fun k => Rabs (c k))) ex1 => k.
  by rewrite /norm /= /abs /= Rabs_Rabsolu; exact: (proj2 (le k)).
apply/RleP; apply: (Rle_trans _ (Series (fun k => Rabs (c k * pow g k)))).
  by apply: Series_Rabs.
by apply: Series_le ex1 => k; exact: le.
Qed.
Theorem expmR_group n (M : 'M[Rf]_n) : exponential_of expmR M.
Proof.
split; first by move=> a b; exact: expm_add.
split; first exact: expm0.
exists 1, (\sum_i \sum_j tail_bound M i j); split; first exact: ltr01.
have t0 i j : 0 <= tail_bound M i j by apply: le_trans (tail_le M i j (g := 0) _); rewrite ?normr0 ?ler01.
move=> g g1 i j; rewrite add0r scale0r expm0 expmE pser2 !mxE /coef /= mulmx1 mxE !divr1.
have -> : (i == j)%:R + g * (M i j + g * PSeries (PS_decr_1 (PS_decr_1 (coef M i j))) g) - ((i == j)%:R + g * M i j) =
  g ^+ 2 * PSeries (PS_decr_1 (PS_decr_1 (coef M i j))) g :> Rf.
  by rewrite mulrDr addrA [X in X - _]addrC addrK expr2 mulrA.
rewrite normrM normrX mulrC -normrX (ger0_norm (sqr_ge0 g)) ler_wpmul2r ?sqr_ge0 //; apply: le_trans (tail_le M i j g1) _.
rewrite (bigD1 i) //= (bigD1 j) //= -addrA ler_addl addr_ge0 ?sumr_ge0 // => k _; exact: sumr_ge0.
Qed.
Theorem expmR_nilpotent : expm_series expmR.
Proof.
move=> n A K HK.
have zero k : (K <= k)%N -> mxpow A k = 0.
  by move=> le; rewrite -(subnK le); elim: (k - K)%N => [//|d IH]; rewrite addSn /= IH mulmx0.
apply/matrixP => i j; rewrite mxE; apply: is_series_unique.
rewrite summxE (eq_bigr (fun k : 'I_K => mxpow A k i j / k`!%:R)); last by move=> k _; rewrite mxE mulrC.
have fin k : sum_n (fun k => mxpow A k i j / k`!%:R) k = \sum_(l < k.+1) (mxpow A l i j / l`!%:R : Rf).
  by elim: k => [|k IH]; rewrite ?sum_O ?big_ord1 // sum_Sn IH [in RHS]big_ord_recr.
have stab k : (K <= k.+1)%N -> \sum_(l < k.+1) (mxpow A l i j / l`!%:R : Rf) = \sum_(l < K) (mxpow A l i j / l`!%:R).
  move=> le; rewrite -(subnK le) addnC -!(big_mkord xpredT (fun l => mxpow A l i j / l`!%:R)) (big_cat_nat _ (n := K)) ?leq_addr //=.
  rewrite [X in _ + X](_ : _ = 0) ?addr0 // big_nat_cond; apply: big1 => l /andP [/andP [h _] _].
  by rewrite zero // mxE mul0r.
apply: (filterlim_ext_loc (fun _ => \sum_(l < K) (mxpow A l i j / l`!%:R) : R)); last exact: filterlim_const.
by exists K => k hk; rewrite fin stab //; apply: leqW; exact/ssrnat.leP.
Qed.
