(** The one-dimensional example models: grids, step-size bounds, and the upwind scheme for the upwind model. *)
From Coq Require Import Ring Field.
From mathcomp Require Import all_ssreflect all_algebra zify.
From Verif Require Import Ord FscModel MxBase LinComb LqtModel ClqtModel Rk4Proofs HjbModel HjbSpec HjbProofs HjbFd HjbMain ShootModel ModGridSpec.
Import Order.TTheory GRing.Theory Num.Theory.
Set Implicit Arguments. Unset Strict Implicit. Unset Printing Implicit Defensive.
Local Open Scope ring_scope.

Section Grid.
Variable R : realFieldType.
Add Ring Rr : (mc_ring R).
Add Field Rf : (mc_field R).
Ltac sfield := rsn R; field; repeat split; num_neq0 R.
Lemma size_lin (a b : R) n : size (linspace a b n) = n. Proof. by rewrite size_map size_iota. Qed.
Lemma nth_lin (a b : R) n i : (i < n)%N -> nth 0 (linspace a b n) i = a + i%:R * ((b - a) / n.-1%:R).
Proof. by move=> lt; rewrite (nth_map 0%N) ?size_iota // nth_iota. Qed.
Lemma pred_neq0 n : (1 < n)%N -> n.-1%:R != 0 :> R. Proof. by case: n => [|[|n]] // _; rewrite pnatr_eq0. Qed.
Lemma lin_uniform (a b : R) n : (1 < n)%N -> uniform_grid a b n (linspace a b n).
Proof.
move=> n1; have n0 := ltnW n1; have d0 := pred_neq0 n1; split; first exact: size_lin.
- by rewrite nth_lin // mul0r addr0.
- by rewrite nth_lin ?prednK // mulrCA divff // mulr1 addrC subrK.
move=> i lt; rewrite !nth_lin ?(ltnW lt) // opprD addrACA subrr add0r -mulrBl -natrB // subSnn mul1r divfK //.
Qed.
Lemma lin_in (a b : R) n x : (1 < n)%N -> a <= b -> x \in linspace a b n -> a <= x <= b.
Proof.
move=> n1 ab /mapP [i]; rewrite mem_iota add0n => /= lt ->; have d0 := pred_neq0 n1.
have dp : 0 <= (b - a) / n.-1%:R by rewrite divr_ge0 ?ler0n // subr_ge0.
rewrite ler_addl mulr_ge0 ?ler0n //= -ler_subr_addl mulrCA ler_pimulr ?subr_ge0 // ler_pdivr_mulr; last by rewrite ltr0n; lia.
by rewrite mul1r ler_nat; lia.
Qed.
Lemma lin_dx (a b : R) n : (1 < n)%N -> nth 0 (linspace a b n) 1 - nth 0 (linspace a b n) 0 = (b - a) / n.-1%:R.
Proof. by move=> n1; rewrite !nth_lin ?(ltnW n1) // mul0r addr0 mul1r addrC addKr. Qed.
Lemma lin_first (a b : R) n : (0 < n)%N -> a \in linspace a b n.
Proof. by case: n => // n _; rewrite /linspace /= inE mul0r addr0 eqxx. Qed.
Lemma lin_last (a b : R) n : (1 < n)%N -> b \in linspace a b n.
Proof. by move=> n1; have [s _ e _] := @lin_uniform a b n n1; rewrite -{1}e mem_nth // s prednK // ltnW. Qed.

(** ** the upwind scheme for the upwind model *)
Section Up.
Variables (nx nu blocks steps : nat).
Hypotheses (nx0 : (2 < nx)%N) (nu0 : (1 < nu)%N) (b0 : (0 < blocks)%N) (s0 : (0 < steps)%N).
Local Notation M := (upwind_model R nx nu).
Local Notation dt := (md_T M / blocks%:R / steps%:R).
Local Notation dx := (nth 0 (md_xs M) 1 - nth 0 (md_xs M) 0).
Let nx1 : (1 < nx)%N := ltnW nx0.
Definition kink (c x : R) : R := if 0 <= x then - (c * x) else - x.
Lemma dt_gt0 : 0 < dt. Proof. by rewrite !divr_gt0 ?ltr0n ?ltr01. Qed.
Definition ds : R := 2%:R / nx.-1%:R.
Lemma dxE : dx = ds. Proof. by rewrite lin_dx // opprK. Qed.
Lemma ds_gt0 : 0 < ds. Proof. by rewrite /ds divr_gt0 ?ltr0n //; lia. Qed.
Lemma dx_gt0 : 0 < dx. Proof. by rewrite dxE ds_gt0. Qed.
Lemma xE i : (i < nx)%N -> nth 0 (md_xs M) i = i%:R * ds - 1.
Proof. by move=> lt; rewrite nth_lin // opprK addrC. Qed.
Lemma kinkE c i : (i < nx)%N -> nth 0 [seq kink c x | x <- md_xs M] i = kink c (nth 0 (md_xs M) i).
Proof. by move=> lt; rewrite (nth_map 0) // size_lin. Qed.
Lemma kink_pos c x : 0 <= x -> kink c x = - (c * x). Proof. by rewrite /kink => ->. Qed.
Lemma kink_neg c x : x <= 0 -> kink c x = - x.
Proof. rewrite /kink; case: ifP => // p q; have x0 : x = 0; [by apply/eqP; rewrite eq_le p q | by rewrite x0 mulr0]. Qed.
Lemma xS i : (i.+1 < nx)%N -> nth 0 (md_xs M) i.+1 = nth 0 (md_xs M) i + ds.
Proof. by move=> lt; rewrite !xE ?(ltnW lt) // -[i.+1]addn1 natrD mulrDl mul1r addrAC. Qed.
Lemma x_sign1 : nth 0 (md_xs M) 1 <= 0.
Proof. rewrite xE // mul1r subr_le0 /ds ler_pdivr_mulr ?mul1r ?ler_nat ?ltr0n; lia. Qed.
Lemma x_sign2 i : i.+2 = nx -> 0 <= nth 0 (md_xs M) i.
Proof.
move=> e; rewrite xE; last by lia.
rewrite subr_ge0 /ds mulrA ler_pdivl_mulr ?mul1r -?natrM ?ler_nat ?ltr0n; lia.
Qed.
Lemma quot c i u : (i < nx)%N -> 0 <= u ->
  let x := nth 0 (md_xs M) i in
  md_f M x u * upwind_quotient dx [seq kink c x | x <- md_xs M] i (md_f M x u) = (if 0 <= x then - (c * (u * x)) else - (u * x)).
Proof.
rewrite dxE; move=> li u0 x; have dn : ds != 0 by rewrite gt_eqF // ds_gt0.
have sV : size [seq kink c x | x <- md_xs M] = nx by rewrite size_map size_lin.
have qn (a b : R) : a = b + ds -> b <= 0 -> a <= 0 -> (kink c a - kink c b) / ds = - 1.
  by move=> -> h1 h2; rewrite !kink_neg // opprD opprK addrAC addNr add0r mulNr divff.
have qp (a b : R) : a = b + ds -> 0 <= b -> 0 <= a -> (kink c a - kink c b) / ds = - c.
  by move=> -> h1 h2; rewrite !kink_pos // mulrDr opprD opprK addrAC addNr add0r mulNr mulfK.
rewrite /upwind_quotient sV -[md_f M x u]/(u * x).
case: (altP (u * x =P 0)) => [->|ux]; first by rewrite mul0r mulr0 oppr0; case: ifP.
have up : 0 < u by rewrite lt_neqAle u0 eq_sym andbT; apply: contraNneq ux => ->; rewrite mul0r.
have xn : x != 0 by apply: contraNneq ux => ->; rewrite mulr0.
have uxp : (0 < u * x) = (0 < x) by rewrite pmulr_rgt0.
case: (ltP 0 x) => xs0; last first.
  have x0 : x < 0 by rewrite lt_neqAle xn.
  have xge : (0 <= x) = false by rewrite leNgt x0.
  have ug : ~~ (0 < u * x) = true by rewrite uxp -leNgt.
  rewrite xge ug orbT.
  case: (altP (i =P 0%N)) => [i0|i0].
    rewrite (kinkE c nx1) (kinkE c (ltnW nx1)) -mulrN1; congr (_ * _); apply: qn; first exact: xS.
      by move: xs0; rewrite /x i0.
    exact: x_sign1.
  rewrite !kinkE ?(leq_ltn_trans (leq_pred _) li) // -mulrN1; congr (_ * _); apply: qn => //.
    by rewrite -xS prednK // lt0n.
  by apply: le_trans xs0; rewrite /x -{2}(prednK (n := i)) ?lt0n // xS ?prednK ?lt0n // ler_addl ltW // ds_gt0.
have ug : ~~ (0 < u * x) = false by rewrite uxp xs0.
rewrite (ltW xs0) ug orbF mulrC -mulNr; congr (_ * _).
have i0 : (i == 0)%N = false.
  apply/negP => /eqP i0; move: xs0; rewrite /x i0 xE ?(ltnW nx1) // mul0r sub0r oppr_gt0 ltNge ler01 //.
rewrite i0; case: (altP (i.+1 =P nx)) => [iN|iN].
  rewrite !kinkE ?(leq_ltn_trans (leq_pred _) li) //; apply: qp; last exact: ltW.
    by rewrite -xS prednK // lt0n i0.
  by apply: x_sign2; rewrite prednK // lt0n i0.
have li' : (i.+1 < nx)%N by rewrite ltn_neqAle iN.
rewrite !kinkE //; apply: qp; [exact: xS | exact: ltW |].
by rewrite xS // addr_ge0 ?ltW // ds_gt0.
Qed.
Lemma up_step c : 1 <= c -> upwind_step (md_f M) (md_L M) (md_xs M) (md_us M) dx dt [seq kink c x | x <- md_xs M] =
  Some [seq kink (c * (1 + dt)) x | x <- md_xs M].
Proof.
move=> c1; have us0 : md_us M <> [::] by move=> e; have := size_lin 0 1 nu; rewrite -[linspace _ _ _]/(md_us M) e /=; lia.
have s1 : (1 < size (md_xs M))%N by rewrite size_lin.
have [|V' [-> sV H]] := @upwind_step_l R (md_f M) (md_L M) (md_xs M) (md_us M) dx dt us0 s1 [seq kink c x | x <- md_xs M].
  by rewrite size_map.
congr Some; apply: (@eq_from_nth _ 0); first by rewrite size_map.
move=> i; rewrite sV size_lin => li; rewrite kinkE //; have := H i; rewrite size_lin => /(_ li (ltW dt_gt0)) {}H.
apply: (least_uniq H).
have cost u : u \in md_us M -> upwind_cost (md_f M) (md_L M) dx dt (md_xs M) [seq kink c x | x <- md_xs M] i u =
   (if 0 <= nth 0 (md_xs M) i then - (c * (1 + dt * u)) * nth 0 (md_xs M) i else - (1 + dt * u) * nth 0 (md_xs M) i).
  move=> uu; have /andP [u0 _] := lin_in nu0 (@ler01 R) uu.
  rewrite /upwind_cost quot // kinkE // /kink add0r; move: (nth 0 (md_xs M) i) => x; move: dt => d.
  by case: ifP => _; rsn R; ring.
have lmem : 1 \in md_us M by exact: lin_last.
have fmem : 0 \in md_us M by apply: lin_first; exact: ltnW.
have cp : 0 <= c by exact: le_trans c1.
split.
  case: (leP 0 (nth 0 (md_xs M) i)) => x0.
    by apply/mapP; exists 1 => //; rewrite cost // x0 kink_pos // mulr1 mulNr.
  by apply/mapP; exists 0 => //; rewrite cost // leNgt x0 /= kink_neg ?ltW // mulr0 addr0 mulN1r.
move=> y /mapP [u uu ->]; rewrite cost //; have /andP [u0 u1] := lin_in nu0 (@ler01 R) uu.
case: (leP 0 (nth 0 (md_xs M) i)) => x0.
  by rewrite kink_pos // -mulNr ler_wpmul2r // ler_opp2 ler_wpmul2l // ler_add2l ler_pimulr // ltW // dt_gt0.
by rewrite (kink_neg _ (ltW x0)) -[X in X <= _]mulN1r ler_nmul2r // ler_opp2 ler_addl mulr_ge0 // ltW // dt_gt0.
Qed.
Lemma pow_ge1 k : 1 <= (1 + dt) ^+ k.
Proof. by apply: exprn_ege1; rewrite ler_addl ltW // dt_gt0. Qed.
Lemma up_pass : seqBackwardPass_upwind (md_f M) (md_L M) (md_LT M) (md_T M) blocks steps (md_xs M) (md_us M) =
  Some (rev [seq [seq kink ((1 + dt) ^+ (k * steps)) x | x <- md_xs M] | k <- iota 0 blocks.+1]).
Proof.
have s1 : (1 < size (md_xs M))%N by rewrite size_lin.
have dn : dx != 0 by rewrite gt_eqF // dx_gt0.
pose g V := odflt [::] (upwind_step (md_f M) (md_L M) (md_xs M) (md_us M) dx dt V).
have k0 : [seq md_LT M x | x <- md_xs M] = [seq kink ((1 + dt) ^+ 0) x | x <- md_xs M].
  by apply: eq_map => x /=; rewrite /kink expr0 mul1r; case: ifP.
rewrite /seqBackwardPass_upwind (seq_fdE b0 s0 (grid_dxE s1) dn (g := g) (I := fun V => exists k, V = [seq kink ((1 + dt) ^+ k) x | x <- md_xs M])).
- congr (Some (rev _)); apply: eq_map => k; move: (k * steps)%N => {}k; rewrite /itV k0; elim: k => // k IH.
  by rewrite iterS IH /g up_step ?pow_ge1 // exprSr.
- by move=> V [k ->]; rewrite /g up_step ?pow_ge1 //; split=> //; exists k.+1; rewrite exprSr.
- by exists 0%N.
Qed.
Lemma euler_pos (d x : R) us : euler_end (md_f M) d x us = x * \prod_(u <- us) (1 + d * u).
Proof.
elim: us x => [|u us IH] x /=; first by rewrite big_nil mulr1.
by rewrite IH big_cons [RHS]mulrA; congr (_ * _); rsn R; ring.
Qed.
Lemma prod_bounds (d : R) us : 0 <= d -> (forall u, u \in us -> 0 <= u <= 1) -> 1 <= \prod_(u <- us) (1 + d * u) <= (1 + d) ^+ size us.
Proof.
move=> d0; elim: us => [|u us IH] H; first by rewrite big_nil expr0 lexx.
have /andP [l r] := IH (fun v h => H v (mem_behead (s := u :: us) h)); have /andP [u0 u1] := H u (mem_head _ _).
have l1 : 1 <= 1 + d * u by rewrite ler_addl mulr_ge0.
have r1 : 1 + d * u <= 1 + d by rewrite ler_add2l ler_pimulr.
rewrite big_cons exprS; apply/andP; split; first by rewrite -[X in X <= _]mul1r; apply: ler_pmul.
by apply: ler_pmul => //; [apply: le_trans l1 | apply: le_trans l].
Qed.
Lemma kink_best m x : best_euler (md_f M) (md_LT M) dt m x (kink ((1 + dt) ^+ m) x).
Proof.
have d0 := ltW dt_gt0; have zo : forall u, u \in nseq m (1 : R) -> 0 <= u <= 1 by move=> u /nseqP [-> _]; rewrite ler01 lexx.
have zz : forall u, u \in nseq m (0 : R) -> 0 <= u <= 1 by move=> u /nseqP [-> _]; rewrite ler01 lexx.
split; last first.
  move=> us sz H; have /andP [l r] := prod_bounds d0 H; rewrite /= euler_pos.
  case: (leP 0 x) => x0; first by rewrite kink_pos // ler_opp2 mulrC ler_wpmul2r // -sz.
  by rewrite (kink_neg _ (ltW x0)) ler_opp2 -[X in _ <= X]mulr1 ler_nmul2l.
case: (leP 0 x) => x0.
  exists (nseq m 1); split=> //; first by rewrite size_nseq.
  rewrite /= euler_pos kink_pos // mulrC big_nseq mulr1; congr (- (_ * _)).
  by elim: m {zo zz} => [|m IH] //=; rewrite IH exprS.
exists (nseq m 0); split=> //; first by rewrite size_nseq.
rewrite /= euler_pos (kink_neg _ (ltW x0)) big_nseq mulr0 addr0.
by have -> : iter m ( *%R 1) 1 = 1 :> R; [elim: m {zo zz} => [|m IH] //=; rewrite IH mulr1 | rewrite mulr1].
Qed.
Lemma up_best : exists Vs, [/\ seqBackwardPass_upwind (md_f M) (md_L M) (md_LT M) (md_T M) blocks steps (md_xs M) (md_us M) = Some Vs,
  size Vs = blocks.+1, forall k, (k <= blocks)%N -> size (nth [::] Vs k) = nx &
  forall k i, (k <= blocks)%N -> (i < nx)%N ->
    best_euler (md_f M) (md_LT M) dt ((blocks - k) * steps) (nth 0 (md_xs M) i) (nth 0 (nth [::] Vs k) i)].
Proof.
rewrite up_pass; eexists; split; [by [] | by rewrite size_rev size_map size_iota | |].
- move=> k lk; rewrite nth_rev size_map size_iota ?ltnS // subSS (nth_map 0%N) ?size_iota ?ltnS ?leq_subr //.
  by rewrite size_map size_lin.
move=> k i lk li; rewrite nth_rev size_map size_iota ?ltnS // subSS (nth_map 0%N) ?size_iota ?ltnS ?leq_subr //.
by rewrite nth_iota ?ltnS ?leq_subr // add0n kinkE //; exact: kink_best.
Qed.
End Up.

(** ** step-size bounds *)
Lemma grids nx nu : (1 < nx)%N -> (1 < nu)%N ->
  [/\ uniform_grid (- 2%:R) 2%:R nx (md_xs (linear_model R nx nu)) /\ uniform_grid (- 2%:R) 2%:R nu (md_us (linear_model R nx nu)),
      uniform_grid (- 3%:R) 3%:R nx (md_xs (velocity_model R nx nu)) /\ uniform_grid (- 2%:R) 2%:R nu (md_us (velocity_model R nx nu)) &
      uniform_grid (- 1) 1 nx (md_xs (upwind_model R nx nu)) /\ uniform_grid 0 1 nu (md_us (upwind_model R nx nu))].
Proof. by move=> hx hu; split; split; exact: lin_uniform. Qed.
Section Bound.
Variables (nx nu blocks steps : nat).
Hypotheses (nx1 : (1 < nx)%N) (nu1 : (1 < nu)%N) (b0 : (0 < blocks)%N) (s0 : (0 < steps)%N).
Let dE : 1 / blocks%:R / steps%:R = (blocks * steps)%:R^-1 :> R.
Proof. by rewrite div1r natrM invfM. Qed.
Let bs0 : 0 < (blocks * steps)%:R :> R. Proof. by rewrite ltr0n muln_gt0 b0. Qed.
Let n0 : 0 < nx.-1%:R :> R. Proof. by rewrite ltr0n; lia. Qed.
Lemma frac_le (a w : nat) : ((blocks * steps)%:R^-1 * a%:R <= w%:R / nx.-1%:R :> R) = (a * nx.-1 <= w * (blocks * steps))%N.
Proof. by rewrite mulrC ler_pdivr_mulr // mulrAC ler_pdivl_mulr // -!natrM ler_nat. Qed.
Lemma bound_suff f (xs us : seq R) dt (c : R) : 0 <= dt -> (forall x u, x \in xs -> u \in us -> `|f x u| <= c) -> dt * c <= nth 0 xs 1 - nth 0 xs 0 -> step_bound f dt xs us.
Proof. by move=> d0 H le x u hx hu; apply: le_trans le; apply: ler_wpmul2l => //; exact: H. Qed.
Let dt0 : 0 <= 1 / blocks%:R / steps%:R :> R. Proof. by rewrite dE invr_ge0 ltW. Qed.
Lemma linear_bound : let M := linear_model R nx nu in step_bound (md_f M) (md_T M / blocks%:R / steps%:R) (md_xs M) (md_us M) <-> (nx.-1 <= blocks * steps)%N.
Proof.
move=> M; have dxE : nth 0 (md_xs M) 1 - nth 0 (md_xs M) 0 = 4%:R / nx.-1%:R by rewrite lin_dx // opprK -natrD.
have key : (1 / blocks%:R / steps%:R * 4%:R <= 4%:R / nx.-1%:R :> R) = (nx.-1 <= blocks * steps)%N by rewrite dE frac_le leq_pmul2l.
have lt2 : - 2%:R <= 2%:R :> R by rewrite -subr_ge0 opprK addr_ge0 ?ler0n.
split=> [H|le].
  have := H 2%:R 2%:R (lin_last _ _ nx1) (lin_last _ _ nu1); rewrite dxE /= -natrD normr_nat key //.
apply: (@bound_suff _ _ _ _ 4%:R) => //; last by rewrite dxE key.
move=> x u /(lin_in nx1 lt2) /andP [x1 x2] /(lin_in nu1 lt2) /andP [u1 u2].
by rewrite /= ler_norml (natrD _ 2 2) opprD !ler_add.
Qed.
Lemma upwind_bound : let M := upwind_model R nx nu in step_bound (md_f M) (md_T M / blocks%:R / steps%:R) (md_xs M) (md_us M) <-> (nx.-1 <= 2 * (blocks * steps))%N.
Proof.
move=> M; have dxE : nth 0 (md_xs M) 1 - nth 0 (md_xs M) 0 = 2%:R / nx.-1%:R by rewrite lin_dx // opprK.
have key : (1 / blocks%:R / steps%:R * 1%:R <= 2%:R / nx.-1%:R :> R) = (nx.-1 <= 2 * (blocks * steps))%N by rewrite dE frac_le mul1n.
have lt1 : - 1 <= 1 :> R by rewrite -subr_ge0 opprK addr_ge0 ?ler01.
split=> [H|le].
  have := H 1 1 (lin_last _ _ nx1) (lin_last _ _ nu1); rewrite dxE /= mulr1 normr1 -[1]/(1%:R) key //.
apply: (@bound_suff _ _ _ _ 1%:R) => //; last by rewrite dxE key.
move=> x u /(lin_in nx1 lt1) x12 /(lin_in nu1 ler01) /andP [u1 u2].
by rewrite /= normrM (ger0_norm u1) mulr_ile1 // ler_norml.
Qed.
Lemma velocity_bound : let M := velocity_model R nx nu in (nx.-1 <= 2 * (blocks * steps))%N -> step_bound (md_f M) (md_T M / blocks%:R / steps%:R) (md_xs M) (md_us M).
Proof.
move=> M le; have dxE : nth 0 (md_xs M) 1 - nth 0 (md_xs M) 0 = 6%:R / nx.-1%:R by rewrite lin_dx // opprK -natrD.
have lt2 : - 2%:R <= 2%:R :> R by rewrite -subr_ge0 opprK addr_ge0 ?ler0n.
have lt3 : - 3%:R <= 3%:R :> R by rewrite -subr_ge0 opprK addr_ge0 ?ler0n.
apply: (@bound_suff _ _ _ _ 3%:R) => //; last by rewrite dxE dE frac_le; lia.
move=> x u /(lin_in nx1 lt3) x12 /(lin_in nu1 lt2) /andP [u1 u2].
have xx : 0 <= 10%:R^-1 * x ^+ 2 <= 1.
  rewrite mulr_ge0 ?sqr_ge0 ?invr_ge0 ?ler0n //= ler_pdivr_mull ?ltr0n // mulr1 -[x ^+ 2]ger0_norm ?sqr_ge0 // normrX.
  have := x12; rewrite -ler_norml => h; apply: (@le_trans _ _ (3%:R ^+ 2)); first by rewrite ler_expn2r // nnegrE ?ler0n.
  by rewrite -natrX ler_nat.
case/andP: xx => q0 q1; rewrite /= ler_norml; apply/andP; split.
  have -> : - 3%:R = 1 - 1 - 1 - 2%:R :> R by rsn R; ring.
  apply: ler_add => //; rewrite subrr sub0r; apply: (@le_trans _ _ 0); first by rewrite oppr_le0 ler01.
  by rewrite subr_ge0.
have -> : 3%:R = 1 - 0 + 2%:R :> R by rsn R; ring.
by apply: ler_add => //; rewrite ler_add2l ler_opp2.
Qed.
End Bound.
Lemma ex_up : exists Vs, [/\ seqBackwardPass_upwind (md_f (upwind_model R 3 2)) (md_L (upwind_model R 3 2)) (md_LT (upwind_model R 3 2)) 1 1 1 [:: - 1; 0; 1] [:: 0; 1] = Some Vs,
  md_xs (upwind_model R 3 2) = [:: - 1; 0; 1], md_us (upwind_model R 3 2) = [:: 0; 1] & nth [::] Vs 0 = [:: 1; 0; - 2%:R]].
Proof.
have ex : md_xs (upwind_model R 3 2) = [:: - 1; 0; 1].
  rewrite /= /linspace /= ?mulr0n ?mulr1n ?mul0r ?addr0 ?mul1r; congr [:: _; _; _]; sfield.
have eu : md_us (upwind_model R 3 2) = [:: 0; 1].
  rewrite /= /linspace /= ?mulr0n ?mulr1n ?mul0r ?addr0 ?mul1r ?divr1 ?subr0 ?add0r; congr [:: _; _].
eexists; split=> //; last first.
  by instantiate (1 := rev [seq [seq kink ((1 + 1 / 1%:R / 1%:R) ^+ (k * 1)) x | x <- [:: - 1; 0; 1]] | k <- iota 0 2]);
     rewrite /kink /= !lexx ler01 oppr_ge0 ler10; congr [:: _; _; _]; rewrite ?muln1 ?expr1 ?divr1 ?mulr0 ?mulr1 ?opprK ?oppr0 //.
by rewrite -{1}ex -{1}eu (@up_pass 3 2 1 1 isT isT isT isT) ex.
Qed.
End Grid.
Lemma ex_bound : let B nx := let M := linear_model [realFieldType of rat] nx 2 in step_bound (md_f M) (md_T M / 2%:R / 2%:R) (md_xs M) (md_us M) in
  B 5%N /\ ~ B 6%N.
Proof.
split; first by case: (@linear_bound [realFieldType of rat] 5 2 2 2 isT isT isT isT) => _ H; exact: H.
by case: (@linear_bound [realFieldType of rat] 6 2 2 2 isT isT isT isT) => H _; move/H.
Qed.
