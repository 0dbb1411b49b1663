(** Nonlinear tracker: derivatives of the cost along trajectories. *)
From Coq Require Import Ring Field.
From mathcomp Require Import all_ssreflect all_algebra.
From Verif Require Import MxBase LqtModel LqtSpec LqtCore LqtProofs NlqtModel NlqtSpec.
Import Order.TTheory GRing.Theory Num.Theory.
Set Implicit Arguments. Unset Strict Implicit. Unset Printing Implicit Defensive.
Local Open Scope ring_scope.

Section Norm.
Variable R : realFieldType.
Lemma vnorm_ge0 k (v : 'cV[R]_k) : 0 <= vnorm v.
Proof. by apply: sumr_ge0 => i _; exact: normr_ge0. Qed.
Lemma vnormD k (v w : 'cV[R]_k) : vnorm (v + w) <= vnorm v + vnorm w.
Proof. by rewrite /vnorm -big_split; apply: ler_sum => i _; rewrite mxE ler_norm_add. Qed.
Lemma vnormN k (v : 'cV[R]_k) : vnorm (- v) = vnorm v.
Proof. by rewrite /vnorm; apply: eq_bigr => i _; rewrite mxE normrN. Qed.
Lemma vnormB k (v w : 'cV[R]_k) : vnorm (v - w) = vnorm (w - v).
Proof. by rewrite -vnormN opprB. Qed.
Lemma vnorm0 k : vnorm (0 : 'cV[R]_k) = 0.
Proof. by rewrite /vnorm big1 // => i _; rewrite mxE normr0. Qed.
Lemma vnormZ k a (v : 'cV[R]_k) : vnorm (a *: v) = `|a| * vnorm v.
Proof. by rewrite /vnorm mulr_sumr; apply: eq_bigr => i _; rewrite mxE normrM. Qed.
Lemma vnorm_entry k (v : 'cV[R]_k) i : `|v i 0| <= vnorm v.
Proof. by rewrite /vnorm (bigD1 i) //= ler_addl sumr_ge0 // => j _; exact: normr_ge0. Qed.
Lemma vnorm_eq0 k (v : 'cV[R]_k) : vnorm v = 0 -> v = 0.
Proof.
move=> e; apply/colP => i; rewrite mxE; apply/eqP; rewrite -normr_eq0 eq_le normr_ge0 andbT -e.
exact: vnorm_entry.
Qed.
Definition mnorm k l (A : 'M[R]_(k, l)) : R := \sum_i \sum_j `|A i j|.
Lemma mnorm_ge0 k l (A : 'M[R]_(k, l)) : 0 <= mnorm A.
Proof. by do 2! [apply: sumr_ge0 => ? _]; exact: normr_ge0. Qed.
Lemma vnormM k l (A : 'M[R]_(k, l)) v : vnorm (A *m v) <= mnorm A * vnorm v.
Proof.
rewrite /vnorm /mnorm mulr_suml; apply: ler_sum => i _; rewrite mxE.
apply: (le_trans (ler_norm_sum _ _ _)); rewrite mulr_suml; apply: ler_sum => j _.
by rewrite normrM ler_wpmul2l ?normr_ge0 // vnorm_entry.
Qed.
Lemma norm_dot k (v w : 'cV[R]_k) : `|dot v w| <= vnorm v * vnorm w.
Proof.
rewrite /dot /sc mxE; apply: (le_trans (ler_norm_sum _ _ _)).
rewrite {1}/vnorm mulr_suml; apply: ler_sum => i _; rewrite mxE normrM.
by rewrite ler_wpmul2l ?normr_ge0 // vnorm_entry.
Qed.
End Norm.

Section Nl.
Variable R : realFieldType.
Variables n m : nat.
Add Ring Rr : (mc_ring R).
Add Field Rf : (mc_field R).
Ltac sfield := rsn R; field; exact: two_neq0.
Variable M : nlmodel R n m.
Notation vstage := (vstage R n m).

(** the cost of the nonlinear problem *)
Fixpoint nl_ctg (P : lqt R n m) (sts : seq vstage) (x : 'cV[R]_n) (us : seq 'cV[R]_m) : R :=
  match sts, us with
  | s :: sts', u :: us' => stage_cost s x u + nl_ctg P sts' (nf M x u) us'
  | _, _ => final_cost P x
  end.

Lemma nl_loopE (P : lqt R n m) sts us x res : size us = size sts ->
  cost_loop sts us (simulate M x us) res = Some (res - final_cost P (last x (simulate M x us)) + nl_ctg P sts x us).
Proof.
elim: sts us x res => [|s sts IH] [|u us] x res //= sz; first by congr Some; abel.
case: sz => sz; have := IH us (nf M x u); rewrite /simulate => -> //; congr Some.
rewrite !half_sc /= /stage_cost.
have -> : (sH s *m x - sr s)^T *m sM s *m (sZ s *m u - ss s) = (sH s *m x - sr s)^T *m (sM s *m (sZ s *m u - ss s)) by rewrite mulmxA.
rewrite -/(dot _ _); abel.
Qed.
Lemma nlqt_costE (P : lqt R n m) us x : size us = size (stages P) -> nlqt_cost M P x us = Some (nl_ctg P (stages P) x us).
Proof.
move=> sz; rewrite /nlqt_cost /lqt_cost {1}/simulate.
rewrite (nl_loopE P) // half_sc -/(final_cost P _) /simulate /= subrr add0r //.
Qed.

(** the derivative of the cost along linear dynamics *)
Definition gT (P : lqt R n m) x : 'cV[R]_n := (HT P)^T *m XT P *m (HT P *m x - rT P).
Fixpoint lin (P : lqt R n m) (sts : seq vstage) x us (dx : 'cV[R]_n) (dus : seq 'cV[R]_m) : R :=
  match sts, us, dus with
  | s :: sts', u :: us', du :: dus' =>
      dot (gx s x u) dx + dot (gu s x u) du + lin P sts' (next s x u) us' (sF s *m dx + sL s *m du) dus'
  | _, _, _ => dot (gT P x) dx
  end.
Fixpoint quadr (P : lqt R n m) (sts : seq vstage) (dx : 'cV[R]_n) (dus : seq 'cV[R]_m) : R :=
  match sts, dus with
  | s :: sts', du :: dus' => sq s dx du + quadr P sts' (sF s *m dx + sL s *m du) dus'
  | _, _ => qf (XT P) (HT P *m dx) / 2%:R
  end.
Definition addu (us dus : seq 'cV[R]_m) := [seq z.1 + z.2 | z <- zip us dus].

Lemma final_exp (P : lqt R n m) x h : symm (XT P) -> final_cost P (x + h) = final_cost P x + dot (gT P x) h + qf (XT P) (HT P *m h) / 2%:R.
Proof.
move=> sy; rewrite /final_cost /gT.
have -> : HT P *m (x + h) - rT P = (HT P *m x - rT P) + HT P *m h by mxabel.
rewrite (qfD _ _ sy).
have -> : dot ((HT P)^T *m XT P *m (HT P *m x - rT P)) h = dot (XT P *m (HT P *m x - rT P)) (HT P *m h) by rewrite dotMr !mulmxA.
by sfield.
Qed.

Lemma ctg_exp (P : lqt R n m) sts us x dx dus : symm (XT P) -> all_stages (fun s => stage_ok s) sts ->
  size us = size sts -> size dus = size sts ->
  cost_to_go P sts (x + dx) (addu us dus) = cost_to_go P sts x us + lin P sts x us dx dus + quadr P sts dx dus.
Proof.
move=> sy; elim: sts us x dx dus => [|s sts IH] [|u us] x dx [|du dus] //= ok sz1 sz2; first exact: final_exp.
case: ok => ok oks; case: sz1 => sz1; case: sz2 => sz2.
rewrite (stage_cost_exp ok) next_exp /= [X in _ + X](IH us) //; abel.
Qed.
Lemma quadr_ge0 (P : lqt R n m) sts dx dus : psd (XT P) -> all_stages (fun s => stage_ok s) sts -> 0 <= quadr P sts dx dus.
Proof.
move=> pT; elim: sts dx dus => [|s sts IH] dx [|du dus] /= ok; try by rewrite divr_ge0 ?ler0n ?pT.
by case: ok => ok oks; rewrite addr_ge0 ?sq_ge0 ?IH.
Qed.
Lemma linZ (P : lqt R n m) sts us x dx dus a :
  lin P sts x us (a *: dx) [seq a *: du | du <- dus] = a * lin P sts x us dx dus.
Proof.
elim: sts us x dx dus => [|s sts IH] [|u us] x dx [|du dus] //=; rewrite ?dotZr //.
by rewrite -!scalemxAr -scalerDr IH !mulrDr.
Qed.
Lemma linD (P : lqt R n m) sts us x (dx dx' : 'cV[R]_n) dus : lin P sts x us (dx + dx') dus =
  lin P sts x us dx dus + lin P sts x us dx' (nseq (size dus) 0).
Proof.
elim: sts us x dx dx' dus => [|s sts IH] [|u us] x dx dx' [|du dus] //=; rewrite ?dotDr //.
have -> : sF s *m (dx + dx') + sL s *m du = (sF s *m dx + sL s *m du) + sF s *m dx' by mxabel.
rewrite IH mulmx0 addr0 dot0r addr0; set a := dot _ dx; set b := dot _ dx'; set c := dot _ du; set d := lin _ _ _ _ _ dus.
by rewrite -!addrA; congr (_ + _); rewrite [RHS]addrA [RHS]addrCA -addrA.
Qed.
Lemma sqZ p (s : stage R n m p) a h k : sq s (a *: h) (a *: k) = a ^+ 2 * sq s h k.
Proof.
rewrite /sq -!scalemxAr !qfZ dotZr dotZl expr2; sfield.
Qed.
Lemma quadrZ (P : lqt R n m) sts dx dus a : quadr P sts (a *: dx) [seq a *: du | du <- dus] = a ^+ 2 * quadr P sts dx dus.
Proof.
elim: sts dx dus => [|s sts IH] dx [|du dus] /=; try by rewrite -scalemxAr qfZ mulrA.
by rewrite sqZ -!scalemxAr -scalerDr IH [in RHS]mulrDr.
Qed.
Lemma size_addu us dus : size dus = size us -> size (addu us dus) = size us.
Proof. by move=> e; rewrite size_map size1_zip // e. Qed.
Definition subu (us' us : seq 'cV[R]_m) := [seq z.1 - z.2 | z <- zip us' us].
Lemma adduK us us' : size us' = size us -> addu us (subu us' us) = us'.
Proof. by elim: us us' => [|u us IH] [|u' us'] //= [sz]; rewrite /addu /= -/(subu us' us) -/(addu us (subu us' us)) IH // addrC subrK. Qed.
Lemma size_subu us us' : size us' = size us -> size (subu us' us) = size us.
Proof. by move=> e; rewrite size_map size1_zip // e. Qed.

(** unique minimiser = derivative zero, for the linear problem *)
Lemma min_lin (P : lqt R n m) x us : problem_ok P -> unique_minimiser P x us ->
  forall dus, size dus = size (stages P) -> lin P (stages P) x us 0 dus = 0.
Proof.
case=> sy ps ok [sz mn] dus sd.
set l := lin _ _ _ _ _ _; set q := quadr P (stages P) 0 dus.
have q0 : 0 <= q by apply: quadr_ge0.
have q1 : 0 < q + 1 by rewrite ltr_spaddr ?ltr01.
pose t := - l / (q + 1).
have : cost_to_go P (stages P) x us <= cost_to_go P (stages P) (x + 0) (addu us [seq t *: du | du <- dus]).
  rewrite addr0; have [-> //|/eqP ne] := eqVneq (addu us [seq t *: du | du <- dus]) us.
  by apply/ltW/mn => //; rewrite size_addu ?size_map ?sd.
rewrite ctg_exp ?size_map // -(scaler0 _ t) linZ quadrZ -/l -/q -addrA ler_addl.
have -> : t * l + t ^+ 2 * q = - (l / (q + 1)) ^+ 2.
  rewrite /t !expr2; have := lt0r_neq0 q1; move: (q) (l) => a b /eqP nz.
  by rsn R; field; exact: nz.
rewrite oppr_ge0 => le; have /eqP : (l / (q + 1)) ^+ 2 = 0 by apply/eqP; rewrite eq_le le sqr_ge0.
by rewrite sqrf_eq0 mulf_eq0 invr_eq0 => /orP [/eqP //|]; rewrite (negbTE (lt0r_neq0 q1)).
Qed.
Lemma lin_min (P : lqt R n m) x us us' : problem_ok P -> size us = size (stages P) ->
  (forall dus, size dus = size (stages P) -> lin P (stages P) x us 0 dus = 0) ->
  unique_minimiser P x us' -> us' = us.
Proof.
case=> sy ps ok sz z [sz' mn]; apply/eqP/negPn/negP => /eqP ne.
have := mn us sz (nesym ne); rewrite ltNge => /negP; apply.
have E := ctg_exp x 0 sy ok sz (etrans (size_subu (etrans sz' (esym sz))) sz).
rewrite addr0 adduK ?sz' ?sz // z ?addr0 in E; last by rewrite size_subu ?sz' ?sz.
by rewrite /total_cost E ler_addl quadr_ge0.
Qed.

(** ** derivative of the nonlinear cost *)
Lemma qf_bound p q (A : 'M[R]_p) (B : 'M[R]_(p, q)) h : `|qf A (B *m h)| <= mnorm B * (mnorm A * mnorm B) * (vnorm h * vnorm h).
Proof.
rewrite qf_dot; apply: (le_trans (norm_dot _ _)).
have -> : mnorm B * (mnorm A * mnorm B) * (vnorm h * vnorm h) = mnorm B * vnorm h * (mnorm A * (mnorm B * vnorm h)) by rsn R; ring.
apply: ler_pmul; rewrite ?vnorm_ge0 ?vnormM //.
by apply: (le_trans (vnormM _ _)); rewrite ler_wpmul2l ?mnorm_ge0 ?vnormM.
Qed.
Lemma sq_bound p (s : stage R n m p) : exists2 C, 0 <= C & forall h k, `|sq s h k| <= C * (vnorm h + vnorm k) ^+ 2.
Proof.
pose a := mnorm (sH s) * (mnorm (sX s) * mnorm (sH s)).
pose b := mnorm (sZ s) * (mnorm (sU s) * mnorm (sZ s)).
pose c := mnorm (sH s) * (mnorm (sM s) * mnorm (sZ s)).
have p0 : 0 <= a /\ 0 <= b /\ 0 <= c by rewrite /a /b /c !mulr_ge0 ?mnorm_ge0.
case: p0 => a0 [b0 c0]; exists (a + b + c) => [|h k]; first by rewrite !addr_ge0.
have hh : 0 <= vnorm h by exact: vnorm_ge0.
have kk : 0 <= vnorm k by exact: vnorm_ge0.
have B1 := qf_bound (sX s) (sH s) h; have B2 := qf_bound (sU s) (sZ s) k.
have B3 : `|dot (sH s *m h) (sM s *m (sZ s *m k))| <= c * (vnorm h * vnorm k).
  apply: (le_trans (norm_dot _ _)).
  have -> : c * (vnorm h * vnorm k) = mnorm (sH s) * vnorm h * (mnorm (sM s) * (mnorm (sZ s) * vnorm k)) by rewrite /c; rsn R; ring.
  apply: ler_pmul; rewrite ?vnorm_ge0 ?vnormM //.
  by apply: (le_trans (vnormM _ _)); rewrite ler_wpmul2l ?mnorm_ge0 ?vnormM.
have half (z : R) : `|z / 2%:R| <= `|z|.
  by rewrite normrM normfV (ger0_norm (ler0n _ 2)) ler_pdivr_mulr ?ltr0n // ler_pemulr // ler1n.
rewrite /sq; apply: (le_trans (ler_norm_add _ _)); apply: (le_trans (ler_add (ler_norm_add _ _) B3)).
apply: (le_trans (ler_add (ler_add (le_trans (half _) B1) (le_trans (half _) B2)) (lexx _))); rewrite -/a -/b.
have -> : (a + b + c) * (vnorm h + vnorm k) ^+ 2 = a * (vnorm h * vnorm h) + b * (vnorm k * vnorm k) + c * (vnorm h * vnorm k) +
  (a * (vnorm h * vnorm k) *+ 2 + a * (vnorm k * vnorm k) + b * (vnorm h * vnorm h) + b * (vnorm h * vnorm k) *+ 2
   + c * (vnorm h * vnorm h) + c * (vnorm h * vnorm k) + c * (vnorm k * vnorm k)).
  rewrite expr2; rsn R; ring.
by rewrite ler_addl !addr_ge0 ?mulrn_wge0 // !mulr_ge0 // mnorm_ge0.
Qed.
Lemma lin_bound (P : lqt R n m) sts us x k : exists2 C, 0 <= C & forall dx, `|lin P sts x us dx (nseq k 0)| <= C * vnorm dx.
Proof.
elim: sts us x k => [|s sts IH] [|u us] x [|k] /=; try by exists (vnorm (gT P x)) => [|dx]; rewrite ?vnorm_ge0 ?norm_dot.
have [C C0 B] := IH us (next s x u) k.
exists (vnorm (gx s x u) + C * mnorm (sF s)) => [|dx]; first by rewrite addr_ge0 ?mulr_ge0 ?vnorm_ge0 ?mnorm_ge0.
rewrite dot0r addr0 mulmx0 addr0; apply: (le_trans (ler_norm_add _ _)); rewrite mulrDl ler_add ?norm_dot //.
apply: (le_trans (B _)); by rewrite -mulrA ler_wpmul2l ?vnormM.
Qed.

(** linearised stages along a trajectory of the nonlinear model *)
Fixpoint lin_along (sts : seq vstage) (x : 'cV[R]_n) (us : seq 'cV[R]_m) : seq vstage :=
  match sts, us with
  | s :: sts', u :: us' => VStage (lin_stage M s x u) :: lin_along sts' (nf M x u) us'
  | _, _ => [::]
  end.
Lemma next_lin p (s : stage R n m p) x u : next (lin_stage M s x u) x u = nf M x u.
Proof. by rewrite /next /lin_stage /=; mxabel. Qed.
Definition unorm (dus : seq 'cV[R]_m) : R := \sum_(du <- dus) vnorm du.
Lemma unorm_ge0 dus : 0 <= unorm dus.
Proof. by apply: sumr_ge0 => i _; exact: vnorm_ge0. Qed.

Lemma frechet (P : lqt R n m) : symm (XT P) -> differentiable M -> forall sts us x, all_stages (fun s => stage_ok s) sts -> size us = size sts ->
  forall eps, 0 < eps -> exists2 delta, 0 < delta & forall dx dus, size dus = size sts -> vnorm dx + unorm dus < delta ->
  `|nl_ctg P sts (x + dx) (addu us dus) - nl_ctg P sts x us - lin P (lin_along sts x us) x us dx dus|
    <= eps * (vnorm dx + unorm dus).
Proof.
move=> sy df; elim=> [|s sts IH] [|u us] x //= ok sz eps e0.
  pose C := mnorm (HT P) * (mnorm (XT P) * mnorm (HT P)).
  have C0 : 0 <= C by rewrite /C !mulr_ge0 ?mnorm_ge0.
  exists (eps / (C + 1)); first by rewrite divr_gt0 // ltr_spaddr ?ltr01.
  move=> dx [|//] _; rewrite /unorm big_nil !addr0 => lt.
  have -> : final_cost P (x + dx) - final_cost P x - dot (gT P x) dx = qf (XT P) (HT P *m dx) / 2%:R by rewrite final_exp //; abel.
  rewrite normrM normfV (ger0_norm (ler0n _ 2)) ler_pdivr_mulr ?ltr0n //.
  have h : C * vnorm dx <= eps.
    have /ltW := lt; rewrite ler_pdivl_mulr ?ltr_spaddr ?ltr01 // => h.
    by apply: (le_trans _ h); rewrite mulrDr mulr1 mulrC ler_addl vnorm_ge0.
  apply: (le_trans (qf_bound _ _ _)); rewrite -/C mulrA; apply: (le_trans (ler_wpmul2r (vnorm_ge0 dx) h)).
  by rewrite ler_pemulr ?ler1n // mulr_ge0 ?vnorm_ge0 // ltW.
case: ok => ok oks; case: sz => sz.
set s1 := lin_stage M s x u.
set lin1 := lin P (lin_along sts (nf M x u) us) (nf M x u) us.
have [Cq Cq0 Bq] := sq_bound s.
have [Cl Cl0 Bl] := lin_bound P (lin_along sts (nf M x u) us) us (nf M x u) (size sts).
pose CF := mnorm (nFx M x u) + mnorm (nFu M x u).
have CF0 : 0 <= CF by rewrite addr_ge0 ?mnorm_ge0.
(* f moves by at most (CF + 1) rho; remainders: eps1 for f, eps2 for the tail *)
pose e1 := Num.min 1 (eps / 3%:R / (Cl + 1)).
have third : 0 < eps / 3%:R by rewrite divr_gt0 ?ltr0n.
have e1p : 0 < e1 by rewrite lt_minr ltr01 divr_gt0 // ltr_spaddr ?ltr01.
have [d1 d1p J1] := df x u e1 e1p.
pose K := CF + 2%:R.
have K0 : 0 < K by rewrite ltr_spaddr ?ltr0n.
have e2p : 0 < eps / 3%:R / K by rewrite divr_gt0.
have [d2 d2p J2] := IH us (nf M x u) oks sz _ e2p.
exists (Num.min (Num.min d1 (d2 / K)) (eps / 3%:R / (Cq + 1))).
  by rewrite !lt_minr d1p divr_gt0 //= divr_gt0 // ltr_spaddr ?ltr01.
move=> dx [//|du dus] /= [sd]; rewrite /unorm big_cons -/(unorm dus) !lt_minr => /andP [/andP [l1 l2] l3].
set rho := vnorm dx + (vnorm du + unorm dus) in l1 l2 l3 *.
have rho_u : vnorm dx + vnorm du <= rho by rewrite /rho addrA ler_addl unorm_ge0.
have rho0 : 0 <= rho by rewrite /rho !addr_ge0 ?vnorm_ge0 ?unorm_ge0.
have us_rho : unorm dus <= rho by rewrite /rho addrA ler_addr addr_ge0 ?vnorm_ge0.
have jf := J1 dx du (le_lt_trans rho_u l1).
set r := nf M (x + dx) (u + du) - nf M x u - (nFx M x u *m dx + nFu M x u *m du) in jf.
pose y := nFx M x u *m dx + nFu M x u *m du.
have fE : nf M (x + dx) (u + du) = nf M x u + (y + r) by rewrite /r /y; abel.
have rb : vnorm r <= e1 * rho by apply: (le_trans jf); apply: ler_wpmul2l => //; apply: ltW.
have yb : vnorm y <= CF * rho.
  apply: (le_trans (vnormD _ _)); rewrite /CF mulrDl; apply: ler_add; apply: (le_trans (vnormM _ _)); rewrite ler_wpmul2l ?mnorm_ge0 //.
    by rewrite (le_trans _ rho_u) // ler_addl vnorm_ge0.
  by rewrite (le_trans _ rho_u) // ler_addr vnorm_ge0.
have yr : vnorm (y + r) + unorm dus <= K * rho.
  have -> : K * rho = CF * rho + 1 * rho + rho by rewrite /K; rsn R; ring.
  apply: ler_add => //; apply: (le_trans (vnormD _ _)); apply: ler_add => //.
  by apply: (le_trans rb); rewrite ler_wpmul2r // /e1 le_minl lexx.
have j2 := J2 (y + r) dus sd (le_lt_trans yr _).
have {}j2 := j2 (ltac:(by move: l2; rewrite ltr_pdivl_mulr // mulrC)).
rewrite -/(addu us dus) fE.
move: j2; rewrite -/lin1 => j2.
have lD : lin1 (y + r) dus = lin1 y dus + lin1 r (nseq (size sts) 0) by rewrite /lin1 linD sd.
have bl : `|lin1 r (nseq (size sts) 0)| <= eps / 3%:R * rho.
  apply: (le_trans (Bl _)); apply: (le_trans (ler_wpmul2l Cl0 rb)).
  rewrite mulrA ler_wpmul2r //.
  have h : e1 <= eps / 3%:R / (Cl + 1) by rewrite /e1 le_minl lexx orbT.
  apply: (le_trans (ler_wpmul2l Cl0 h)).
  rewrite mulrA ler_pdivr_mulr ?ltr_spaddr ?ltr01 // mulrDr mulr1 mulrC ler_addl; exact: ltW.
have bq : `|sq s dx du| <= eps / 3%:R * rho.
  apply: (le_trans (Bq _ _)); apply: (le_trans (y := Cq * rho ^+ 2)).
    by rewrite ler_wpmul2l // ler_sqr ?nnegrE // addr_ge0 ?vnorm_ge0.
  rewrite expr2 mulrA ler_wpmul2r //.
  move/ltW: l3; rewrite ler_pdivl_mulr ?ltr_spaddr ?ltr01 // => h; apply: (le_trans _ h).
  by rewrite [rho * (_ + 1)]mulrDr mulr1 mulrC ler_addl.
have {}j2 : `|nl_ctg P sts (nf M x u + (y + r)) (addu us dus) - nl_ctg P sts (nf M x u) us - lin1 (y + r) dus| <= eps / 3%:R * rho.
  apply: (le_trans j2); apply: (le_trans (ler_wpmul2l (ltW e2p) yr)).
  by rewrite mulrA divfK ?lt0r_neq0.
rewrite (stage_cost_exp ok) next_lin.
have -> : gx s1 x u = gx s x u by [].
have -> : gu s1 x u = gu s x u by [].
rewrite -/lin1.
have -> : stage_cost s x u + dot (gx s x u) dx + dot (gu s x u) du + sq s dx du + nl_ctg P sts (nf M x u + (y + r)) (addu us dus)
     - (stage_cost s x u + nl_ctg P sts (nf M x u) us) - (dot (gx s x u) dx + dot (gu s x u) du + lin1 y dus)
  = sq s dx du + lin1 r (nseq (size sts) 0)
    + (nl_ctg P sts (nf M x u + (y + r)) (addu us dus) - nl_ctg P sts (nf M x u) us - lin1 (y + r) dus) by rewrite lD; abel.
apply: (le_trans (ler_norm_add _ _)); apply: (le_trans (ler_add (ler_norm_add _ _) (lexx _))).
apply: (le_trans (ler_add (ler_add bq bl) j2)).
have t3 : eps / 3%:R *+ 3 = eps by rewrite -mulr_natr divfK // pnatr_eq0.
by rewrite -[X in _ <= X * _]t3; move: (eps / 3%:R) => z; rewrite !mulrS mulr0n addr0 !mulrDl addrA lexx.
Qed.
End Nl.
