(** Concrete cases for the theorems about parareal. *)
From Coq Require Import Ring Field.
From mathcomp Require Import all_ssreflect all_algebra.
From Verif Require Import ScanModel ScanSpec ScanProofs ScanUse TfScan MxBase LqtModel LqtSpec LqtCore LqtElem LqtMore LqtTfModel LinComb Rk4Model Rk4Spec Rk4Proofs.
From Verif Require Import ClqtModel ClqtPack ClqtFwd ClqtFwd2 ClqtSpec ClqtBwd ClqtVal ClqtTfModel ClqtTf ClqtTf2 ClqtTf3 ClqtTf4 ClqtEx.
From Verif Require Import PararealModel PararealCore PararealBwd PararealFwd PararealTf.
Import Order.TTheory GRing.Theory Num.Theory.
Set Implicit Arguments. Unset Strict Implicit. Unset Printing Implicit Defensive.
Local Open Scope ring_scope.

(** dx/dt = u on [0, 8], running cost 1/2 u^2, terminal cost 1/2 (x - 1)^2 *)
Definition ex_long (R : realFieldType) : clqt R 1 1 1 1 :=
  Clqt (fun _ => 0) (fun _ => 1%:M) (fun _ => 0) (fun _ => 1%:M) 1%:M (fun _ => 0) (fun _ => 1%:M) (fun _ => 1%:M) 1%:M 1%:M (4%:R * 2%:R).

Section Ex.
Variable R : realFieldType.
Add Ring Rr : (mc_ring R).
Add Field Rf : (mc_field R).
Ltac sfield := rsn R; field; repeat split; num_neq0 R.
Local Notation P := (ex_long R).
Lemma exl_U t : symm (kU P t) /\ pd (kU P t).
Proof. by split; [rewrite /symm /= trmx1 | exact: pd1]. Qed.
Ltac scal := rewrite ?s0; repeat progress rewrite ?sT ?sZ ?sM ?sN ?sD.
Definition Ks8 : seq 'M[R]_1 := nseq 8 1%:M.
Definition ds8 : seq 'cV[R]_1 := nseq 8 0.
Let ph : R := 3%:R * 3%:R / (4%:R * 4%:R * 4%:R).
Let g : R := 1 / 3%:R.
Lemma exl_cstep1 (t a : R) : cstep P 1 t 1%:M 0 a%:M = (a * (3%:R / (4%:R * 2%:R)))%:M.
Proof. by rewrite /cstep /tF /tc /=; scal; congr (_%:M); sfield. Qed.
Lemma exl_cstep2 (t a : R) : cstep P 2%:R t 1%:M 0 a%:M = (g * a)%:M.
Proof. by rewrite /cstep /tF /tc /=; scal; congr (_%:M); rewrite /g; sfield. Qed.
Lemma exl_fine k (a : R) dt t : (k < 4)%N -> dt = 1 -> block_fwN P Ks8 ds8 false (k * 2) (k.+1 * 2) dt t a%:M = Some (ph * a)%:M.
Proof.
  move=> k4 ->; rewrite /block_fwN /block_fw.
  have [-> ->] : slice (k * 2) (k.+1 * 2) Ks8 = [:: 1%:M; 1%:M] /\ slice (k * 2) (k.+1 * 2) ds8 = [:: 0; 0] by case: k k4 => [|[|[|[|]]]].
  rewrite /clqt_seqForwardPass [dt_or _ _ _]/= obindS 2!fwd_loop_cons !exl_cstep1 [fwd_loop _ _ _ _ _ _ _ _]/= !obindS final_cons /=.
  by congr (Some _%:M); rewrite /ph; sfield.
Qed.
Lemma exl_coarse k (a : R) dt t : (k < 4)%N -> dt = 2%:R -> block_fwN P Ks8 ds8 false (k * 2) (k * 2 + 1) dt t a%:M = Some (g * a)%:M.
Proof.
  move=> k4 ->; rewrite /block_fwN /block_fw.
  have [-> ->] : slice (k * 2) (k * 2 + 1) Ks8 = [:: 1%:M] /\ slice (k * 2) (k * 2 + 1) ds8 = [:: 0] by case: k k4 => [|[|[|[|]]]].
  by rewrite /clqt_seqForwardPass [dt_or _ _ _]/= obindS fwd_loop_cons !exl_cstep2 [fwd_loop _ _ _ _ _ _ _ _]/= !obindS final_cons /=.
Qed.
Lemma dense_fw_cons (V : zmodType) (fine : nat -> V -> option V) k c c' cs f : fine k c = Some f ->
  dense_fw fine k (c :: c' :: cs) = let? fs := dense_fw fine k.+1 (c' :: cs) in Some (f :: fs).
Proof. by move=> E; rewrite -[LHS]/(let? f := fine k c in let? fs := dense_fw fine k.+1 (c' :: cs) in Some (f :: fs)) E. Qed.
Lemma coarse_fw_cons (V : zmodType) (coarse : nat -> V -> option V) k x f Fs g' Gs y : coarse k x = Some y ->
  coarse_fw coarse k x (f :: Fs) (g' :: Gs) = let? '(cs, gs) := coarse_fw coarse k.+1 (y + f - g') Fs Gs in Some (y + f - g' :: cs, y :: gs).
Proof. by move=> E /=; rewrite E. Qed.
Lemma denseE steps Ks ds zoh c cs dt : div_nats (kT P) [:: size cs; steps] = Some dt ->
  denseForwardPass P steps (c :: cs) Ks ds zoh =
  let? fs := dense_fw (fun k => block_fwN P Ks ds zoh (k * steps) (k.+1 * steps) dt ((k * steps)%:R * dt)) 0 (c :: cs) in Some (c :: fs).
Proof. by move=> E; rewrite /denseForwardPass [first _]/= obindS [(size _).-1]/= E. Qed.
Lemma coarseE Ks ds zoh c cs Gs steps dt : div_nats (kT P) [:: size cs] = Some dt -> (size Ks %/ size cs = steps)%N ->
  coarseForwardPass P (c :: cs) Gs Ks ds zoh =
  let? '(cs, gs) := coarse_fw (fun k => block_fwN P Ks ds zoh (k * steps) (k * steps + 1) dt (k%:R * dt)) 0 c cs (behead Gs) in Some (c :: cs, c :: gs).
Proof. by move=> E <-; rewrite /coarseForwardPass [first _]/= obindS [(size _).-1]/= E. Qed.
Lemma exl_dense (x a b c d : R) :
  denseForwardPass P 2 [:: x%:M; a%:M; b%:M; c%:M; d%:M] Ks8 ds8 false = Some [:: x%:M; (ph * x)%:M; (ph * a)%:M; (ph * b)%:M; (ph * c)%:M].
Proof.
  have d1 : kT P / 4%:R / 2%:R = 1 by rewrite /=; sfield.
  rewrite (@denseE _ _ _ _ _ _ 1); last by rewrite -d1; apply: (@fw_dfE _ _ _ _ _ P 4 2).
  by do 4!(rewrite (dense_fw_cons _ _ (exl_fine _ _ _ _)) //).
Qed.
Lemma exl_coarses (x a b c d a' b' c' d' : R) :
  coarseForwardPass P [:: x%:M; a%:M; b%:M; c%:M; d%:M] [:: x%:M; a'%:M; b'%:M; c'%:M; d'%:M] Ks8 ds8 false =
  let a2 := g * x + a - a' in let b2 := g * a2 + b - b' in let c2 := g * b2 + c - c' in let d2 := g * c2 + d - d' in
  Some ([:: x%:M; a2%:M; b2%:M; c2%:M; d2%:M], [:: x%:M; (g * x)%:M; (g * a2)%:M; (g * b2)%:M; (g * c2)%:M]).
Proof.
  have d2 : kT P / 4%:R = 2%:R by rewrite /=; sfield.
  rewrite (@coarseE _ _ _ _ _ _ 2 2%:R); [|by rewrite -d2; apply: (@fw_dcE _ _ _ _ _ P 4)|by []].
  rewrite -[behead _]/[:: a'%:M; b'%:M; c'%:M; d'%:M].
  do 4!(rewrite (coarse_fw_cons _ _ _ _ (exl_coarse _ _ _ _)) // !sD sN sD).
  by [].
Qed.
Lemma exl_init : initForwardPass P 4 1%:M Ks8 ds8 false = Some [:: 1%:M; g%:M; (g * g)%:M; (g * (g * g))%:M; (g * (g * (g * g)))%:M].
Proof.
  have d2 : kT P / 4%:R = 2%:R by rewrite /=; sfield.
  rewrite /initForwardPass -[(size Ks8 %/ 4)%N]/2%N -[(4 == 0)%N]/false.
  rewrite -[stride 2 Ks8]/(Some [:: (1%:M : 'M[R]_1); 1%:M; 1%:M; 1%:M]) -[stride 2 ds8]/(Some [:: (0 : 'cV[R]_1); 0; 0; 0]) 2!obindS.
  rewrite /clqt_seqForwardPass [dt_or _ _ _]/= obindS -[kT P / _]/(kT P / 4%:R) d2 4!fwd_loop_cons [fwd_loop _ _ _ _ _ _ _ _]/= !obindS.
  by rewrite !exl_cstep2 mulr1.
Qed.
(** four blocks of two steps with the default iteration count, 2: the state at the last block boundary is wrong *)
Lemma exl_fine_ne : ph <> g.
Proof.
  move=> /eqP; rewrite /ph /g -subr_eq0; apply/negP.
  have -> : 3%:R * 3%:R / (4%:R * 4%:R * 4%:R) - 1 / 3%:R = - (6%:R * 6%:R + 1) / (4%:R * 4%:R * 4%:R * 3%:R) :> R by sfield.
  by rewrite mulf_neq0 ?invr_eq0 ?oppr_eq0 ?mulf_neq0 ?pnatr_eq0 // -natrM -(natrD _ _ 1) pnatr_eq0.
Qed.
Lemma exl_final (x a b c d : R) : exists us xs, finalForwardPass P 2 [:: x%:M; a%:M; b%:M; c%:M; d%:M] Ks8 ds8 false = Some (us, xs) /\ nth 0 xs 6 = c%:M.
Proof.
  rewrite /finalForwardPass -[(size _).-1]/4%N (@fw_dfE _ _ _ _ _ P 4 2) //.
  set dt := kT P / _ / _; set cs := [:: _; _; _; _; _].
  rewrite -[obind _ _]/(final_fw P 2 dt Ks8 ds8 false 0 None cs).
  have [y ->] := @final_fw0 _ _ _ _ _ P 4 2 isT false Ks8 ds8 x%:M [:: a%:M; b%:M; c%:M; d%:M] erefl.
  by rewrite (@final_fwE _ _ _ _ _ P 4 2) //; do 2!eexists.
Qed.
Lemma exl_seq : exists us xs, clqt_seqForwardPass P 1%:M Ks8 ds8 None None false = Some (us, xs) /\ nth 0 xs 6 = (ph * ph * ph)%:M.
Proof.
  have d1 : kT P / 8%:R = 1 by rewrite /=; rewrite -[8%N]/(4 * 2)%N natrM; sfield.
  rewrite /clqt_seqForwardPass [dt_or _ _ _]/= obindS -[kT P / _]/(kT P / 8%:R) d1 8!fwd_loop_cons [fwd_loop _ _ _ _ _ _ _ _]/= !obindS.
  do 2!eexists; split; first reflexivity.
  by rewrite [nth _ _ _]/= !exl_cstep1 /ph; congr (_%:M); sfield.
Qed.
Definition exl_it (s : seq 'cV[R]_1 * seq 'cV[R]_1) :=
  let? Fs := denseForwardPass P 2 s.1 Ks8 ds8 false in coarseForwardPass P Fs s.2 Ks8 ds8 false.
Lemma exl_step (x a b c d a' b' c' d' : R) :
  let a2 := g * x + ph * x - a' in let b2 := g * a2 + ph * a - b' in let c2 := g * b2 + ph * b - c' in let d2 := g * c2 + ph * c - d' in
  exl_it ([:: x%:M; a%:M; b%:M; c%:M; d%:M], [:: x%:M; a'%:M; b'%:M; c'%:M; d'%:M]) =
  Some ([:: x%:M; a2%:M; b2%:M; c2%:M; d2%:M], [:: x%:M; (g * x)%:M; (g * a2)%:M; (g * b2)%:M; (g * c2)%:M]).
Proof.
  move=> a2 b2 c2 d2; rewrite /exl_it.
  have := exl_dense x a b c d; have := exl_coarses x (ph * x) (ph * a) (ph * b) (ph * c) a' b' c' d'.
  cbv zeta; rewrite -/a2 -/b2 -/c2 -/d2.
  move: (denseForwardPass P 2) => D; move: (coarseForwardPass P) => C.
  by move=> E1 E2; rewrite [fst _]/= [snd _]/= E2 /= E1.
Qed.
Lemma para_fw_iter (p : clqt R 1 1 1 1) B steps k x0 Ks ds zoh (it := fun s : seq 'cV[R]_1 * seq 'cV[R]_1 =>
    let? Fs := denseForwardPass p steps s.1 Ks ds zoh in coarseForwardPass p Fs s.2 Ks ds zoh) c0 s r :
  initForwardPass p B x0 Ks ds zoh = Some c0 -> iter_o k it (c0, c0) = Some s ->
  finalForwardPass p steps s.1 Ks ds zoh = Some r -> k = steps -> para_forwardPass p B steps x0 Ks ds zoh None = Some r.
Proof. by move=> E1 E2 E3 Ek; rewrite /para_forwardPass E1 -Ek [or_else _ _]/= obindS Ek -/it -Ek E2; case: s E2 E3 => a b _ E3; rewrite obindS Ek. Qed.
Lemma iter_o2 (S : Type) (f : S -> option S) s s1 s2 : f s = Some s1 -> f s1 = Some s2 -> iter_o 2 f s = Some s2.
Proof. by move=> /= -> /= ->. Qed.
Lemma exl_wrong : exists us xs us' xs',
  [/\ para_forwardPass P 4 2 1%:M Ks8 ds8 false None = Some (us, xs),
      clqt_seqForwardPass P 1%:M Ks8 ds8 None None false = Some (us', xs')
    & nth 0 xs 6 <> nth 0 xs' 6].
Proof.
  have E0 := exl_init.
  have E1 := exl_step 1 g (g * g) (g * (g * g)) (g * (g * (g * g))) g (g * g) (g * (g * g)) (g * (g * (g * g))).
  move: E1; cbv zeta.
  set a1 := g * 1 + _ - _; set b1 := g * a1 + _ - _; set c1 := g * b1 + _ - _; set d1 := g * c1 + _ - _.
  move=> E1; have E2 := exl_step 1 a1 b1 c1 d1 (g * 1) (g * a1) (g * b1) (g * c1).
  move: E2; cbv zeta.
  set a2 := g * 1 + _ - _; set b2 := g * a2 + _ - _; set c2 := g * b2 + _ - _; set d2 := g * c2 + _ - _.
  move=> E2; have [us [xs [E3 Ex]]] := exl_final 1 a2 b2 c2 d2; have [us' [xs' [E4 Ex']]] := exl_seq.
  exists us, xs, us', xs'; split; [exact: (para_fw_iter E0 (iter_o2 E1 E2) E3 erefl)|by []|].
  rewrite Ex Ex'.
  move=> /(f_equal (fun M : 'M[R]_1 => M 0 0)); rewrite !mxE !eqxx !mulr1n => E.
  have /eqP : (ph - g) * (ph - g) * (ph - g) = 0.
    transitivity (ph * ph * ph - c2); last by rewrite E subrr.
    by rewrite /c2 /b2 /a2 /c1 /b1 /a1; move: ph g => p q; rsn R; ring.
  by rewrite !mulf_eq0 !orbb subr_eq0 => /eqP /exl_fine_ne.
Qed.
Lemma default_refuted : exists (p : clqt R 1 1 1 1) (Ks : seq 'M[R]_1) (ds : seq 'cV[R]_1) (x0 : 'cV[R]_1) us xs us' xs',
  [/\ size Ks = (4 * 2)%N /\ size ds = (4 * 2)%N,
      para_forwardPass p 4 2 x0 Ks ds false None = Some (us, xs),
      clqt_seqForwardPass p x0 Ks ds None None false = Some (us', xs')
    & xs <> xs'].
Proof.
  have [us [xs [us' [xs' [E1 E2 ne]]]]] := exl_wrong.
  have sz : size Ks8 = (4 * 2)%N /\ size ds8 = (4 * 2)%N by clear.
  have ne' : xs <> xs'.
    clear E1 E2 sz; intro E; apply ne; rewrite E; reflexivity.
  exists P, Ks8, ds8, 1%:M, us, xs, us', xs'.
  exact (And4 sz E1 E2 ne').
Qed.
(** three iterations are enough for four blocks: the state at the last block boundary is (3/8)^6 *)
Lemma exl_right : exists us xs, para_forwardPass P 4 2 1%:M Ks8 ds8 false (Some 3%N) = Some (us, xs) /\
  nth 0 xs 6 = (3%:R * 3%:R / (4%:R * 4%:R * 4%:R) * (3%:R * 3%:R / (4%:R * 4%:R * 4%:R)) * (3%:R * 3%:R / (4%:R * 4%:R * 4%:R)))%:M.
Proof.
  have [us [xs [us' [xs' [E1 E2 _ _ H]]]]] := @para_forward_l R 1 1 1 1 P 4 2 isT isT false 1%:M Ks8 ds8 erefl erefl (Some 3%N).
  have [_ Ex] := H isT.
  have [us2 [xs2 [E3 Ex3]]] := exl_seq.
  have : Some (us', xs') = Some (us2, xs2) by rewrite -E2 -E3.
  by move=> [_ Ex2]; exists us, xs; split; [exact: E1 | rewrite Ex Ex2 Ex3].
Qed.
Lemma exl_right_tf : exists us xs, tf_para_forwardpass P 4 2 3 1%:M Ks8 ds8 false = Some (xs, us) /\
  nth 0 xs 6 = (3%:R * 3%:R / (4%:R * 4%:R * 4%:R) * (3%:R * 3%:R / (4%:R * 4%:R * 4%:R)) * (3%:R * 3%:R / (4%:R * 4%:R * 4%:R)))%:M.
Proof.
  have [us [xs [E1 E2]]] := exl_right.
  have T := @para_forward_tf R 1 1 1 1 P 4 2 false Ks8 ds8 isT isT erefl erefl 1%:M 2.
  exists us, xs; exact (conj (etrans T (f_equal (omap swap) E1)) E2).
Qed.
Lemma exl_backward : exists Ks ds Ss vs, [/\ para_backwardPass P 4 2 (Some 3%N) = Some (Ks, ds, Ss, vs),
  clqt_seqBackwardPass P 8 None None None None = Some (Ks, ds, Ss, vs), size Ks = 8%N & size Ss = 9%N].
Proof.
  have [Ks [ds [Ss [vs [Ks' [ds' [Ss' [vs' [E1 E2 [sK sd sS sv]]]]]]]]]] := para_backward_l exl_U (isT : (0 < 4)%N) (isT : (0 < 2)%N) (Some 3%N).
  cbv zeta; rewrite -[((4 - _.+1) * 2)%N]/0%N !drop0 => -[EK Ed ES Ev].
  exists Ks, ds, Ss, vs; refine (And4 E1 _ sK sS); rewrite EK Ed ES Ev; exact E2.
Qed.
Lemma exl_backward_tf : exists Ks ds Ss vs, [/\ tf_para_backwardpass P 4 2 3 = Some (Ss, vs, Ks, ds),
  clqt_seqBackwardPass P 8 None None None None = Some (Ks, ds, Ss, vs), size Ks = 8%N & size Ss = 9%N].
Proof.
  have [Ks [ds [Ss [vs [E1 E2 s1 s2]]]]] := exl_backward.
  have T := @para_backward_tf R 1 1 1 1 P exl_U 4 2 2 isT isT.
  exists Ks, ds, Ss, vs; exact (And4 (etrans T (f_equal (omap (@swap_bwd R 1 1)) E1)) E2 s1 s2).
Qed.
Lemma exl_fwdbwd : exists es, [/\ para_fwdBwdPass P 4 2 1%:M (Some 3%N) = Some es,
  clqt_seqFwdBwdPass P 1%:M 8 None None None None None = Some es & size es = 9%N].
Proof.
  have [es [es' [E1 E2 sz _ H]]] := para_fwdbwd_l (isT : (0 < 4)%N) (isT : (0 < 2)%N) exl_U 1%:M (Some 3%N).
  have Ee := H isT; exists es; refine (And3 E1 _ sz); rewrite Ee; exact E2.
Qed.
Lemma exl_fwdbwd_tf : exists es, [/\ tf_para_fwdbwdpass P 4 2 3 1%:M = Some es,
  clqt_seqFwdBwdPass P 1%:M 8 None None None None None = Some es & size es = 9%N].
Proof.
  have [es [E1 E2 sz]] := exl_fwdbwd.
  have T := @para_fwdbwd_tf R 1 1 1 1 P exl_U 4 2 isT isT 1%:M 2.
  exists es; exact (And3 (etrans T E1) E2 sz).
Qed.
Lemma exl_solver_tf : exists us xs, tf_para_backwardforwardpass P 4 2 3 1%:M = Some (xs, us).
Proof.
  have [Ks [ds [Ss [vs [us [xs [_ _ E]]]]]]] := para_backwardforward_tf exl_U (niter := 2) 1%:M (isT : (0 < 4)%N) (isT : (0 < 2)%N) isT.
  exists us, xs; exact E.
Qed.
(** the iteration is exact when there are at most steps + 1 blocks *)
Lemma default_l n m p pT (Q : clqt R n m p pT) B steps : (forall t, symm (kU Q t) /\ pd (kU Q t)) -> (0 < B)%N -> (0 < steps)%N -> (B <= steps.+1)%N ->
  [/\ para_backwardPass Q B steps None = clqt_seqBackwardPass Q (B * steps) None None None None,
      forall x0 Ks ds zoh, size Ks = (B * steps)%N -> size ds = (B * steps)%N ->
        para_forwardPass Q B steps x0 Ks ds zoh None = clqt_seqForwardPass Q x0 Ks ds None None zoh
    & forall x0, para_fwdBwdPass Q B steps x0 None = clqt_seqFwdBwdPass Q x0 (B * steps) None None None None None].
Proof.
  move=> Up B0 s0 le; split.
  - have [Ks [ds [Ss [vs [Ks' [ds' [Ss' [vs' [-> -> _]]]]]]]]] := para_backward_l Up B0 s0 None.
    have j0 : ((B - steps.+1) * steps = 0)%N by have /eqP -> : (B - steps.+1 == 0)%N by rewrite subn_eq0.
    by cbv zeta; rewrite [or_else _ _]/= j0 !drop0 => -[-> -> -> ->].
  - move=> x0 Ks ds zoh sK sd.
    by have [us [xs [us' [xs' [-> -> _ _ /(_ le) [-> ->]]]]]] := para_forward_l Q B0 s0 zoh x0 sK sd None.
  - by move=> x0; have [es [es' [-> -> _ _ /(_ le) ->]]] := para_fwdbwd_l B0 s0 Up x0 None.
Qed.
Lemma default_ex : exists Ks ds Ss vs, para_backwardPass P 3 2 None = Some (Ks, ds, Ss, vs) /\ size Ks = 6%N.
Proof.
  have [Ks [ds [Ss [vs [Ks' [ds' [Ss' [vs' [E _ [sK _ _ _] _]]]]]]]]] := para_backward_l exl_U (isT : (0 < 3)%N) (isT : (0 < 2)%N) None.
  exists Ks, ds, Ss, vs; exact (conj E sK).
Qed.
End Ex.
