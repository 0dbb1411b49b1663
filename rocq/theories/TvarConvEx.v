(** Convergence with data that vary in time: the statements, and concrete cases. *)
From Coq Require Import Reals.
From mathcomp Require Import all_ssreflect all_algebra.
From Verif Require Import RealF MxBase LqtModel ClqtModel ClqtSpec RealExpSpec ClqrOpt TrackOptSpec TvarSpec Tvar TvarEx TvarBwd TvarFwd TvarFb.
Import Order.TTheory GRing.Theory Num.Theory.
Set Implicit Arguments. Unset Strict Implicit. Unset Printing Implicit Defensive.
Local Open Scope ring_scope.

Section Main.
Variables n m p pT : nat.
Variable P : clqt Rf n m p pT.
Lemma fwd_optimal : 0 < kT P -> tracking_weights P 0 -> lipschitz_data P ->
  forall S v, backward_solution P S v [::] 0 ->
  forall x u c, steered P x u c [::] 0 -> feedback P S v x u [::] 0 ->
  optimal_tracking P x u (x 0) /\
  forall zoh, exists (D : Rf) N0, forall steps, (N0 <= steps)%N -> (0 < steps)%N ->
  let t i := i%:R * (kT P / steps%:R) in exists Ks ds Ss vs us xs,
  [/\ clqt_seqBackwardPass P steps None None None None = Some (Ks, ds, Ss, vs),
      clqt_seqForwardPass P (x 0) Ks ds None None zoh = Some (us, xs) /\
        (zoh = false -> forall blocks steps', (blocks * steps')%N = steps -> clqt_parForwardPass P (x 0) Ks ds blocks steps' None None true false = Some (us, xs)),
      size us = steps /\ size xs = steps.+1,
      forall i, (i <= steps)%N -> within (D / steps%:R) (nth 0 xs i) (x (t i)) &
      forall i, (0 < i < steps)%N -> within (D / steps%:R) (nth 0 us i) (u (t i))].
Proof.
move=> T1 wP lP S v sol x u c sx fx; split; last exact: (fwd_converges T1 wP lP sol sx fx).
exists c; split=> // x' u' c' ts sx' e.
exact: (fb_optimal (ltW T1) wP sol sx fx sx' e).1.
Qed.
End Main.

Lemma lip_const (T : Rf) a b (A : 'M[Rf]_(a, b)) : lipschitz_on T (fun _ => A).
Proof. by exists 0 => s t _ _ i j; rewrite subrr normr0 mul0r. Qed.
Lemma ramp_lip : 0 < kT ex_ramp /\ lipschitz_data ex_ramp.
Proof.
split; first exact: ltr01.
split; split; try exact: lip_const.
exists 1 => s t _ _ i j; rewrite !ord1 !mxE eqxx !mulr1n mul1r opprB addrA subrK //.
Qed.
Lemma push_lip : 0 <= kT ex_push /\ lipschitz_data ex_push.
Proof.
split; first exact: ler01.
split; split; try exact: lip_const.
exists 2%:R => s t _ _ i j; rewrite !ord1 !mxE eqxx !mulr1n.
have -> : 1 - (s + s) - (1 - (t + t)) = (t - s) *+ 2 by rewrite mulr2n; abelr.
by rewrite normrMn mulr_natl distrC.
Qed.
Lemma ramp_all : [/\ 0 <= kT ex_ramp, tracking_weights ex_ramp 0, lipschitz_data ex_ramp & backward_solution ex_ramp (fun _ => 1%:M) (fun t => t%:M) [::] 0].
Proof. have [h1 h2] := ramp_lip; split=> //; [exact: ltW | exact: ramp_w | exact: ramp_sol]. Qed.
Lemma ramp_traj : [/\ 0 < kT ex_ramp, tracking_weights ex_ramp 0, lipschitz_data ex_ramp, backward_solution ex_ramp (fun _ => 1%:M) (fun t => t%:M) [::] 0 &
  steered ex_ramp (fun t => (t - 1)%:M) (fun _ => 1%:M) (fun t => t / 2%:R) [::] 0 /\
  feedback ex_ramp (fun _ => 1%:M) (fun t => t%:M) (fun t => (t - 1)%:M) (fun _ => 1%:M) [::] 0].
Proof. have [h1 h2] := ramp_lip; have [a b _ _ _] := ramp_steered; split=> //; [exact: ramp_w | exact: ramp_sol]. Qed.
Lemma push_all : [/\ 0 <= kT ex_push, tracking_weights ex_push 0, lipschitz_data ex_push, backward_solution ex_push pushS pushv [::] 0 &
  forward_solution ex_push pushb pushC 1%:M [::] 0 /\ forall t : Rf, 0 <= t <= kT ex_push -> 1%:M + pushC t *m pushS t \in unitmx].
Proof. have [h1 h2] := push_lip; have [a _ _] := push_comb; split=> //; [exact: push_w | exact: push_sol | split=> //; exact: push_fsol]. Qed.
