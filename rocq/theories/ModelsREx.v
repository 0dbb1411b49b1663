(** Concrete instances for C55, C59, C75 and C76. *)
From Coq Require Import Reals List Arith Lia Lra.
From Verif Require Import ScanModel FscModel ModelsRModel ModelsRSpec ModelsRProofs ModelsRMore.
Import ListNotations.
Local Open Scope R_scope.

Lemma turn0 : turn 0 (/ 2) = 0.
Proof.
  unfold turn. replace (0 + bda * 2 * (/ 2 - / 2)) with 0 by ring.
  destruct (Rlt_dec 0 0); [lra|]. destruct (Rlt_dec (2 * PI) 0); [pose proof PI_RGT_0; lra|reflexivity].
Qed.
Lemma walk0 x y : walk (/ 2) (Walker 0 x y) = Walker 0 (bounce x (x + 1)) (bounce y y).
Proof. unfold walk, br. cbn [w_angle w_x w_y]. rewrite turn0, cos_0, sin_0. f_equal; f_equal; ring. Qed.
Lemma gen_ex : genData (fun _ => / 2) 6 = Some [(5, 5); (6, 5); (7, 5); (8, 5); (9, 5); (8, 5)].
Proof.
  unfold genData. replace (bx0 + (bx1 - bx0) / 2) with 5 by (unfold bx0, bx1; field).
  assert (s : forall x, x = 5 \/ x = 6 \/ x = 7 \/ x = 8 -> walk (/ 2) (Walker 0 x 5) = Walker 0 (x + 1) 5).
  { intros x hx. rewrite walk0. unfold bounce, bx0, bx1, bs, br.
    destruct (Rle_dec (x + 1) (0 + 1 / 2)); [lra|]. destruct (Rle_dec (10 - 1 / 2) (x + 1)); [lra|].
    destruct (Rle_dec 5 (0 + 1 / 2)); [lra|]. destruct (Rle_dec (10 - 1 / 2) 5); [lra|]. reflexivity. }
  assert (l : walk (/ 2) (Walker 0 9 5) = Walker 0 8 5).
  { rewrite walk0. unfold bounce, bx0, bx1, bs, br.
    destruct (Rle_dec (9 + 1) (0 + 1 / 2)); [lra|]. destruct (Rle_dec (10 - 1 / 2) (9 + 1)); [|lra].
    destruct (Rle_dec 5 (0 + 1 / 2)); [lra|]. destruct (Rle_dec (10 - 1 / 2) 5); [lra|]. f_equal; lra. }
  cbn [walk_from].
  rewrite (s 5) by lra. replace (5 + 1) with 6 by lra. rewrite (s 6) by lra. replace (6 + 1) with 7 by lra.
  rewrite (s 7) by lra. replace (7 + 1) with 8 by lra. rewrite (s 8) by lra. replace (8 + 1) with 9 by lra.
  rewrite l. reflexivity.
Qed.
(** state (1, 2, 0, 3): heading along the first axis at speed 3 *)
Definition ex_x : vect := fun i => nth i [1; 2; 0; 3] 0.
Definition ex_u : vect := fun i => nth i [1; 1] 0.
Lemma jac_ex : nl_Fx (1 / 10) ex_x ex_u = [[1; 0; 0; 1 / 10]; [0; 1; 3 / 10; 0]; [0; 0; 1; 0]; [0; 0; 0; 1]].
Proof. unfold nl_Fx, ex_x. cbn [nth]. rewrite cos_0, sin_0. repeat (f_equal; try lra). Qed.
Lemma f_ex : tf_nl_f (1 / 10) [ex_x] [ex_u] = [[13 / 10; 2; 1 / 10; 31 / 10]].
Proof.
  rewrite tf_f_l by reflexivity. cbn [combine map fst snd]. unfold nl_f, ex_x, ex_u. cbn [nth]. rewrite cos_0, sin_0.
  repeat (f_equal; try lra).
Qed.
Lemma guess_ex : guess_ref (1 / 2) [(4, 2); (4, 2)]%nat [[0; 0; 0]; [3; 4; 1]] [7; 7; 7; 7] =
  Some ([[0; 0]; [0; 0]], [[7; 7; 7; 7]; [0; 0; 0; 0]; [3; 4; 1; 5]]).
Proof.
  unfold guess_ref. cbn [nth_error guess_loop zeros repeat fst snd upd].
  destruct (Rlt_dec (1 / 10) (Rabs (0 - 0))) as [h|_]; [exfalso; rewrite Rminus_0_r, Rabs_R0 in h; lra|].
  destruct (Rlt_dec (1 / 10) (Rabs (3 - 0))) as [_|h]; [|exfalso; apply h; rewrite Rabs_right; lra].
  destruct (Rlt_dec (1 / 10) (Rabs (4 - 0))) as [_|h]; [|exfalso; apply h; rewrite Rabs_right; lra].
  replace ((3 - 0) ^ 2 + (4 - 0) ^ 2) with (5 * 5) by ring. rewrite sqrt_square by lra. cbn [INR].
  repeat (f_equal; try lra).
Qed.
