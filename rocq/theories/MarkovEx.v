(** Example lemmas for Properties_Markov.v. *)
From Coq Require Import List Arith ZArith Bool Reals Lra Lia.
From Verif Require Import ScanModel Ord FscModel FscSpec FscCore FscProofs VitSpec VitModel MarkovModel MarkovSpec MarkovFm MarkovGe MarkovText MarkovText2 MarkovText3 MarkovText4 MarkovMain.
Import ListNotations.

(** first walker: down, then stays; second walker: up twice, stopped at the end *)
Definition ex_draws (r k : nat) : R := match r, k with 0, 0 => 1/10 | 0, _ => 1/2 | _, _ => 9/10 end.
Ltac cmp := repeat match goal with
  | |- context[Rltb ?a ?b] => first [rewrite (proj2 (Rltb_lt a b)) by lra | rewrite (proj2 (Rltb_ge a b)) by lra] end.
Lemma ex_scene : exists track, fm_genData ex_draws 2 3 = Some (track, 1) /\
  get2 track 0 0 = Some (1/10 * (5/10))%R /\ get2 track 2 1 = Some (5/10 * (1/10))%R.
Proof.
  exists (tab 3 2 (scene 3 ex_draws)). split; [apply genData_tab|]. rewrite !get2_tab by lia.
  unfold scene, pos. change (3 / 2) with 1. unfold walk_step, ex_draws.
  split; f_equal.
  - cmp. reflexivity.
  - cmp. simpl. cmp. reflexivity.
Qed.
Definition ex_track : arr R := Arr 2 2 [[1; 3]; [0; 5]]%R.
Lemma ex_game : arr_ok ex_track /\ game_cost 2 (fun x k => nth k (nth x (adata ex_track) []) 0%R) 0 0 [2; 0] = 8%R.
Proof. split; [split; [reflexivity|repeat constructor]|]. cbn [game_cost adata ex_track nth game_move Nat.eqb Nat.min Nat.add Nat.sub]. simpl. lra. Qed.

Lemma ex_choice : distribution [1/4; 0; 3/4]%R /\ choice [1/4; 0; 3/4]%R (1/2) = Some 2 /\ choice [1/4; 1/4]%R (1/2) = None.
Proof.
  assert (D : distribution [1/4; 0; 3/4]%R) by (fa; simpl; lra).
  split; [exact D|]. split.
  - apply choice_iff; [exact D|unfold unit_draw; lra|]. split; [simpl; lia|]. unfold in_slot. simpl. lra.
  - apply choice_raises. intros [_ H]. simpl in H. lra.
Qed.
Lemma ex_bits : get_b_list [0; 1; 2; 3; 7]%Z = [0; 0; 1; 1; 0]%Z.
Proof. reflexivity. Qed.
Lemma ex_draw_pair : unit_draw (1/2) /\ forall k : nat, unit_draw (fst ((fun _ => (1/3, 1/4)%R) k)) /\ unit_draw (snd ((fun _ => (1/3, 1/4)%R) k)).
Proof. unfold unit_draw. simpl. split; [lra|]. intros _. lra. Qed.

(** alphabet "ab", order 2 *)
Lemma ex_text : exists M, text_init [97; 98] (1/10) 2 = Some M /\
  cond_chars M = [[97; 97]; [97; 98]; [98; 97]; [98; 98]] /\ cond_index M [98; 97] = Some 2 /\ cond_index M [98; 99] = None /\
  textToIndex M [98; 97; 97] = Some [1; 0; 0] /\ indexToText M [2; 3; 1] = Some [97; 98; 98].
Proof. eexists. split; [reflexivity|]. repeat split; reflexivity. Qed.
Lemma ex_alphabet : NoDup [97; 98] /\ over [97; 98] [97; 98; 97; 98; 98] /\ probability (1/10) /\
  occurrences [97; 98] [97; 98; 97; 98; 98] = 2 /\ occurrences [97; 98; 97] [97; 98; 97; 98; 98] = 1 /\
  context_weight [97; 98] [97; 98; 97; 98; 98] 2 1 2 = (/ 10 ^ 12 + (1 + 1))%R /\
  context_weight [97; 98] [97; 98; 97; 98; 98] 2 0 3 = (/ 10 ^ 12 + 0)%R.
Proof.
  split; [repeat constructor; simpl; intuition discriminate|]. split; [repeat (apply Forall_cons; [simpl; auto|]); apply Forall_nil|].
  split; [unfold probability; lra|]. repeat split; reflexivity.
Qed.
Lemma ex_foreign : ~ over [97; 98] [97; 99].
Proof. intros H. pose proof (Forall_inv (Forall_inv_tail H)) as Q. simpl in Q. intuition discriminate. Qed.
