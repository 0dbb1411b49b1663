(** The iterations of one level of my_assoc_scan can be executed in any order. *)
From Coq Require Import List Arith Lia Permutation.
From Verif Require Import ScanModel ScanSpec ScanProofs.
Import ListNotations.

Section Frame.
Context {X : Type}.
Variable C : nat -> nat -> Prop.       (* C i k: iteration i may touch cell k *)
Variable body : nat -> list X -> option (list X).
Hypothesis Cdec : forall i k, C i k \/ ~ C i k.
Hypothesis F1 : forall j a r, body j a = Some r ->
  length r = length a /\ forall k, ~ C j k -> nth_error r k = nth_error a k.
Hypothesis F2 : forall i a b, length a = length b -> (forall k, C i k -> nth_error a k = nth_error b k) ->
  match body i a, body i b with
  | Some r, Some s => forall k, C i k -> nth_error r k = nth_error s k
  | None, None => True
  | _, _ => False
  end.

Lemma frame_comm i j s : (forall k, C i k -> C j k -> False) ->
  match body i s with None => None | Some s' => body j s' end =
  match body j s with None => None | Some s' => body i s' end.
Proof.
  intros D.
  destruct (body i s) as [si|] eqn:Ei, (body j s) as [sj|] eqn:Ej.
  - destruct (F1 _ _ _ Ei) as [Li Hi]. destruct (F1 _ _ _ Ej) as [Lj Hj].
    pose proof (F2 j s si (eq_sym Li)) as Qj.
    rewrite Ej in Qj.
    pose proof (F2 i s sj (eq_sym Lj)) as Qi. rewrite Ei in Qi.
    assert (Aj : forall k, C j k -> nth_error s k = nth_error si k).
    { intros k Hk. symmetry. apply Hi. intros Hk'. eapply D; eassumption. }
    assert (Ai : forall k, C i k -> nth_error s k = nth_error sj k).
    { intros k Hk. symmetry. apply Hj. intros Hk'. eapply D; eassumption. }
    specialize (Qj Aj). specialize (Qi Ai).
    destruct (body j si) as [sij|] eqn:Eij; [|contradiction].
    destruct (body i sj) as [sji|] eqn:Eji; [|contradiction].
    destruct (F1 _ _ _ Eij) as [Lij Hij]. destruct (F1 _ _ _ Eji) as [Lji Hji].
    f_equal. apply nth_error_ext. intros k.
    destruct (Cdec i k) as [Hk|Hk].
    + rewrite Hij by (intros H; eapply D; eassumption). apply Qi; exact Hk.
    + rewrite (Hji k Hk). destruct (Cdec j k) as [Hk'|Hk'].
      * symmetry. apply Qj; exact Hk'.
      * rewrite (Hij k Hk'), (Hi k Hk), (Hj k Hk'). reflexivity.
  - destruct (F1 _ _ _ Ei) as [Li Hi].
    pose proof (F2 j s si (eq_sym Li)) as Qj. rewrite Ej in Qj.
    destruct (body j si); [|reflexivity].
    exfalso. apply Qj. intros k Hk. symmetry. apply Hi. intros Hk'. eapply D; eassumption.
  - destruct (F1 _ _ _ Ej) as [Lj Hj].
    pose proof (F2 i s sj (eq_sym Lj)) as Qi. rewrite Ei in Qi.
    destruct (body i sj); [|reflexivity].
    exfalso. apply Qi. intros k Hk. symmetry. apply Hj. intros Hk'. eapply D; eassumption.
  - reflexivity.
Qed.
End Frame.

Lemma upd_some_iff {X} (a b : list X) i v w : length a = length b ->
  match upd a i v, upd b i w with Some _, Some _ => True | None, None => True | _, _ => False end.
Proof.
  intros H. destruct (Nat.lt_ge_cases i (length a)) as [Hi|Hi].
  - destruct (upd_some a i v Hi) as [? ->]. destruct (upd_some b i w) as [? ->]; [lia|exact I].
  - rewrite !upd_none by lia. exact I.
Qed.

Section Order.
Context {A : Type}.
Variable op : A -> A -> option A.

Definition cells (d i k : nat) : Prop := k = i + 2 ^ d - 1 \/ k = i + 2 ^ (d + 1) - 1.

Lemma cells_dec d i k : cells d i k \/ ~ cells d i k.
Proof. unfold cells. lia. Qed.

Lemma up_frame1 d j a r : up_body op d j a = Some r ->
  length r = length a /\ forall k, ~ cells d j k -> nth_error r k = nth_error a k.
Proof.
  unfold up_body, cells.
  destruct (nth_error a _) as [x|]; [|discriminate]. destruct (nth_error a _) as [y|]; [|discriminate].
  destruct (comb op x y); [|discriminate]. intros H. split; [eapply upd_length; eassumption|].
  intros k Hk. eapply upd_nth_other; [eassumption|]. lia.
Qed.

Lemma up_frame2 d i a b : length a = length b -> (forall k, cells d i k -> nth_error a k = nth_error b k) ->
  match up_body op d i a, up_body op d i b with
  | Some r, Some s => forall k, cells d i k -> nth_error r k = nth_error s k
  | None, None => True
  | _, _ => False
  end.
Proof.
  intros HL H. unfold up_body.
  rewrite <- (H (i + 2 ^ d - 1)) by (left; reflexivity).
  rewrite <- (H (i + 2 ^ (d + 1) - 1)) by (right; reflexivity).
  destruct (nth_error a (i + 2 ^ d - 1)) as [x|]; [|exact I].
  destruct (nth_error a (i + 2 ^ (d + 1) - 1)) as [y|]; [|exact I].
  destruct (comb op x y) as [v|]; [|exact I].
  pose proof (upd_some_iff a b (i + 2 ^ (d + 1) - 1) v v HL) as HU.
  destruct (upd a _ v) as [r|] eqn:Er; destruct (upd b _ v) as [s|] eqn:Es; try exact HU.
  intros k Hk. destruct (Nat.eq_dec k (i + 2 ^ (d + 1) - 1)) as [->|Hne].
  - rewrite (upd_nth_same _ _ _ _ Er), (upd_nth_same _ _ _ _ Es). reflexivity.
  - rewrite (upd_nth_other _ _ k _ _ Er), (upd_nth_other _ _ k _ _ Es) by lia. apply H; assumption.
Qed.

Lemma down_frame1 d j a r : down_body op d j a = Some r ->
  length r = length a /\ forall k, ~ cells d j k -> nth_error r k = nth_error a k.
Proof.
  unfold down_body, cells.
  destruct (nth_error a _) as [x|]; [|discriminate]. destruct (nth_error a _) as [y|]; [|discriminate].
  destruct (upd a _ y) as [a1|] eqn:E1; [|discriminate].
  destruct (comb op y x); [|discriminate]. intros H. split.
  - apply upd_length in H. apply upd_length in E1. lia.
  - intros k Hk. rewrite (upd_nth_other _ _ k _ _ H) by lia. apply (upd_nth_other _ _ k _ _ E1). lia.
Qed.

Lemma down_frame2 d i a b : length a = length b -> (forall k, cells d i k -> nth_error a k = nth_error b k) ->
  match down_body op d i a, down_body op d i b with
  | Some r, Some s => forall k, cells d i k -> nth_error r k = nth_error s k
  | None, None => True
  | _, _ => False
  end.
Proof.
  intros HL H. unfold down_body.
  rewrite <- (H (i + 2 ^ d - 1)) by (left; reflexivity).
  rewrite <- (H (i + 2 ^ (d + 1) - 1)) by (right; reflexivity).
  destruct (nth_error a (i + 2 ^ d - 1)) as [x|]; [|exact I].
  destruct (nth_error a (i + 2 ^ (d + 1) - 1)) as [y|]; [|exact I].
  pose proof (upd_some_iff a b (i + 2 ^ d - 1) y y HL) as HU1.
  destruct (upd a _ y) as [a1|] eqn:Ea1; destruct (upd b _ y) as [b1|] eqn:Eb1; try exact HU1; try contradiction.
  destruct (comb op y x) as [v|]; [|exact I].
  assert (HL1 : length a1 = length b1) by (rewrite (upd_length _ _ _ _ Ea1), (upd_length _ _ _ _ Eb1); exact HL).
  pose proof (upd_some_iff a1 b1 (i + 2 ^ (d + 1) - 1) v v HL1) as HU.
  destruct (upd a1 _ v) as [r|] eqn:Er; destruct (upd b1 _ v) as [s|] eqn:Es; try exact HU.
  intros k Hk. destruct (Nat.eq_dec k (i + 2 ^ (d + 1) - 1)) as [->|Hne].
  - rewrite (upd_nth_same _ _ _ _ Er), (upd_nth_same _ _ _ _ Es). reflexivity.
  - rewrite (upd_nth_other _ _ k _ _ Er), (upd_nth_other _ _ k _ _ Es) by lia.
    destruct Hk as [->|Hk]; [|lia].
    rewrite (upd_nth_same _ _ _ _ Ea1), (upd_nth_same _ _ _ _ Eb1). reflexivity.
Qed.

Lemma extra_frame1 a0 j a r : extra_body op a0 j a = Some r ->
  length r = length a /\ forall k, ~ k = j -> nth_error r k = nth_error a k.
Proof.
  unfold extra_body.
  destruct (nth_error a j) as [x|]; [|discriminate]. destruct (nth_error a0 j) as [y|]; [|discriminate].
  destruct (comb op x y); [|discriminate]. intros H. split; [eapply upd_length; eassumption|].
  intros k Hk. eapply upd_nth_other; [eassumption|]. lia.
Qed.

Lemma extra_frame2 a0 i a b : length a = length b -> (forall k, k = i -> nth_error a k = nth_error b k) ->
  match extra_body op a0 i a, extra_body op a0 i b with
  | Some r, Some s => forall k, k = i -> nth_error r k = nth_error s k
  | None, None => True
  | _, _ => False
  end.
Proof.
  intros HL H. unfold extra_body. rewrite <- (H i eq_refl).
  destruct (nth_error a i) as [x|]; [|exact I]. destruct (nth_error a0 i) as [y|]; [|exact I].
  destruct (comb op x y) as [v|]; [|exact I].
  pose proof (upd_some_iff a b i v v HL) as HU.
  destruct (upd a i v) as [r|] eqn:Er; destruct (upd b i v) as [s|] eqn:Es; try exact HU.
  intros k ->. rewrite (upd_nth_same _ _ _ _ Er), (upd_nth_same _ _ _ _ Es). reflexivity.
Qed.

Lemma range_step_In n s i : In i (range_step n s) -> exists q, i = q * s.
Proof. unfold range_step. intros H. apply in_map_iff in H as (q & <- & _). eauto. Qed.

Lemma range_step_NoDup n s : 0 < s -> NoDup (range_step n s).
Proof.
  intros Hs. unfold range_step. generalize (seq_NoDup ((n + s - 1) / s) 0).
  generalize (seq 0 ((n + s - 1) / s)). induction 1 as [|x l Hx Hl IH]; simpl; constructor; auto.
  intros H. apply in_map_iff in H as (y & E & Hy). apply Hx. assert (y = x) by nia. subst; assumption.
Qed.

Lemma cells_disjoint n d i j : In i (range_step n (2 ^ (d + 1))) -> In j (range_step n (2 ^ (d + 1))) -> i <> j ->
  forall k, cells d i k -> cells d j k -> False.
Proof.
  intros Hi Hj Hne k. apply range_step_In in Hi as (p & ->). apply range_step_In in Hj as (q & ->).
  unfold cells. rewrite Nat.add_1_r. cbn [Nat.pow] in *. pose proof (pow_pos d).
  intros H1 H2. assert (p <> q) by (intros ->; apply Hne; reflexivity).
  assert (p < q \/ q < p) as [Hl|Hl] by lia; nia.
Qed.

Theorem up_level_any_order n d is a : Permutation (range_step n (2 ^ (d + 1))) is ->
  for_ is (up_body op d) a = up_level op n d a.
Proof.
  intros HP. symmetry. apply for_perm; [exact HP|apply range_step_NoDup; apply pow_pos|].
  intros i j s Hi Hj Hne.
  apply (frame_comm (cells d)); [apply cells_dec|apply up_frame1|apply up_frame2|].
  eapply cells_disjoint; eassumption.
Qed.

Theorem down_level_any_order n d is a : Permutation (range_step n (2 ^ (d + 1))) is ->
  for_ is (down_body op d) a = down_level op n d a.
Proof.
  intros HP. symmetry. apply for_perm; [exact HP|apply range_step_NoDup; apply pow_pos|].
  intros i j s Hi Hj Hne.
  apply (frame_comm (cells d)); [apply cells_dec|apply down_frame1|apply down_frame2|].
  eapply cells_disjoint; eassumption.
Qed.

Theorem extra_level_any_order n a0 is a : Permutation (seq 0 n) is ->
  for_ is (extra_body op a0) a = extra_level op n a0 a.
Proof.
  intros HP. symmetry. apply for_perm; [exact HP|apply seq_NoDup|].
  intros i j s Hi Hj Hne.
  apply (frame_comm (fun i k => k = i)).
  - intros; lia.
  - apply extra_frame1.
  - apply extra_frame2.
  - intros; congruence.
Qed.

(** ** A whole run with arbitrary schedules *)

(** [sched] picks an execution order for every level *)
Definition valid_schedule (n : nat) (sched : nat -> list nat) : Prop :=
  forall d, Permutation (range_step n (2 ^ (d + 1))) (sched d).

Definition scan_fwd_sched (su sd : nat -> list nat) (se : list nat) (a : list A) : option (list A) :=
  let orig_n := length a in
  match orig_n with
  | 0 => None
  | _ =>
    let log_n := Nat.log2_up orig_n in
    let n := 2 ^ log_n in
    let a0 := map Some a ++ repeat None (n - orig_n) in
    match for_ (seq 0 log_n) (fun d => for_ (su d) (up_body op d)) a0 with
    | None => None
    | Some a1 =>
      match upd a1 (n - 1) None with
      | None => None
      | Some a2 =>
        match for_ (rev (seq 0 log_n)) (fun d => for_ (sd d) (down_body op d)) a2 with
        | None => None
        | Some a3 =>
          match for_ se (extra_body op a0) a3 with
          | None => None
          | Some a4 => unwrap (firstn orig_n a4)
          end
        end
      end
    end
  end.

Theorem scan_any_schedule su sd se a :
  let n := 2 ^ Nat.log2_up (length a) in
  valid_schedule n su -> valid_schedule n sd -> Permutation (seq 0 n) se ->
  scan_fwd_sched su sd se a = scan_fwd op a.
Proof.
  intros n Hu Hd He. unfold scan_fwd_sched, scan_fwd. destruct a as [|x l]; [reflexivity|].
  cbn [length] in *. fold n.
  rewrite (for_ext (seq 0 (Nat.log2_up (S (length l)))) _ (up_level op n))
    by (intros d s _; apply up_level_any_order, Hu).
  destruct (for_ _ (up_level op n) _) as [a1|]; [|reflexivity].
  destruct (upd a1 (n - 1) None) as [a2|]; [|reflexivity].
  rewrite (for_ext (rev (seq 0 (Nat.log2_up (S (length l))))) _ (down_level op n))
    by (intros d s _; apply down_level_any_order, Hd).
  destruct (for_ _ (down_level op n) _) as [a3|]; [|reflexivity].
  rewrite (extra_level_any_order n) by exact He. reflexivity.
Qed.
End Order.
