(** Recursive forms of the scan results, for use in inductions. *)
From Coq Require Import List Arith Lia.
From Verif Require Import ScanModel ScanSpec ScanProofs.
Import ListNotations.

Section Use.
Context {A : Type} (P : A -> Prop) (op : A -> A -> option A).

(** all prefix combinations of x :: l *)
Fixpoint scanl_o (x : A) (l : list A) : option (list A) :=
  match l with
  | [] => Some [x]
  | y :: l' => match op x y with
               | None => None
               | Some z => match scanl_o z l' with None => None | Some r => Some (x :: r) end
               end
  end.
(** all suffix combinations *)
Fixpoint scanr_o (l : list A) : option (list A) :=
  match l with
  | [] => Some []
  | x :: l' =>
      match scanr_o l' with
      | None => None
      | Some [] => Some [x]
      | Some (z :: r) => match op x z with None => None | Some w => Some (w :: z :: r) end
      end
  end.

Lemma nth_error_ext {X} (a b : list X) : (forall k, nth_error a k = nth_error b k) -> a = b.
Proof.
  revert b; induction a as [|x a IH]; intros [|y b] H; auto.
  - discriminate (H 0). - discriminate (H 0).
  - f_equal. + now injection (H 0). + apply IH; intros k; exact (H (S k)).
Qed.
Lemma list_ext {X} (a b : list X) : length a = length b -> (forall k, k < length a -> nth_error a k = nth_error b k) -> a = b.
Proof.
  intros L H; apply nth_error_ext; intros k. destruct (le_lt_dec (length a) k) as [h|h]; [|auto].
  rewrite (proj2 (nth_error_None a k)) by lia. rewrite (proj2 (nth_error_None b k)) by lia. reflexivity.
Qed.

Lemma scanl_o_spec : forall l x r, scanl_o x l = Some r ->
  length r = S (length l) /\ forall k, k < S (length l) -> nth_error r k = fold1 op x (firstn k l).
Proof.
  induction l as [|y l IH]; intros x r; cbn.
  - intros [= <-]; split; auto. intros [|k] h; [reflexivity|lia].
  - destruct (op x y) as [z|] eqn:E; [|discriminate]. destruct (scanl_o z l) as [r'|] eqn:E2; [|discriminate].
    intros [= <-]. destruct (IH _ _ E2) as [L N]. split; [cbn; lia|].
    intros [|k] h; [reflexivity|]. cbn. rewrite E. apply N. lia.
Qed.

Hypothesis C : closed_on P op.
Hypothesis As : assoc_on P op.

Lemma scanl_o_some : forall l x, P x -> Forall P l -> exists r, scanl_o x l = Some r.
Proof.
  induction l as [|y l IH]; intros x Px F; cbn; eauto. inversion F; subst.
  destruct (C x y) as (z & -> & Pz); auto. destruct (IH z) as [r ->]; eauto.
Qed.

Lemma scan_scanl x l : P x -> Forall P l -> my_assoc_scan op (x :: l) false = scanl_o x l.
Proof.
  intros Px F. destruct (scanl_o_some l x Px F) as [r Hr]. rewrite Hr.
  destruct (my_assoc_scan_spec P op (x :: l) false C As) as (r' & -> & L & _ & N); [discriminate|auto|].
  f_equal. destruct (scanl_o_spec _ _ _ Hr) as [L2 N2]. cbn in L.
  apply list_ext; [lia|]. intros k h. rewrite N2 by lia. apply N; cbn; lia.
Qed.

Lemma scanr_o_spec : forall l, Forall P l -> exists r, scanr_o l = Some r /\ length r = length l /\
  forall k, k < length l -> nth_error r k = total_of op (skipn k l).
Proof.
  induction l as [|x l IH]; intros F; cbn.
  - exists []; split; auto. split; auto. intros k h; lia.
  - inversion F as [|? ? Px Fl]; subst. destruct (IH Fl) as (r & -> & L & N).
    destruct l as [|y l].
    + destruct r; [|discriminate]. exists [x]; repeat split; auto. intros [|k] h; [reflexivity|cbn in h; lia].
    + destruct r as [|z r]; [discriminate|]. cbn in L.
      inversion Fl as [|? ? Py Fl']; subst.
      destruct (fold1_cons P op C As l x y) as (t & E1 & E2); auto.
      assert (t = z) as -> by (specialize (N 0 ltac:(cbn; lia)); cbn in N; congruence).
      destruct (fold1_P P op C l y) as (t & E3 & Pt); auto.
      assert (t = z) as -> by congruence.
      destruct (C x z) as (w & Ew & Pw); auto. rewrite Ew. exists (w :: z :: r). repeat split; [cbn; lia|].
      intros [|k] h; cbn.
      * rewrite <- Ew, <- E2. reflexivity.
      * apply N. lia.
Qed.

Lemma scan_scanr l : l <> [] -> Forall P l -> my_assoc_scan op l true = scanr_o l.
Proof.
  intros h F. destruct (scanr_o_spec l F) as (r & -> & L & N).
  destruct (my_assoc_scan_spec P op l true C As) as (r' & -> & L' & _ & N'); auto.
  f_equal. apply list_ext; [lia|]. intros k hk. rewrite N by lia. apply N'; lia.
Qed.
End Use.
