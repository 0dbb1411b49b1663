From Coq Require Import List Arith Bool Lia.
From Verif Require Import LqtCtorModel LqtCtorSpec.
Import ListNotations.

Lemma has_shapeP x s : has_shape x s = true <-> shape x = s.
Proof. unfold has_shape. destruct list_eq_dec; split; congruence. Qed.

Lemma figure_T_iff a T : figure_T a = Some T <-> is_horizon a T.
Proof.
  unfold figure_T, is_horizon. destruct (aF a), (aL a), (aX a), (aU a); cbn; split; congruence.
Qed.

Lemma expand_iff T p l : expand T p = Some l <-> expands T p l.
Proof.
  unfold expand, expands. destruct p as [x|l'].
  - split.
    + intros [= <-]. split; [apply repeat_length|]. intros y h. now apply repeat_spec in h.
    + intros [<- h]. f_equal. induction l as [|y l IH]; [reflexivity|]. cbn. rewrite (h y) by now left. f_equal.
      apply IH. intros z hz. apply h. now right.
  - destruct (Nat.eqb_spec (length l') T); split.
    + now intros [= <-].
    + now intros [_ ->].
    + discriminate.
    + intros [? ->]. congruence.
Qed.
Lemma expand_d_iff T p d l : expand T (default p (One d)) = Some l <-> expands_d T p d l.
Proof. destruct p; apply expand_iff. Qed.
Lemma given_or_iff A (p : option A) d x : default p d = x <-> given_or p d x.
Proof. destruct p; cbn; split; congruence. Qed.

Lemma first_dim0 p n : first_dim p 0 = Some n <-> exists x t, first p = Some x /\ shape x = n :: t.
Proof.
  unfold first_dim. destruct (first p) as [x|]; [|split; [discriminate|now intros (? & ? & ? & ?)]].
  destruct (shape x) as [|a t] eqn:E; cbn; split; try discriminate.
  - intros (? & ? & [= <-] & ?). congruence.
  - intros [= <-]. eauto.
  - intros (? & ? & [= <-] & ?). congruence.
Qed.
Lemma first_dim1 p m : first_dim p 1 = Some m <-> exists x b t, first p = Some x /\ shape x = b :: m :: t.
Proof.
  unfold first_dim. destruct (first p) as [x|]; [|split; [discriminate|now intros (? & ? & ? & ? & ?)]].
  destruct (shape x) as [|a [|b t]] eqn:E; cbn; split; try discriminate;
    try (intros (? & ? & ? & [= <-] & ?); congruence).
  intros [= <-]. eauto 6.
Qed.

(** extract the pieces of a chain of [let!] and [check!] *)
Ltac chain H :=
  repeat match type of H with
  | (let! _ := ?e in _) = Some _ => let E := fresh "E" in destruct e eqn:E; [|discriminate H]
  | (check! ?b in _) = Some _ => let E := fresh "E" in destruct b eqn:E; [|discriminate H]
  end.

Lemma check_loop_iff o ks : check_loop o ks = Some tt <-> forall k, In k ks -> check_step o k = Some tt.
Proof.
  induction ks as [|k ks IH]; cbn; [easy|]. destruct (check_step o k) as [[]|] eqn:E.
  - rewrite IH. split; [intros h j [<-|]; auto|auto].
  - split; [discriminate|]. intros h. rewrite (h k) in E by auto. discriminate.
Qed.

Lemma check_step_iff o k n m : (exists x t, nth_error (oF o) 0 = Some x /\ shape x = n :: t) ->
  (exists x b t, nth_error (oL o) 0 = Some x /\ shape x = b :: m :: t) ->
  check_step o k = Some tt <-> exists p,
    sh (oF o) k [n; n] /\ sh (oL o) k [n; m] /\ sh (oX o) k [p; p] /\ sh (oU o) k [m; m] /\ sh (oc o) k [n] /\
    sh (oH o) k [p; n] /\ sh (or_ o) k [p] /\ sh (oZ o) k [m; m] /\ sh (os o) k [m] /\ sh (oM o) k [p; m].
Proof.
  intros (x & t & Ex & Es) (x' & b & t' & Ex' & Es'). unfold check_step, at_. rewrite Ex, Es, Ex', Es'. cbn [nth_error].
  unfold sh. split.
  - intros H. chain H.
    repeat match goal with h : has_shape _ _ = true |- _ => apply has_shapeP in h end.
    eexists. repeat split; eexists; (split; [reflexivity|eassumption]).
  - intros (p & (? & -> & h1) & (? & -> & h2) & (? & -> & h3) & (? & -> & h4) & (? & -> & h5) & (? & -> & h6) &
      (? & -> & h7) & (? & -> & h8) & (? & -> & h9) & (? & -> & h10)).
    rewrite h3; cbn [nth_error].
    repeat match goal with h : shape _ = _ |- _ => apply has_shapeP in h; rewrite h end. reflexivity.
Qed.

Lemma expands_first T p l x : expands T p l -> first p = Some x -> 0 < T -> nth_error l 0 = Some x.
Proof.
  intros [<- h] E hT. destruct l as [|y l]; [cbn in hT; lia|]. destruct p; cbn in *.
  - injection E as <-. f_equal. apply h. now left.
  - now subst l0.
Qed.

Theorem constructor_iff a o : checkAndExpand a = Some o <->
  exists T n m q, is_horizon a T /\ sizes a n m q /\ expanded a T n m q o /\ consistent n m T o.
Proof.
  split.
  - unfold checkAndExpand. intros H. cbv zeta in H. chain H. injection H as <-.
    apply figure_T_iff in E. rewrite first_dim0 in E0, E2. apply first_dim1 in E1.
    rewrite expand_iff in E3, E4, E5, E6. rewrite expand_d_iff in E7, E8, E9, E10, E11, E12.
    repeat match goal with h : has_shape _ _ = true |- _ => apply has_shapeP in h end.
    match goal with h : check_loop _ _ = Some ?u |- _ => destruct u; rename h into EL end.
    rewrite check_loop_iff in EL.
    exists n, n0, n1, n2. split; [easy|]. split; [easy|].
    split; [unfold expanded; cbn [oF oL oX oU oXT oc oH or_ oHT orT oZ os oM]; repeat match goal with |- _ /\ _ => split end; auto; now apply given_or_iff|].
    split; cbn [oF oL oX oU oXT oc oH or_ oHT orT oZ os oM].
    + eauto.
    + intros k hk. specialize (EL k). rewrite in_seq in EL. specialize (EL ltac:(lia)).
      eapply check_step_iff in EL; [exact EL| |]; cbn [oF oL].
      * destruct E0 as (x & t & h1 & h2). exists x, t. split; [|easy]. eapply expands_first; eauto. lia.
      * destruct E1 as (x & b & t & h1 & h2). exists x, b, t. split; [|easy]. eapply expands_first; eauto. lia.
  - intros (T & n & m & q & hT & (s1 & s2 & s3) & ((e1 & e2 & e3 & e4) & (e5 & e6 & e7) & (e8 & e9 & e10) & (g1 & g2 & g3)) & ((p & f1 & f2 & f3) & K)).
    unfold checkAndExpand. apply figure_T_iff in hT. rewrite hT.
    assert (F0 := s1). assert (L0 := s2).
    apply first_dim0 in s1, s3. apply first_dim1 in s2. rewrite s1, s2, s3. cbv zeta.
    rewrite <- expand_iff in e1, e2, e3, e4. rewrite <- expand_d_iff in e5, e6, e7, e8, e9, e10.
    rewrite e1, e2, e3, e4, e5, e6, e7, e8, e9, e10.
    rewrite <- given_or_iff in g1, g2, g3. rewrite g1, g2, g3, f1. cbn [nth_error].
    apply has_shapeP in f1, f2, f3. rewrite f1, f2, f3.
    assert (EL : check_loop o (seq 0 T) = Some tt).
    { apply check_loop_iff. intros k hk. apply in_seq in hk. apply (check_step_iff o k n m); [| |apply K; lia].
      - destruct F0 as (x & t & h1 & h2). exists x, t. split; [|easy]. apply expand_iff in e1. eapply expands_first; eauto. lia.
      - destruct L0 as (x & b & t & h1 & h2). exists x, b, t. split; [|easy]. apply expand_iff in e2. eapply expands_first; eauto. lia. }
    destruct o; cbn in *. now rewrite EL.
Qed.

(** a list of the wrong length makes the constructor raise *)
Theorem wrong_length_raises a T l : is_horizon a T -> length l <> T ->
  In (Some (Many l)) [Some (aF a); Some (aL a); Some (aX a); Some (aU a); ac a; aH a; ar a; aZ a; as_ a; aM a] ->
  checkAndExpand a = None.
Proof.
  intros hT hl hin. destruct (checkAndExpand a) as [o|] eqn:E; [exfalso|reflexivity].
  apply constructor_iff in E as (T' & n & m & q & hT' & _ & ((e1 & e2 & e3 & e4) & (e5 & e6 & e7) & (e8 & e9 & e10) & _) & _).
  rewrite <- figure_T_iff in hT, hT'. assert (T' = T) by congruence. subst T'. unfold expands_d in *.
  cbn [In] in hin. repeat destruct hin as [hin|hin]; try contradiction;
    try (injection hin as hin); rewrite hin in *; unfold expands in *;
    match goal with h : length ?x = T /\ ?x = l |- _ => destruct h; congruence end.
Qed.
