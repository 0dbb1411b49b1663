(** Cost structures for the discrete problems: totally ordered commutative monoids.
    The Python code uses floats; floats without rounding are an instance (Z, Qc, R below). *)
From Coq Require Import List Arith ZArith Lia Bool QArith Qcanon Reals Lra.
Import ListNotations.

Record ordcost := OrdCost {
  car :> Type;
  cadd : car -> car -> car;
  czero : car;
  cleb : car -> car -> bool;
  cadd_assoc : forall a b c, cadd (cadd a b) c = cadd a (cadd b c);
  cadd_comm : forall a b, cadd a b = cadd b a;
  cadd_0_l : forall a, cadd czero a = a;
  cle_total : forall a b, cleb a b = true \/ cleb b a = true;
  cle_trans : forall a b c, cleb a b = true -> cleb b c = true -> cleb a c = true;
  cle_antisym : forall a b, cleb a b = true -> cleb b a = true -> a = b;
  cadd_mono : forall a b c, cleb a b = true -> cleb (cadd c a) (cadd c b) = true
}.
Arguments cadd {_}. Arguments czero {_}. Arguments cleb {_}.
Arguments cadd_assoc {_}. Arguments cadd_comm {_}. Arguments cadd_0_l {_}.
Arguments cle_total {_}. Arguments cle_trans {_}. Arguments cle_antisym {_}. Arguments cadd_mono {_}.

Declare Scope cost_scope.
Delimit Scope cost_scope with cost.
Infix "+" := cadd : cost_scope.
Notation "a <= b" := (cleb a b = true) : cost_scope.
(** strict order: a < b iff not b <= a *)
Definition cltb {K : ordcost} (a b : K) : bool := negb (cleb b a).
Notation "a < b" := (cltb a b = true) : cost_scope.

(** addition preserves strict inequalities (true for Z, Qc, R; false with +infinity) *)
Definition strict_add (K : ordcost) : Prop :=
  forall a b c : K, (a < b -> c + a < c + b)%cost.

Section Facts.
Variable K : ordcost.
Implicit Types a b c d : K.
Local Open Scope cost_scope.

Lemma cle_refl a : a <= a.
Proof. destruct (cle_total a a); assumption. Qed.
Lemma cadd_0_r a : a + czero = a.
Proof. rewrite cadd_comm. apply cadd_0_l. Qed.
Lemma cadd_mono2 a b c d : a <= b -> c <= d -> a + c <= b + d.
Proof.
  intros H1 H2. apply (cle_trans _ (a + d)); [apply cadd_mono; assumption|].
  rewrite (cadd_comm a), (cadd_comm b). apply cadd_mono; assumption.
Qed.
Lemma clt_not_le a b : a < b <-> ~ b <= a.
Proof. unfold cltb. rewrite negb_true_iff. destruct (cleb b a); intuition congruence. Qed.
Lemma cle_not_lt a b : a <= b <-> ~ b < a.
Proof. rewrite clt_not_le. destruct (cleb a b); intuition congruence. Qed.
Lemma clt_le a b : a < b -> a <= b.
Proof. intros H. destruct (cle_total a b) as [|E]; [assumption|]. apply clt_not_le in H. contradiction. Qed.
Lemma cle_lt_trans a b c : a <= b -> b < c -> a < c.
Proof. rewrite !clt_not_le. intros H1 H2 H3. apply H2. eapply cle_trans; eassumption. Qed.
Lemma clt_le_trans a b c : a < b -> b <= c -> a < c.
Proof. rewrite !clt_not_le. intros H1 H2 H3. apply H1. eapply cle_trans; eassumption. Qed.
Lemma clt_irrefl a : ~ a < a.
Proof. rewrite clt_not_le. intros H; apply H, cle_refl. Qed.
Lemma cle_lt_dec a b : {a <= b} + {b < a}.
Proof. unfold cltb. destruct (cleb a b) eqn:E; [left; reflexivity|right; reflexivity]. Qed.
Lemma cle_lt_or a b : a <= b -> a < b \/ a = b.
Proof.
  intros H. destruct (cle_lt_dec b a) as [H'|H']; [right; apply cle_antisym; assumption|left; exact H'].
Qed.

Definition cmin a b : K := if cleb a b then a else b.
Lemma cmin_le_l a b : cmin a b <= a.
Proof. unfold cmin. destruct (cleb a b) eqn:E; [apply cle_refl|]. destruct (cle_total a b); congruence. Qed.
Lemma cmin_le_r a b : cmin a b <= b.
Proof. unfold cmin. destruct (cleb a b) eqn:E; [exact E|apply cle_refl]. Qed.
Lemma cmin_cases a b : cmin a b = a \/ cmin a b = b.
Proof. unfold cmin. destruct (cleb a b); auto. Qed.
Lemma cmin_glb a b c : c <= a -> c <= b -> c <= cmin a b.
Proof. intros; destruct (cmin_cases a b) as [-> | ->]; assumption. Qed.
End Facts.
Arguments cmin {_}.

(** * numpy min and argmin of a vector *)

(** .min(): raises ValueError on an empty array *)
Fixpoint min_from {K : ordcost} (b : K) (l : list K) : K :=
  match l with [] => b | x :: t => min_from (if cltb x b then x else b) t end.
Definition vmin {K : ordcost} (l : list K) : option K :=
  match l with [] => None | x :: t => Some (min_from x t) end.

(** .argmin(): index of the first smallest entry *)
Fixpoint argmin_from {K : ordcost} (best : K) (besti i : nat) (l : list K) : nat :=
  match l with
  | [] => besti
  | x :: t => if cltb x best then argmin_from x i (S i) t else argmin_from best besti (S i) t
  end.
Definition argmin {K : ordcost} (l : list K) : option nat :=
  match l with [] => None | x :: t => Some (argmin_from x 0 1 t) end.

Section MinFacts.
Variable K : ordcost.
Local Open Scope cost_scope.

Lemma min_from_spec (l : list K) : forall b, min_from b l <= b /\ (forall x, In x l -> min_from b l <= x) /\
  (min_from b l = b \/ In (min_from b l) l).
Proof.
  induction l as [|y l IH]; intros b; simpl.
  - split; [apply cle_refl|]. split; [intros ? []|]. left; reflexivity.
  - destruct (cltb y b) eqn:E.
    + destruct (IH y) as (H1 & H2 & H3). split; [|split].
      * eapply cle_trans; [exact H1|]. apply clt_le; exact E.
      * intros x [<-|Hx]; auto.
      * destruct H3 as [->|H3]; auto.
    + destruct (IH b) as (H1 & H2 & H3). split; [exact H1|]. split.
      * intros x [<-|Hx]; auto. eapply cle_trans; [exact H1|]. apply cle_not_lt. rewrite E. discriminate.
      * destruct H3 as [->|H3]; auto.
Qed.

Lemma vmin_spec (l : list K) v : vmin l = Some v <-> In v l /\ forall x, In x l -> v <= x.
Proof.
  destruct l as [|y l]; simpl; [intuition discriminate|].
  destruct (min_from_spec l y) as (H1 & H2 & H3). split.
  - intros [= <-]. split; [destruct H3 as [->|]; auto|]. intros x [<-|Hx]; auto.
  - intros [Hv Hle]. f_equal. apply cle_antisym.
    + destruct Hv as [<-|Hv]; auto.
    + apply Hle. destruct H3 as [->|]; auto.
Qed.

Lemma vmin_some (l : list K) : l <> [] -> exists v, vmin l = Some v.
Proof. destruct l; [congruence|]. simpl; eauto. Qed.

Lemma argmin_from_spec (l : list K) : forall (best : K) besti i (pre : list K),
  length pre = i -> nth_error pre besti = Some best ->
  (forall j y, nth_error pre j = Some y -> best <= y) ->
  (forall j y, nth_error pre j = Some y -> (j < besti)%nat -> best < y) ->
  exists v, nth_error (pre ++ l) (argmin_from best besti i l) = Some v /\
    (forall j y, nth_error (pre ++ l) j = Some y -> v <= y) /\
    (forall j y, nth_error (pre ++ l) j = Some y -> (j < argmin_from best besti i l)%nat -> v < y).
Proof.
  induction l as [|x l IH]; intros best besti i pre HL HB Hle Hlt; simpl.
  - rewrite app_nil_r. exists best. auto.
  - assert (Ex : nth_error (pre ++ [x]) i = Some x).
    { rewrite nth_error_app2, HL, Nat.sub_diag by lia. reflexivity. }
    assert (Eold : forall j y, nth_error (pre ++ [x]) j = Some y ->
               (nth_error pre j = Some y) \/ (j = i /\ y = x)).
    { intros j y Hj. destruct (Nat.lt_ge_cases j i) as [Hj'|Hj'].
      - left. rewrite nth_error_app1 in Hj by lia. exact Hj.
      - right. assert (j = i).
        { assert (j < length (pre ++ [x]))%nat by (apply nth_error_Some; congruence).
          rewrite app_length in H. simpl in H. lia. }
        subst j. rewrite Ex in Hj. split; congruence. }
    destruct (cltb x best) eqn:E.
    + destruct (IH x i (S i) (pre ++ [x])) as (v & H1 & H2 & H3).
      * rewrite app_length; simpl; lia.
      * exact Ex.
      * intros j y Hj. destruct (Eold j y Hj) as [Hj'|[_ ->]]; [|apply cle_refl].
        apply clt_le. eapply clt_le_trans; [exact E|]. eauto.
      * intros j y Hj Hji. destruct (Eold j y Hj) as [Hj'|[-> _]]; [|lia].
        eapply clt_le_trans; [exact E|]. eauto.
      * rewrite <- app_assoc in *. exists v. auto.
    + destruct (IH best besti (S i) (pre ++ [x])) as (v & H1 & H2 & H3).
      * rewrite app_length; simpl; lia.
      * rewrite nth_error_app1; [exact HB|]. apply nth_error_Some. congruence.
      * intros j y Hj. destruct (Eold j y Hj) as [Hj'|[_ ->]]; [eauto|].
        apply cle_not_lt. rewrite E. discriminate.
      * intros j y Hj Hji. destruct (Eold j y Hj) as [Hj'|[-> ->]]; [eauto|].
        assert (besti < i)%nat by (rewrite <- HL; apply nth_error_Some; congruence). lia.
      * rewrite <- app_assoc in *. exists v. auto.
Qed.

Lemma argmin_spec (l : list K) i : argmin l = Some i ->
  exists v, nth_error l i = Some v /\ (forall j y, nth_error l j = Some y -> v <= y) /\
    (forall j y, nth_error l j = Some y -> (j < i)%nat -> v < y).
Proof.
  destruct l as [|x l]; [discriminate|]. intros [= <-].
  apply (argmin_from_spec l x 0 1 [x]).
  - reflexivity.
  - reflexivity.
  - intros [|[|j]] y; simpl; try discriminate. intros [= <-]; apply cle_refl.
  - intros; lia.
Qed.

Lemma argmin_some (l : list K) : l <> [] -> exists i, argmin l = Some i.
Proof. destruct l; [congruence|]. simpl; eauto. Qed.

Lemma argmin_lt (l : list K) i : argmin l = Some i -> (i < length l)%nat.
Proof. intros H. destruct (argmin_spec l i H) as (v & Hv & _). apply nth_error_Some. congruence. Qed.

Lemma argmin_vmin (l : list K) i : argmin l = Some i -> exists v, nth_error l i = Some v /\ vmin l = Some v.
Proof.
  intros H. destruct (argmin_spec l i H) as (v & Hv & Hle & _). exists v. split; [exact Hv|].
  apply vmin_spec. split; [eapply nth_error_In; eassumption|].
  intros x Hx. apply In_nth_error in Hx as [j Hj]. eauto.
Qed.
End MinFacts.

(** * Instances *)
Lemma Z_mono a b c : Z.leb a b = true -> Z.leb (c + a) (c + b) = true.
Proof. rewrite !Z.leb_le. lia. Qed.
Definition Zcost : ordcost.
Proof.
  refine (OrdCost Z Z.add 0%Z Z.leb _ _ _ _ _ _ _).
  - intros; lia.
  - intros; lia.
  - intros; lia.
  - intros. rewrite !Z.leb_le. lia.
  - intros a b c. rewrite !Z.leb_le. lia.
  - intros a b. rewrite !Z.leb_le. lia.
  - exact Z_mono.
Defined.
Lemma Zcost_strict : strict_add Zcost.
Proof. intros a b c. unfold cltb. simpl. rewrite !negb_true_iff, !Z.leb_gt. lia. Qed.

Definition Rleb (a b : R) : bool := if Rle_dec a b then true else false.
Lemma Rleb_le a b : Rleb a b = true <-> (a <= b)%R.
Proof. unfold Rleb. destruct (Rle_dec a b); intuition congruence. Qed.
Definition Rcost : ordcost.
Proof.
  refine (OrdCost R Rplus 0%R Rleb _ _ _ _ _ _ _).
  - intros; lra.
  - intros; lra.
  - intros; lra.
  - intros. rewrite !Rleb_le. lra.
  - intros a b c. rewrite !Rleb_le. lra.
  - intros a b. rewrite !Rleb_le. lra.
  - intros a b c. rewrite !Rleb_le. lra.
Defined.
Lemma Rcost_strict : strict_add Rcost.
Proof.
  intros a b c. unfold cltb. simpl. rewrite !negb_true_iff. unfold Rleb.
  destruct (Rle_dec b a), (Rle_dec (c + b) (c + a)); intros; try reflexivity; try discriminate; lra.
Qed.
