(** Viterbi recursions over any ordered cost monoid. *)
From Coq Require Import List Arith Lia Bool.
From Verif Require Import ScanModel ScanSpec ScanUse Ord FscModel FscSpec FscCore FscProofs FscProofs2 TfScan VitModel.
Import ListNotations.
Local Open Scope cost_scope.
Local Notation "i << n" := (lt i n) (at level 70).

Section V.
Variable K : ordcost.
Variables n ny : nat.
Hypothesis Hn : 0 << n.
Variable pr : nat -> K.
Variables p o : nat -> nat -> K.

(** the stage of one measurement, run backwards in time *)
Definition vst (y : nat) : stg K := Stg (fun _ u => u) (fun x u => o x y + p u x).
Definition vss (ys : list nat) : list (stg K) := map vst (rev ys).
Definition VV (ys : list nat) : nat -> K := Vf n (vss ys) pr.

Lemma vst_ok y : sok n n (vst y). Proof. intros x u _ h. exact h. Qed.
Lemma vss_ok ys : Forall (sok n n) (vss ys).
Proof. apply Forall_map, Forall_forall. intros. apply vst_ok. Qed.
Lemma vss_length ys : length (vss ys) = length ys. Proof. unfold vss. now rewrite map_length, rev_length. Qed.
Lemma vss_snoc ys y : vss (ys ++ [y]) = vst y :: vss ys. Proof. unfold vss. now rewrite rev_app_distr. Qed.
Lemma VV_snoc ys y x : VV (ys ++ [y]) x = minv n (fun i => o x y + p i x + VV ys i).
Proof. unfold VV. rewrite vss_snoc. reflexivity. Qed.

(** cost of a path *)
Fixpoint pcost (x : nat) (xs ys : list nat) : K :=
  match xs, ys with x' :: xs', y :: ys' => p x x' + o x' y + pcost x' xs' ys' | _, _ => czero end.
Definition gj (xs ys : list nat) : K := match xs with x :: xs' => pr x + pcost x xs' ys | [] => czero end.

Lemma pcost_snoc x' z y : forall xs ys x, length xs = length ys -> last (x :: xs) x = x' ->
  pcost x (xs ++ [z]) (ys ++ [y]) = pcost x xs ys + (p x' z + o z y).
Proof.
  induction xs as [|a xs IH]; intros [|b ys] x L E; try discriminate.
  - cbn in E. subst x'. cbn. now rewrite cadd_0_r, cadd_0_l.
  - cbn [app pcost]. injection L as L. rewrite IH; [|easy|].
    + now rewrite !cadd_assoc.
    + rewrite <- E. cbn. destruct xs; [reflexivity|]. clear. revert n0. induction xs; intros; [reflexivity|]. cbn in *. apply IHxs.
Qed.
Lemma gj_snoc xs x z ys y : length xs = length ys ->
  gj ((xs ++ [x]) ++ [z]) (ys ++ [y]) = gj (xs ++ [x]) ys + (p x z + o z y).
Proof.
  intros L. destruct xs as [|a xs].
  - destruct ys; [|discriminate]. cbn. now rewrite !cadd_0_r.
  - cbn [app gj]. rewrite (pcost_snoc x); [now rewrite cadd_assoc| |].
    + rewrite app_length. cbn in *. lia.
    + clear. change (a :: xs ++ [x]) with ((a :: xs) ++ [x]). apply last_last.
Qed.
Lemma gj_rc ys : forall xs x us, length us = length ys -> rev xs = x :: us -> gj xs ys = rc (vss ys) pr x us.
Proof.
  induction ys as [|y ys IH] using rev_ind; intros xs x us L E.
  - destruct us; [|discriminate]. apply (f_equal (@rev nat)) in E. rewrite rev_involutive in E. subst xs. cbn. apply cadd_0_r.
  - rewrite app_length in L. destruct us as [|x' us]; [cbn in L; lia|].
    apply (f_equal (@rev nat)) in E. rewrite rev_involutive in E. subst xs. cbn [rev].
    rewrite gj_snoc by (rewrite rev_length; cbn in L; lia). rewrite vss_snoc. cbn [rc]. cbn [vst sL sf].
    rewrite (IH (rev us ++ [x']) x' us).
    + now rewrite (cadd_comm (o x y)), (cadd_comm (rc _ _ _ _)).
    + cbn in L. lia.
    + rewrite rev_app_distr, rev_involutive. reflexivity.
Qed.

(** ** the values *)
Local Notation Pr := (vec n pr). Local Notation Pi := (tab n n p). Local Notation Po := (tab n ny o).

Lemma temp_tableE y v : y << ny ->
  temp_table Pi Po y (vec n v) = Some (tab n n (fun i j => o j y + p i j + v i)).
Proof.
  intros hy. unfold temp_table. rewrite ncols_tab by exact Hn. rewrite tab_length.
  apply (mapM_seq _ (fun i => vec n (fun j => o j y + p i j + v i))). intros i hi. apply mapM_seq. intros j hj. rewrite !get2_tab by assumption. now rewrite vec_nth.
Qed.
Lemma columnsE {X} (g : nat -> nat -> X) : columns (tab n n g) = Some (vec n (fun j => vec n (fun i => g i j))).
Proof. unfold columns. rewrite ncols_tab by exact Hn. apply mapM_seq. intros j hj. now apply column_tab. Qed.
Lemma minsE (g : nat -> nat -> K) : mapM vmin (vec n (fun j => vec n (g j))) = Some (vec n (fun j => minv n (g j))).
Proof. apply (vmin_tab K n n Hn). Qed.
Lemma argminsE (g : nat -> nat -> K) : mapM argmin (vec n (fun j => vec n (g j))) = Some (vec n (fun j => amin n (g j))).
Proof. apply (argmin_tab K n n Hn). Qed.

Definition vals (ys : list nat) : list (list K) := vec (S (length ys)) (fun k => vec n (VV (firstn k ys))).
Definition pick (ys : list nat) (y x : nat) : nat := amin n (fun i => o x y + p i x + VV ys i).
Definition tabs (ys : list nat) : list (list nat) :=
  vec (length ys) (fun k => vec n (pick (firstn k ys) (nth k ys 0))).

Lemma vec_snoc {X} k (g : nat -> X) : vec (S k) g = vec k g ++ [g k].
Proof. unfold vec. rewrite seq_S, map_app. reflexivity. Qed.
Lemma vals_snoc ys y : vals (ys ++ [y]) = vals ys ++ [vec n (VV (ys ++ [y]))].
Proof.
  unfold vals. rewrite app_length. cbn [length]. replace (length ys + 1)%nat with (S (length ys)) by lia.
  rewrite (vec_snoc (S (length ys))). f_equal.
  - apply vec_ext. intros k hk. now rewrite firstn_app, (proj2 (Nat.sub_0_le k (length ys))), firstn_O, app_nil_r by lia.
  - rewrite firstn_all2; [reflexivity|]. rewrite app_length. cbn. lia.
Qed.
Lemma tabs_snoc ys y : tabs (ys ++ [y]) = tabs ys ++ [vec n (pick ys y)].
Proof.
  unfold tabs. rewrite app_length. cbn [length]. replace (length ys + 1)%nat with (S (length ys)) by lia.
  rewrite vec_snoc. f_equal.
  - apply vec_ext. intros k hk. rewrite firstn_app, (proj2 (Nat.sub_0_le k (length ys))), firstn_O, app_nil_r by lia.
    now rewrite app_nth1.
  - rewrite firstn_app, firstn_all, Nat.sub_diag, firstn_O, app_nil_r. rewrite app_nth2, Nat.sub_diag by lia. reflexivity.
Qed.

Lemma for_app {S} (l1 l2 : list nat) (body : nat -> S -> option S) s :
  for_ (l1 ++ l2) body s = match for_ l1 body s with None => None | Some s' => for_ l2 body s' end.
Proof. revert s; induction l1 as [|a l1 IH]; intros s; cbn; [reflexivity|]. destruct (body a s); auto. Qed.

Lemma vec_VV_snoc ys y : vec n (VV (ys ++ [y])) = vec n (fun j => minv n (fun i => o j y + p i j + VV ys i)).
Proof. apply vec_ext. intros. apply VV_snoc. Qed.

Lemma vit_valuesE ys : Forall (fun y => y << ny) ys -> vit_values Pr Pi Po ys = Some (vals ys).
Proof.
  intros F. unfold vit_values.
  match goal with |- context[for_ ys ?b ?s] =>
    assert (E : for_ ys b s = Some (vec n (VV ys), vals ys)); [|now rewrite E] end.
  induction ys as [|y ys IH] using rev_ind; [reflexivity|].
  apply Forall_app in F as [F Fy]. inversion Fy; subst. rewrite for_app, IH by exact F. cbn [for_].
  rewrite temp_tableE by assumption. rewrite columnsE, minsE. now rewrite vals_snoc, vec_VV_snoc.
Qed.
Lemma vit_tablesE ys : Forall (fun y => y << ny) ys -> vit_tables Pr Pi Po ys = Some (tabs ys, vals ys).
Proof.
  intros F. unfold vit_tables.
  match goal with |- context[for_ ys ?b ?s] =>
    assert (E : for_ ys b s = Some (vec n (VV ys), tabs ys, vals ys)); [|now rewrite E] end.
  induction ys as [|y ys IH] using rev_ind; [reflexivity|].
  apply Forall_app in F as [F Fy]. inversion Fy; subst. rewrite for_app, IH by exact F. cbn [for_].
  rewrite temp_tableE by assumption. rewrite columnsE, minsE, argminsE. now rewrite vals_snoc, vec_VV_snoc, tabs_snoc.
Qed.

(** ** backtracking *)
(** us are best predecessors, latest first; l is the reversed list of measurements *)
Fixpoint bt (l : list nat) (x : nat) (us : list nat) : Prop :=
  match l, us with
  | [], [] => True
  | y :: l', u :: us' => u << n /\ VV (rev l' ++ [y]) x = o x y + p u x + VV (rev l') u /\ bt l' u us'
  | _, _ => False
  end.
Lemma bt_ctl l : forall x us, bt l x us -> ctl n (length l) us.
Proof.
  induction l as [|y l IH]; intros x [|u us]; cbn; try contradiction; [split; constructor|].
  intros (h1 & _ & h3). destruct (IH _ _ h3) as [h4 h5]. split; [cbn; congruence|now constructor].
Qed.
Lemma bt_cost l : forall x us, bt l x us -> rc (vss (rev l)) pr x us = VV (rev l) x.
Proof.
  induction l as [|y l IH]; intros x [|u us]; cbn [bt]; try contradiction; [reflexivity|].
  intros (_ & h2 & h3). cbn [rev]. rewrite h2, vss_snoc. cbn. now rewrite (IH _ _ h3).
Qed.

Lemma backtrack ys (body : nat -> nat * list nat -> option (nat * list nat)) :
  (forall k x pth, k << length ys -> x << n -> exists x', body k (x, pth) = Some (x', x' :: pth) /\ x' << n /\
     VV (firstn k ys ++ [nth k ys 0]) x = o x (nth k ys 0) + p x' x + VV (firstn k ys) x') ->
  forall k, (k <= length ys)%nat -> forall x pth, x << n -> exists x' us, for_ (rev (seq 0 k)) body (x, pth) = Some (x', rev us ++ pth) /\
    bt (rev (firstn k ys)) x us.
Proof.
  intros H. induction k as [|k IH]; intros hk x pth hx.
  - exists x, []. split; [reflexivity|exact I].
  - rewrite seq_S, rev_app_distr. cbn [rev app for_ Nat.add].
    destruct (H k x pth ltac:(lia) hx) as (x' & E & hx' & V). rewrite E.
    destruct (IH ltac:(lia) x' (x' :: pth) hx') as (x2 & us & E2 & B). rewrite E2.
    exists x2, (x' :: us). split; [cbn [rev]; now rewrite <- app_assoc|].
    assert (Ef : firstn (S k) ys = firstn k ys ++ [nth k ys 0]).
    { clear -hk. revert ys hk; induction k as [|k IH]; intros [|y ys] hk; cbn in *; try lia; [reflexivity|].
      f_equal. apply IH. lia. }
    rewrite Ef, rev_app_distr. cbn [rev app bt]. rewrite rev_involutive. auto.
Qed.

(** the result of every variant: values and a path of least cost *)
Definition good (ys : list nat) (r : option (list nat * list (list K))) : Prop :=
  exists us, bt (rev ys) (amin n (VV ys)) us /\ r = Some (rev (amin n (VV ys) :: us), vals ys).

Lemma vals_last ys : nth_error (vals ys) (length ys) = Some (vec n (VV ys)).
Proof. unfold vals. rewrite vec_nth by lia. now rewrite firstn_all. Qed.
Lemma vals_nth ys k : (k <= length ys)%nat -> nth_error (vals ys) k = Some (vec n (VV (firstn k ys))).
Proof. intros. unfold vals. now rewrite vec_nth by lia. Qed.

Lemma pick_ok ys y x : VV (ys ++ [y]) x = o x y + p (pick ys y x) x + VV ys (pick ys y x).
Proof. rewrite VV_snoc. symmetry. apply (amin_min K n (fun i => o x y + p i x + VV ys i) Hn). Qed.

Lemma good_intro ys (body : nat -> nat * list nat -> option (nat * list nat)) :
  (forall k x pth, k << length ys -> x << n -> exists x', body k (x, pth) = Some (x', x' :: pth) /\ x' << n /\
     VV (firstn k ys ++ [nth k ys 0]) x = o x (nth k ys 0) + p x' x + VV (firstn k ys) x') ->
  exists us, for_ (rev (seq 0 (length ys))) body (amin n (VV ys), [amin n (VV ys)]) = Some us /\
    good ys (Some (snd us, vals ys)).
Proof.
  intros H. destruct (backtrack ys body H (length ys) (le_n _) (amin n (VV ys)) [amin n (VV ys)]) as (x' & us & E & B).
  { now apply amin_lt. }
  rewrite E. eexists. split; [reflexivity|]. rewrite firstn_all in B. exists us. split; [exact B|]. reflexivity.
Qed.

Lemma nth_symbols ys k : Forall (fun y => y << ny) ys -> k << length ys -> nth k ys 0 << ny.
Proof. intros F h. rewrite Forall_forall in F. apply F, nth_In, h. Qed.

Theorem vit_ref_good ys : Forall (fun y => y << ny) ys -> good ys (vit_ref Pr Pi Po ys).
Proof.
  intros F. unfold vit_ref. rewrite vit_valuesE by exact F. rewrite vals_last, argmin_vec by exact Hn.
  match goal with |- context[for_ _ ?b _] => destruct (good_intro ys b) as (us & E & G) end; [|now rewrite E].
  intros k x pth hk hx. rewrite vals_nth by lia. rewrite column_tab by exact hx. rewrite vadd_vec, argmin_vec by exact Hn.
  eexists. split; [reflexivity|]. split; [now apply amin_lt|].
  rewrite VV_snoc. rewrite cadd_assoc.
  rewrite (amin_min K n (fun i => p i x + VV (firstn k ys) i) Hn). rewrite minv_add_l by exact Hn.
  apply minv_ext. intros. apply cadd_assoc.
Qed.
Theorem vit_log_good ys : Forall (fun y => y << ny) ys -> good ys (vit_log Pr Pi Po ys).
Proof.
  intros F. unfold vit_log. rewrite vit_valuesE by exact F. rewrite vals_last, argmin_vec by exact Hn.
  match goal with |- context[for_ _ ?b _] => destruct (good_intro ys b) as (us & E & G) end; [|now rewrite E].
  intros k x pth hk hx. rewrite (nth_error_nth' ys 0 hk). rewrite vals_nth by lia. rewrite column_tab by exact hx.
  rewrite get2_tab by (auto using nth_symbols).
  assert (Em : forall g, map (cadd (o x (nth k ys 0))) (vec n g) = vec n (fun i => o x (nth k ys 0) + g i)).
  { intros g. unfold vec. now rewrite map_map. }
  rewrite Em, vadd_vec, argmin_vec by exact Hn.
  eexists. split; [reflexivity|]. split; [now apply amin_lt|]. apply pick_ok.
Qed.
Lemma tabs_length ys : length (tabs ys) = length ys. Proof. apply vec_length. Qed.
Lemma vit_back_good ys : exists pth, vit_back (tabs ys) (vec n (VV ys)) = Some pth /\ good ys (Some (pth, vals ys)).
Proof.
  unfold vit_back. rewrite argmin_vec by exact Hn. rewrite tabs_length.
  match goal with |- context[for_ _ ?b _] => destruct (good_intro ys b) as (us & E & G) end.
  - intros k x pth hk hx. unfold tabs. rewrite vec_nth by exact hk. rewrite vec_nth by exact hx.
    eexists. split; [reflexivity|]. split; [now apply amin_lt|apply pick_ok].
  - rewrite E. eauto.
Qed.
Theorem vit_v2_good ys : Forall (fun y => y << ny) ys -> good ys (vit_v2 Pr Pi Po ys).
Proof.
  intros F. unfold vit_v2. rewrite vit_tablesE by exact F. rewrite vals_last.
  destruct (vit_back_good ys) as (pth & E & G). now rewrite E.
Qed.

(** ** optimality *)
Definition gpath (T : nat) (xs : list nat) : Prop := length xs = S T /\ Forall (fun x => x << n) xs.

Lemma gpath_rev T xs : gpath T xs -> exists x us, rev xs = x :: us /\ x << n /\ ctl n T us /\ last xs 0 = x.
Proof.
  intros [L F]. destruct (rev xs) as [|x us] eqn:E.
  - apply (f_equal (@length nat)) in E. rewrite rev_length in E. cbn in E. lia.
  - assert (Fr := Forall_rev F). rewrite E in Fr. inversion Fr; subst.
    exists x, us. repeat split; auto.
    + apply (f_equal (@length nat)) in E. rewrite rev_length in E. cbn in E. lia.
    + apply (f_equal (@rev nat)) in E. rewrite rev_involutive in E. subst xs. cbn. apply last_last.
Qed.
Lemma gpath_lb ys xs : gpath (length ys) xs -> VV ys (last xs 0) <= gj xs ys.
Proof.
  intros G. destruct (gpath_rev _ _ G) as (x & us & E & hx & C & ->).
  rewrite (gj_rc ys xs x us); [|apply C|exact E]. apply (Vf_lb K n n); auto; [apply vss_ok|]. now rewrite vss_length.
Qed.
Lemma VV_att ys x : x << n -> exists xs, gpath (length ys) xs /\ last xs 0 = x /\ gj xs ys = VV ys x.
Proof.
  intros hx. pose proof (pus_ctl K n Hn (vss ys) pr x) as C. rewrite vss_length in C.
  exists (rev (x :: pus n (vss ys) pr x)). split; [|split].
  - destruct C as [C1 C2]. split; [rewrite rev_length; cbn; lia|]. apply Forall_rev. now constructor.
  - cbn. apply last_last.
  - rewrite (gj_rc ys _ x (pus n (vss ys) pr x)); [|apply C|apply rev_involutive]. apply (pus_cost K n Hn).
Qed.
Theorem good_optimal ys r : good ys r -> exists xs, r = Some (xs, vals ys) /\ gpath (length ys) xs /\
  last xs 0 = amin n (VV ys) /\ gj xs ys = VV ys (last xs 0) /\ forall xs', gpath (length ys) xs' -> gj xs ys <= gj xs' ys.
Proof.
  intros (us & B & ->). pose proof (bt_ctl _ _ _ B) as [C1 C2]. rewrite rev_length in C1.
  assert (hx : amin n (VV ys) << n) by now apply amin_lt.
  assert (El : last (rev (amin n (VV ys) :: us)) 0 = amin n (VV ys)) by (cbn; apply last_last).
  assert (Ec : gj (rev (amin n (VV ys) :: us)) ys = VV ys (amin n (VV ys))).
  { rewrite (gj_rc ys _ (amin n (VV ys)) us C1 (rev_involutive _)). pose proof (bt_cost _ _ _ B) as E. rewrite rev_involutive in E. exact E. }
  exists (rev (amin n (VV ys) :: us)). split; [reflexivity|]. split; [|split; [exact El|split]].
  - split; [rewrite rev_length; cbn; lia|]. apply Forall_rev. now constructor.
  - now rewrite El.
  - intros xs' G. rewrite Ec. eapply cle_trans; [|apply gpath_lb; exact G].
    rewrite (amin_min K n (VV ys) Hn). apply minv_le.
    destruct (gpath_rev _ _ G) as (x & us' & _ & hx' & _ & ->). exact hx'.
Qed.
End V.
