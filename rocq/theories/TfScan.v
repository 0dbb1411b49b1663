(** tfp.math.scan_associative, the external scan the TensorFlow modules of /repo call (e.g. lqt_tf.py 321-323,
    fsc_tf.py 194-196).  TensorFlow Probability is not part of /repo; this is its published algorithm:
    combine neighbours, scan the half-length list one level down, fill in the even positions.  [lv] is the
    number of levels left; an assertion raises when the list is too long for it, which is the documented
    restriction  length < 2^(max_num_levels + 1).  The callers use
    max_num_levels = max(ceil(log2(max_parallel)), 1).

    One call of fn on stacked tensors is [map2_o]: elementwise, raising if one element raises. *)
From Coq Require Import List Arith Lia.
From Verif Require Import ScanSpec ScanUse.
Import ListNotations.

Section TfScan.
Context {A : Type} (op : A -> A -> option A).

Fixpoint map2_o (l1 l2 : list A) : option (list A) :=
  match l1, l2 with
  | x :: l1', y :: l2' =>
      match op x y with
      | None => None
      | Some z => match map2_o l1' l2' with None => None | Some r => Some (z :: r) end
      end
  | _, _ => Some []
  end.
(** elems[0::2], elems[1::2] *)
Fixpoint evens (l : list A) : list A :=
  match l with [] => [] | x :: l' => x :: match l' with [] => [] | _ :: l'' => evens l'' end end.
Definition odds (l : list A) : list A := evens (tl l).
Fixpoint interleave (l1 l2 : list A) : list A :=
  match l1 with [] => l2 | x :: l1' => x :: (fix go l2 := match l2 with [] => l1' | y :: l2' => y :: interleave l1' l2' end) l2 end.

Fixpoint tfp_scan_lv (lv : nat) (l : list A) : option (list A) :=
  match map2_o (evens l) (odds l) with
  | None => None
  | Some red =>
      match l, red with
      | [x; _], _ => Some (x :: red)
      | [x; _; z], [xy] => match op xy z with None => None | Some w => Some [x; xy; w] end
      | x :: _, _ =>
          match lv with
          | 0 => None
          | S lv' =>
              match tfp_scan_lv lv' red with
              | None => None
              | Some odd =>
                  match map2_o odd (tl (evens l)) with
                  | None => None
                  | Some ev => Some (interleave (x :: ev) odd)
                  end
              end
          end
      | [], _ => None
      end
  end.

Definition tfp_scan_associative (max_num_levels : nat) (l : list A) : option (list A) :=
  if length l <? 2 then Some l else tfp_scan_lv (max_num_levels - 1) l.
End TfScan.

(** max(math.ceil(math.log2(max_parallel)),1) *)
Definition num_levels (max_parallel : nat) : nat := Nat.max (Nat.log2_up max_parallel) 1.

(** the reversed scan of the callers: tf.reverse, scan with the swapped operator, tf.reverse *)
Definition tfp_scan_rev {A} (op : A -> A -> option A) (mp : nat) (l : list A) : option (list A) :=
  match tfp_scan_associative (fun y x => op x y) (num_levels mp) (rev l) with None => None | Some r => Some (rev r) end.

(** ** The algorithm computes the prefix combinations *)
Section Proof.
Context {A : Type} (P : A -> Prop) (op : A -> A -> option A).
Hypothesis C : closed_on P op.
Hypothesis As : assoc_on P op.

Lemma list2_ind (Q : list A -> Prop) :
  Q [] -> (forall x, Q [x]) -> (forall x y l, Q l -> Q (x :: y :: l)) -> forall l, Q l.
Proof.
  intros q0 q1 q2. fix go 1. intros [|x [|y l]]; [exact q0|apply q1|apply q2, go].
Qed.

(** acc = combination so far *)
Lemma fill : forall t acc x, P acc -> Forall P t ->
  exists red odd ev r,
    map2_o op (evens t) (odds t) = Some red /\ Forall P red /\ length red = length t / 2 /\
    scanl_o op acc red = Some odd /\ map2_o op odd (evens t) = Some ev /\
    scanl_o op acc t = Some r /\ x :: r = interleave (x :: ev) odd.
Proof.
  induction t as [|c|c d t IH] using list2_ind; intros acc x Pa F.
  - exists [], [acc], [], [acc]. repeat split; auto.
  - inversion F; subst. destruct (C acc c) as (e & E & Pe); auto.
    exists [], [acc], [e], [acc; e]. cbn. rewrite E. repeat split; auto.
  - inversion F as [|? ? Pc F2]; subst. inversion F2 as [|? ? Pd F3]; subst.
    destruct (C acc c) as (e & E & Pe); auto. destruct (C c d) as (cd & Ecd & Pcd); auto.
    destruct (C e d) as (f & Ef & Pf); auto.
    assert (E2 : op acc cd = Some f) by (rewrite <- (As acc c d e cd); auto).
    destruct (IH f e) as (red & odd & ev & r & E3 & Fr & Lr & E4 & E5 & E6 & E7); auto.
    exists (cd :: red), (acc :: odd), (e :: ev), (acc :: e :: r).
    repeat split.
    + cbn. rewrite Ecd. unfold odds in E3. destruct t as [|z t]; cbn in E3 |- *; [inversion E3; reflexivity|].
      cbn in E3. rewrite E3. reflexivity.
    + constructor; auto.
    + cbn [length]. rewrite Lr. replace (S (S (length t))) with (length t + 1 * 2) by lia.
      rewrite Nat.div_add by lia. lia.
    + cbn. rewrite E2, E4. reflexivity.
    + cbn [evens]. cbn. rewrite E. cbn in E5. rewrite E5. reflexivity.
    + cbn. rewrite E, Ef, E6. reflexivity.
    + rewrite E7. cbn. reflexivity.
Qed.

Lemma tfp_scan_lv_scanl : forall lv x y t, P x -> P y -> Forall P t -> length t < 2 ^ (lv + 2) - 2 ->
  tfp_scan_lv op lv (x :: y :: t) = scanl_o op x (y :: t).
Proof.
  induction lv as [|lv IH]; intros x y t Px Py F L.
  - destruct (C x y) as (xy & Exy & Pxy); auto. cbn in L.
    destruct t as [|z [|? t]]; [| |cbn in L; lia]; cbn; rewrite Exy; [reflexivity|].
    destruct (op xy z); reflexivity.
  - destruct (C x y) as (xy & Exy & Pxy); auto.
    destruct (fill t xy x Pxy F) as (red & odd & ev & r & E3 & Fr & Lr & E4 & E5 & E6 & E7).
    assert (Ered : map2_o op (evens (x :: y :: t)) (odds (x :: y :: t)) = Some (xy :: red)).
    { unfold odds. cbn. rewrite Exy. unfold odds in E3. destruct t as [|z t]; cbn in E3 |- *; [inversion E3; reflexivity|].
      rewrite E3. reflexivity. }
    cbn [scanl_o]. rewrite Exy, E6, E7.
    destruct t as [|z [|z2 t]].
    + cbn in *. rewrite Exy. inversion E3; subst. inversion E4; subst. inversion E5; subst. reflexivity.
    + cbn in *. rewrite Exy. inversion E3; subst. cbn in E4. inversion E4; subst. cbn in E5.
      destruct (op xy z); [inversion E5; subst; reflexivity|discriminate].
    + assert (Lred : 1 <= length red).
      { rewrite Lr. cbn [length]. replace (S (S (length t))) with (length t + 1 * 2) by lia. rewrite Nat.div_add by lia. lia. }
      change (tfp_scan_lv op (S lv) (x :: y :: z :: z2 :: t)) with
        (match map2_o op (evens (x :: y :: z :: z2 :: t)) (odds (x :: y :: z :: z2 :: t)) with None => None | Some red =>
           match tfp_scan_lv op lv red with None => None | Some odd =>
             match map2_o op odd (tl (evens (x :: y :: z :: z2 :: t))) with None => None | Some ev => Some (interleave (x :: ev) odd) end end end).
      rewrite Ered. destruct red as [|r1 red]; [cbn in Lred; lia|].
      inversion Fr; subst. rewrite IH; auto.
      * rewrite E4. change (tl (evens (x :: y :: z :: z2 :: t))) with (evens (z :: z2 :: t)). rewrite E5. reflexivity.
      * cbn [length] in Lr, L |- *. 
        assert (2 * (S (length red)) <= S (S (length t))) by (rewrite Lr; apply Nat.mul_div_le; lia).
        replace (S lv + 2) with (S (lv + 2)) in L by lia. rewrite Nat.pow_succ_r' in L.
        assert (2 ^ 2 <= 2 ^ (lv + 2)) by (apply Nat.pow_le_mono_r; lia). cbn in H0. lia.
Qed.

(** within the documented length limit the scan is the sequential prefix combination *)
Theorem tfp_scan_spec L x l : 1 <= L -> P x -> Forall P l -> S (length l) < 2 ^ (L + 1) ->
  tfp_scan_associative op L (x :: l) = scanl_o op x l.
Proof.
  intros hL Px F h. unfold tfp_scan_associative. destruct l as [|y t]; [reflexivity|].
  cbn [length Nat.ltb Nat.leb]. inversion F; subst. apply tfp_scan_lv_scanl; auto.
  replace (L - 1 + 2) with (L + 1) by lia. cbn in h. lia.
Qed.

Lemma pow_levels mp : 1 <= mp -> 2 * mp <= 2 ^ (num_levels mp + 1).
Proof.
  intros h. unfold num_levels. destruct (Nat.eq_dec mp 1) as [->|ne]; [cbn; lia|].
  assert (2 <= mp) by lia. pose proof (Nat.log2_up_spec mp ltac:(lia)) as [_ h2].
  assert (2 ^ (Nat.log2_up mp) <= 2 ^ (Nat.max (Nat.log2_up mp) 1)) by (apply Nat.pow_le_mono_r; lia).
  rewrite Nat.add_1_r, Nat.pow_succ_r'. lia.
Qed.

(** the callers' limit: fewer than 2 * max_parallel elements *)
Theorem tfp_scan_mp mp x l : 1 <= mp -> P x -> Forall P l -> S (length l) < 2 * mp ->
  tfp_scan_associative op (num_levels mp) (x :: l) = scanl_o op x l.
Proof.
  intros h Px F hl. apply tfp_scan_spec; auto.
  - unfold num_levels; lia.
  - pose proof (pow_levels mp h). lia.
Qed.
End Proof.

(** reversed scan *)
Section Rev.
Context {A : Type} (P : A -> Prop) (op : A -> A -> option A).
Hypothesis C : closed_on P op.
Hypothesis As : assoc_on P op.
Let po := fun y x => op x y.
Let C' : closed_on P po. Proof. intros x y h1 h2. apply C; auto. Qed.
Let As' : assoc_on P po.
Proof. intros x y z xy yz h1 h2 h3 e1 e2. symmetry. apply (As z y x); auto. Qed.

Lemma last_indep : forall (r : list A) x y, r <> [] -> last r x = last r y.
Proof. induction r as [|a [|b r] IH]; intros x y h; [easy|reflexivity|]. cbn in *. apply IH; easy. Qed.
Lemma scanl_app : forall l x z, P x -> Forall P l -> P z -> exists r b w,
  scanl_o po x l = Some r /\ last r x = b /\ P b /\ po b z = Some w /\ scanl_o po x (l ++ [z]) = Some (r ++ [w]).
Proof.
  induction l as [|y l IH]; intros x z Px F Pz.
  - destruct (C' x z) as (w & E & Pw); auto. exists [x], x, w. cbn. rewrite E. repeat split; auto.
  - inversion F; subst. destruct (C' x y) as (v & E & Pv); auto.
    destruct (IH v z) as (r & b & w & E1 & E2 & Pb & E3 & E4); auto.
    exists (x :: r), b, w. cbn. rewrite E, E1, E4. repeat split; auto.
    destruct r as [|r0 r']; [exfalso|].
    + destruct (scanl_o_spec po l v [] E1); discriminate.
    + change (last (x :: r0 :: r') x) with (last (r0 :: r') x). rewrite (last_indep _ x v); easy.
Qed.

Lemma rev_scanr : forall l, l <> [] -> Forall P l ->
  exists r, match rev l with [] => Some [] | x :: t => scanl_o po x t end = Some r /\ scanr_o op l = Some (rev r).
Proof.
  induction l as [|x l IH]; [easy|]. intros _ F. inversion F as [|? ? Px Fl]; subst.
  destruct l as [|y l].
  - exists [x]. cbn. auto.
  - destruct IH as (r & E1 & E2); auto; [easy|].
    cbn [rev] in *. destruct (rev l ++ [y]) as [|a t] eqn:Et; [now destruct (rev l)|].
    assert (Fat : Forall P (a :: t)). { rewrite <- Et. change (rev l ++ [y]) with (rev (y :: l)). now apply Forall_rev. }
    inversion Fat; subst.
    destruct (scanl_app t a x) as (r' & b & w & G1 & G2 & Pb & G3 & G4); auto.
    rewrite G1 in E1. inversion E1; subst r'. cbn [app]. exists (r ++ [w]). split; [exact G4|].
    change (scanr_o op (x :: y :: l)) with (match scanr_o op (y :: l) with None => None | Some [] => Some [x]
       | Some (z :: r) => match op x z with None => None | Some w => Some (w :: z :: r) end end).
    rewrite E2. destruct (scanl_o_spec po t a r G1) as [Lr _].
    destruct r as [|r0 r] using rev_ind; [discriminate|].
    rewrite last_last in G2. subst r0. rewrite !rev_app_distr. cbn. unfold po in G3. rewrite G3. reflexivity.
Qed.

Theorem tfp_scan_rev_mp mp l : 1 <= mp -> l <> [] -> Forall P l -> length l < 2 * mp ->
  tfp_scan_rev op mp l = scanr_o op l.
Proof.
  intros h ne F hl. unfold tfp_scan_rev. destruct (rev_scanr l ne F) as (r & E1 & ->).
  change (fun y x => op x y) with po.
  assert (Fr := Forall_rev F). destruct (rev l) as [|x t] eqn:E; [destruct l; [easy|cbn in E; now destruct (rev l)]|].
  inversion Fr; subst. rewrite (tfp_scan_mp P po C' As'); auto.
  - rewrite E1. reflexivity.
  - rewrite <- (rev_length l), E in hl. cbn in hl. lia.
Qed.
End Rev.

(** beyond the limit the scan raises, whatever the operator *)
Section TooLong.
Context {A : Type} (op : A -> A -> option A).
Lemma map2_len : forall l1 l2 r, map2_o op l1 l2 = Some r -> length r = Nat.min (length l1) (length l2).
Proof.
  induction l1 as [|x l1 IH]; intros [|y l2] r; cbn; try (intros [= <-]; reflexivity).
  destruct (op x y); [|discriminate]. destruct (map2_o op l1 l2) eqn:E; [|discriminate]. intros [= <-]. cbn. now rewrite (IH _ _ E).
Qed.
Lemma evens_len (l : list A) : length (evens l) = (length l + 1) / 2 /\ length (odds l) = length l / 2.
Proof.
  induction l as [|x|x y l [IH1 IH2]] using list2_ind; [cbn; auto|cbn; auto|].
  unfold odds in *. cbn [tl length evens]. split.
  - rewrite IH1. replace (S (S (length l)) + 1) with (length l + 1 + 1 * 2) by lia. rewrite Nat.div_add by lia. lia.
  - replace (length (match l with [] => [] | _ :: l'' => evens l'' end)) with (length (evens (tl l))) by (destruct l; reflexivity).
    rewrite IH2. replace (S (S (length l))) with (length l + 1 * 2) by lia. rewrite Nat.div_add by lia. lia.
Qed.
Lemma tfp_scan_lv_long : forall lv l, 2 ^ (lv + 2) <= length l -> tfp_scan_lv op lv l = None.
Proof.
  induction lv as [|lv IH]; intros l h.
  - cbn in h. destruct l as [|x [|y [|z [|w l]]]]; cbn in h; try lia.
    cbn [tfp_scan_lv]. destruct (map2_o op _ _) as [[|? []]|]; reflexivity.
  - assert (4 <= 2 ^ (lv + 2)) by (change 4 with (2 ^ 2); apply Nat.pow_le_mono_r; lia).
    replace (S lv + 2) with (S (lv + 2)) in h by lia. rewrite Nat.pow_succ_r' in h.
    destruct l as [|x [|y [|z [|w l]]]]; cbn [length] in h; try lia.
    remember (x :: y :: z :: w :: l) as L eqn:EL.
    assert (HL : length L = S (S (S (S (length l))))) by now subst L.
    cbn [tfp_scan_lv]. destruct (map2_o op (evens L) (odds L)) as [red|] eqn:E; [|reflexivity].
    apply map2_len in E. destruct (evens_len L) as [e1 e2]. rewrite e1, e2 in E.
    assert (2 ^ (lv + 2) <= length red).
    { rewrite E. apply Nat.min_glb; apply Nat.div_le_lower_bound; lia. }
    rewrite (IH red) by lia. subst L. destruct red as [|? []]; reflexivity.
Qed.
Theorem tfp_scan_too_long L l : 1 <= L -> 2 ^ (L + 1) <= length l -> tfp_scan_associative op L l = None.
Proof.
  intros hL h. unfold tfp_scan_associative.
  assert (4 <= 2 ^ (L + 1)) by (change 4 with (2 ^ 2); apply Nat.pow_le_mono_r; lia).
  destruct (Nat.ltb_spec (length l) 2); [lia|]. apply tfp_scan_lv_long. now replace (L - 1 + 2) with (L + 1) by lia.
Qed.
End TooLong.
