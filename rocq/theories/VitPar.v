(** The parallel recursions of viterbi_tf.py over any ordered cost monoid. *)
From Coq Require Import List Arith Lia Bool.
From Verif Require Import ScanModel ScanSpec ScanProofs ScanUse Ord FscModel FscSpec FscCore FscProofs FscProofs2 TfScan VitModel VitCore.
Import ListNotations.
Local Open Scope cost_scope.
Local Notation "i << n" := (lt i n) (at level 70).

Section V.
Variable K : ordcost.
Variables n ny : nat.
Hypothesis Hn : 0 << n.
Variable pr : nat -> K.
Variables p o : nat -> nat -> K.
Local Notation VV := (VV K n pr p o).
Local Notation vals := (vals K n pr p o).
Local Notation tabs := (tabs K n pr p o).
Local Notation pick := (pick K n pr p o).
Local Notation gj := (gj K pr p o).
Local Notation pcost := (pcost K p o).
Local Notation good := (good K n pr p o).
Local Notation bt := (bt K n pr p o).
Local Notation Pr := (vec n pr). Local Notation Pi := (tab n n p). Local Notation Po := (tab n ny o).

Definition el (y i j : nat) : K := p i j + o j y.
Lemma par_elemE y : y << ny -> par_elem Pi Po y = Some (tab n n (el y)).
Proof.
  intros hy. unfold par_elem. rewrite ncols_tab by exact Hn. rewrite tab_length.
  apply (mapM_seq _ (fun i => vec n (el y i))). intros i hi. apply mapM_seq. intros j hj. now rewrite !get2_tab by assumption.
Qed.
Lemma par_elemsE ys : Forall (fun y => y << ny) ys -> mapM (par_elem Pi Po) ys = Some (map (fun y => tab n n (el y)) ys).
Proof. induction 1 as [|y ys h F IH]; [reflexivity|]. cbn. now rewrite par_elemE, IH. Qed.
Lemma rep_vec {X} (x : X) k : repeat x k = vec k (fun _ => x).
Proof. unfold vec. generalize 0%nat. induction k as [|k IH]; intros s; cbn; [reflexivity|]. f_equal. apply IH. Qed.
Lemma rep_tab {X} (g : nat -> X) : repeat (vec n g) n = tab n n (fun _ => g).
Proof. apply rep_vec. Qed.
Lemma par_forward_initE ys : Forall (fun y => y << ny) ys ->
  par_forward_init Pr Pi Po ys = Some (tab n n (fun _ => pr) :: map (fun y => tab n n (el y)) ys).
Proof. intros F. unfold par_forward_init. rewrite par_elemsE by exact F. now rewrite vec_length, rep_tab. Qed.

Lemma isV_tab g : isV K n (tab n n g). Proof. now exists g. Qed.
Lemma isV_els ys : Forall (isV K n) (map (fun y => tab n n (el y)) ys).
Proof. apply Forall_map, Forall_forall. intros. apply isV_tab. Qed.

Lemma tfp_levels {A} (op : A -> A -> option A) T l : (2 <= T)%nat ->
  tfp_scan_associative op (levels T) l = tfp_scan_associative op (num_levels T) l.
Proof.
  intros h. unfold levels, num_levels. rewrite Nat.max_l; [reflexivity|]. change 1%nat with (Nat.log2_up 2). now apply Nat.log2_up_le_mono.
Qed.

(** row 0 of the prefix combinations is the vector of values *)
Lemma fwd_scan ys : forall pre A, (forall j, j << n -> A 0 j = VV pre j) ->
  exists gs, scanl_o combine_V (tab n n A) (map (fun y => tab n n (el y)) ys) = Some (map (tab n n) gs) /\
    length gs = S (length ys) /\
    forall k, k << S (length ys) -> forall j, j << n -> nth k gs (fun _ _ => czero) 0 j = VV (pre ++ firstn k ys) j.
Proof.
  induction ys as [|y ys IH]; intros pre A H.
  - exists [A]. split; [reflexivity|]. split; [reflexivity|]. intros [|k] hk j hj; [|cbn in hk; lia]. cbn. rewrite app_nil_r. auto.
  - cbn [map scanl_o]. rewrite combine_V_tab by exact Hn.
    destruct (IH (pre ++ [y]) (mp n A (el y))) as (gs & E & L & N).
    { intros j hj. rewrite VV_snoc. unfold mp. apply minv_ext. intros i hi. rewrite H by exact hi. unfold el.
      now rewrite (cadd_comm (VV pre i)), (cadd_comm (p i j)). }
    rewrite E. exists (A :: gs). split; [reflexivity|]. split; [cbn; lia|].
    intros [|k] hk j hj; cbn [nth firstn].
    + rewrite app_nil_r. auto.
    + rewrite N by (cbn in hk; lia). now rewrite <- app_assoc.
Qed.

Lemma mapM_map_vec {X Y} (f : X -> option Y) (gs : list X) (d : X) (h : nat -> Y) :
  (forall k, k << length gs -> f (nth k gs d) = Some (h k)) -> mapM f gs = Some (vec (length gs) h).
Proof.
  revert h; induction gs as [|g gs IH]; intros h H; [reflexivity|].
  cbn [length mapM]. rewrite vec_S. assert (H0 := H 0%nat ltac:(cbn; lia)). cbn in H0. rewrite H0, (IH (fun k => h (S k))); [reflexivity|].
  intros k hk. apply (H (S k)). cbn; lia.
Qed.
Lemma mapM_comp {X Y Z} (f : Y -> option Z) (g : X -> Y) l : mapM f (map g l) = mapM (fun x => f (g x)) l.
Proof. induction l as [|x l IH]; cbn; [reflexivity|]. now rewrite IH. Qed.

Lemma par_forwardE ys : Forall (fun y => y << ny) ys -> (2 <= length ys)%nat ->
  par_forward Pr Pi Po ys (length ys) = Some (tabs ys, vals ys).
Proof.
  intros F hT. unfold par_forward. rewrite par_forward_initE by exact F. rewrite tfp_levels by exact hT.
  rewrite (tfp_scan_mp (isV K n)).
  2: now apply combine_V_closed. 2: now apply combine_V_assoc. 2: lia. 2: apply isV_tab. 2: apply isV_els.
  2: { rewrite map_length. lia. }
  destruct (fwd_scan ys [] (fun _ => pr)) as (gs & -> & L & N); [reflexivity|]. rewrite mapM_comp.
  rewrite (mapM_map_vec _ gs (fun _ _ => czero) (fun k => vec n (VV (firstn k ys)))).
  2: { intros k hk. unfold tab. rewrite vec_nth by exact Hn. f_equal. apply vec_ext. intros j hj. rewrite L in hk. now apply N. }
  rewrite L. fold (vals ys).
  cbn [length]. rewrite map_length. replace (S (length ys) - 1)%nat with (length ys) by lia.
  rewrite (mapM_seq _ (fun k => vec n (pick (firstn k ys) (nth k ys 0)))); [reflexivity|].
  intros k hk. cbn [nth_error]. rewrite nth_error_map, (nth_error_nth' ys 0 hk). cbn [option_map].
  rewrite vals_nth by lia. rewrite tab_length.
  rewrite (mapM_seq _ (fun i => vec n (fun j => el (nth k ys 0) i j + VV (firstn k ys) i))).
  2: { intros i hi. unfold tab. rewrite !vec_nth by exact hi. f_equal. unfold vec. now rewrite map_map. }
  change (vec n (fun i => vec n (fun j => el (nth k ys 0) i j + VV (firstn k ys) i)))
    with (tab n n (fun i j => el (nth k ys 0) i j + VV (firstn k ys) i)).
  rewrite columnsE by exact Hn. rewrite argminsE by exact Hn. f_equal. apply vec_ext. intros j hj. unfold VitCore.pick.
  apply amin_ext. intros i hi. unfold el. now rewrite (cadd_comm (p i j)).
Qed.

(** ** the backward pass by composition of maps *)
Fixpoint pk (l : list nat) (x : nat) : list nat :=
  match l with [] => [] | y :: l' => pick (rev l') y x :: pk l' (pick (rev l') y x) end.
Lemma pick_lt ys y x : pick ys y x << n. Proof. now apply amin_lt. Qed.
Lemma pk_bt l : forall x, bt l x (pk l x).
Proof.
  induction l as [|y l IH]; intros x; cbn; [exact I|]. split; [apply pick_lt|]. split; [now apply pick_ok|apply IH].
Qed.
Lemma bwd_scan l : forall x, x << n ->
  scanl_o combine_f (vec n (fun _ => x)) (rev (tabs (rev l))) = Some (map (fun z => vec n (fun _ => z)) (x :: pk l x)).
Proof.
  induction l as [|y l IH]; intros x hx; [reflexivity|].
  cbn [rev]. rewrite (tabs_snoc K n Hn), rev_app_distr. cbn [rev app scanl_o].
  rewrite combine_f_vec by (intros; exact hx). rewrite IH by apply pick_lt. reflexivity.
Qed.
Lemma par_backwardE ys : (2 <= length ys)%nat ->
  exists pth, par_backward (tabs ys) (vec n (VV ys)) (length ys) = Some pth /\ good ys (Some (pth, vals ys)).
Proof.
  intros hT. unfold par_backward, par_back_init. rewrite argmin_vec by exact Hn. rewrite vec_length, rep_vec.
  rewrite rev_app_distr. cbn [rev app]. rewrite tfp_levels by exact hT.
  assert (hx : amin n (VV ys) << n) by now apply amin_lt.
  rewrite (tfp_scan_mp (isF n)).
  2: now apply combine_f_closed. 2: now apply combine_f_assoc. 2: lia.
  2: { exists (fun _ => amin n (VV ys)). auto. }
  2: { apply Forall_rev, Forall_map, Forall_forall. intros k _. eexists. split; [reflexivity|]. intros. apply pick_lt. }
  2: { rewrite rev_length, tabs_length. lia. }
  assert (E := bwd_scan (rev ys) (amin n (VV ys)) hx). rewrite rev_involutive in E. rewrite E.
  rewrite <- map_rev, mapM_comp.
  exists (rev (amin n (VV ys) :: pk (rev ys) (amin n (VV ys)))). split.
  - generalize (rev (amin n (VV ys) :: pk (rev ys) (amin n (VV ys)))). intros r.
    induction r as [|z r IH]; [reflexivity|]. cbn [mapM]. rewrite vec_nth by exact Hn. now rewrite IH.
  - exists (pk (rev ys) (amin n (VV ys))). split; [apply pk_bt|reflexivity].
Qed.

Lemma vals_len ys : length (vals ys) = S (length ys). Proof. apply vec_length. Qed.
Lemma vals_last' ys : nth_error (vals ys) (length (vals ys) - 1) = Some (vec n (VV ys)).
Proof. rewrite vals_len. replace (S (length ys) - 1)%nat with (length ys) by lia. now apply vals_last. Qed.

Theorem tf_seq_good ys : Forall (fun y => y << ny) ys -> good ys (tf_seq_fwbw Pr Pi Po ys).
Proof.
  intros F. unfold tf_seq_fwbw. rewrite vit_tablesE by assumption. rewrite vals_last'.
  destruct (vit_back_good K n Hn pr p o ys) as (pth & -> & G). exact G.
Qed.
Theorem tf_par_good ys : Forall (fun y => y << ny) ys -> (2 <= length ys)%nat -> good ys (tf_par_fwbw Pr Pi Po ys).
Proof.
  intros F hT. unfold tf_par_fwbw. rewrite par_forwardE by assumption. rewrite vals_last'.
  destruct (par_backwardE ys hT) as (pth & -> & G). exact G.
Qed.
Theorem tf_seqpar_good ys : Forall (fun y => y << ny) ys -> (2 <= length ys)%nat -> good ys (tf_seqpar_fwbw Pr Pi Po ys).
Proof.
  intros F hT. unfold tf_seqpar_fwbw. rewrite vit_tablesE by assumption. rewrite vals_last'.
  destruct (par_backwardE ys hT) as (pth & -> & G). exact G.
Qed.

(** ** backward values and states by their sum *)
Fixpoint FF (ys : list nat) (i : nat) : K :=
  match ys with [] => czero | y :: ys' => minv n (fun j => el y i j + FF ys' j) end.
Lemma bwd_vals ys : exists gs, scanr_o combine_V (map (fun y => tab n n (el y)) ys ++ [tab n n (fun _ _ => czero)]) = Some (map (tab n n) gs) /\
  length gs = S (length ys) /\
  forall k, k << S (length ys) -> forall i, i << n -> nth k gs (fun _ _ => czero) i 0 = FF (skipn k ys) i.
Proof.
  induction ys as [|y ys (gs & E & L & N)].
  - exists [fun _ _ => czero]. split; [reflexivity|]. split; [reflexivity|]. intros [|k] hk i hi; [reflexivity|cbn in hk; lia].
  - cbn [map app scanr_o]. rewrite E. destruct gs as [|g gs]; [discriminate|]. cbn [map]. rewrite combine_V_tab by exact Hn.
    exists (mp n (el y) g :: g :: gs). split; [reflexivity|]. split; [cbn in *; lia|].
    intros [|k] hk i hi.
    + cbn. unfold mp. apply minv_ext. intros j hj. f_equal. apply (N 0%nat); [lia|exact hj].
    + cbn [skipn]. change (nth (S k) (mp n (el y) g :: g :: gs) (fun _ _ => czero)) with (nth k (g :: gs) (fun _ _ => czero)).
      apply N; [cbn in hk; lia|exact hi].
Qed.
Definition xsum (ys : list nat) (k : nat) : nat := amin n (fun i => FF (skipn k ys) i + VV (firstn k ys) i).
Lemma par_bwfwE ys : Forall (fun y => y << ny) ys -> (2 <= length ys)%nat ->
  par_bwfw Pr Pi Po ys (vals ys) (length ys) =
  Some (vec (S (length ys)) (xsum ys), vec (S (length ys)) (fun k => vec n (FF (skipn k ys)))).
Proof.
  intros F hT. unfold par_bwfw. rewrite par_elemsE by exact F. cbv zeta. rewrite tfp_levels by exact hT.
  rewrite vec_length, (rep_vec (@czero K)), rep_tab.
  assert (S := tfp_scan_rev_mp (isV K n) combine_V ltac:(now apply combine_V_closed) ltac:(now apply combine_V_assoc)
     (length ys) (map (fun y => tab n n (el y)) ys ++ [tab n n (fun _ _ => czero)])).
  destruct (bwd_vals ys) as (gs & E & L & N). rewrite E in S. unfold tfp_scan_rev in S.
  match type of S with context[match ?s with _ => _ end] => destruct s as [r|] eqn:Er end.
  2: { exfalso. enough (@None (list (list (list K))) = Some (map (tab n n) gs)) by discriminate. apply S; [lia|now destruct ys| |].
       - apply Forall_app. split; [apply isV_els|]. constructor; [apply isV_tab|constructor].
       - rewrite app_length, map_length. cbn. lia. }
  assert (Hr : rev r = map (tab n n) gs).
  { enough (Some (rev r) = Some (map (tab n n) gs)) by congruence. apply S; [lia|now destruct ys| |].
       - apply Forall_app. split; [apply isV_els|]. constructor; [apply isV_tab|constructor].
       - rewrite app_length, map_length. cbn. lia. }
  rewrite Hr, mapM_comp.
  rewrite (mapM_map_vec _ gs (fun _ _ => czero) (fun k => vec n (FF (skipn k ys)))).
  2: { intros k hk. rewrite column_tab by exact Hn. f_equal. apply vec_ext. intros j hj. rewrite L in hk. now apply N. }
  rewrite L, vec_length.
  rewrite (mapM_seq _ (xsum ys)); [reflexivity|].
  intros k hk. rewrite vec_nth by exact hk. rewrite vals_nth by lia. rewrite vadd_vec. now rewrite argmin_vec.
Qed.

(** FF is the least cost of going on *)
Lemma FF_lb : forall ys xs i, length xs = length ys -> Forall (fun x => x << n) xs -> FF ys i <= pcost i xs ys.
Proof.
  induction ys as [|y ys IH]; intros [|x xs] i L F; try discriminate; [apply cle_refl|].
  inversion F; subst. cbn. eapply cle_trans; [apply (minv_le K n (fun j => el y i j + FF ys j) x); assumption|]. cbn. apply cadd_mono. apply IH; [now injection L|assumption].
Qed.
Lemma FF_att : forall ys i, exists xs, length xs = length ys /\ Forall (fun x => x << n) xs /\ pcost i xs ys = FF ys i.
Proof.
  induction ys as [|y ys IH]; intros i; [exists []; repeat split; constructor|].
  set (x := amin n (fun j => el y i j + FF ys j)).
  assert (hx : x << n) by now apply amin_lt.
  destruct (IH x) as (xs & L & F & E). exists (x :: xs). split; [cbn; congruence|]. split; [now constructor|].
  cbn. rewrite E. apply (amin_min K n (fun j => el y i j + FF ys j) Hn).
Qed.
Lemma pcost_app x2 : forall xs ys xs' ys' x, length xs = length ys -> last (x :: xs) 0 = x2 ->
  pcost x (xs ++ xs') (ys ++ ys') = pcost x xs ys + pcost x2 xs' ys'.
Proof.
  induction xs as [|a xs IH]; intros [|b ys] xs' ys' x L E; try discriminate.
  - cbn in E. subst. cbn. now rewrite cadd_0_l.
  - injection L as L. cbn [app VitCore.pcost]. rewrite IH; [|exact L|exact E]. now rewrite !cadd_assoc.
Qed.
Lemma gj_app xs ys xs' ys' : length xs = S (length ys) -> gj (xs ++ xs') (ys ++ ys') = gj xs ys + pcost (last xs 0) xs' ys'.
Proof.
  intros L. destruct xs as [|x xs]; [discriminate|]. cbn [app VitCore.gj]. injection L as L.
  rewrite (pcost_app (last (x :: xs) 0)); [|exact L|reflexivity]. now rewrite cadd_assoc.
Qed.
Theorem tf_par_fwbwfw_unique ys xs : Forall (fun y => y << ny) ys -> (2 <= length ys)%nat ->
  gpath n (length ys) xs -> (forall xs', gpath n (length ys) xs' -> gj xs' ys <= gj xs ys -> xs' = xs) ->
  tf_par_fwbwfw Pr Pi Po ys = Some (xs, vals ys).
Proof.
  intros F hT [GL GF] U. unfold tf_par_fwbwfw. rewrite par_forwardE by assumption. rewrite par_bwfwE by assumption.
  f_equal. f_equal. symmetry. apply (nth_ext _ _ 0%nat 0%nat); [now rewrite GL, vec_length|].
  intros k hk. rewrite (nth_error_nth _ _ 0 (vec_nth (S (length ys)) (xsum ys) k ltac:(lia))).
  rewrite GL in hk. set (i := xsum ys k).
  assert (hi : i << n) by now apply amin_lt.
  destruct (VV_att K n Hn pr p o (firstn k ys) i hi) as (a & [Ga1 Ga2] & Ea & Ca).
  destruct (FF_att (skipn k ys) i) as (b & Lb & Fb & Cb).
  rewrite firstn_length, Nat.min_l in Ga1 by lia. rewrite skipn_length in Lb.
  assert (Eab : a ++ b = xs).
  { apply U.
    - split; [rewrite app_length; lia|now apply Forall_app].
    - rewrite <- (firstn_skipn k ys) at 1. rewrite gj_app by (rewrite firstn_length; lia).
      rewrite Ca, Ea, Cb.
      assert (hsplit : gj xs ys = gj (firstn (S k) xs) (firstn k ys) + pcost (nth k xs 0) (skipn (S k) xs) (skipn k ys)).
      { rewrite <- (firstn_skipn (S k) xs) at 1. rewrite <- (firstn_skipn k ys) at 1.
        rewrite gj_app by (rewrite !firstn_length; lia). f_equal. f_equal.
        clear -hk GL. assert (h : k << length xs) by lia. clear hk GL. revert k h. induction xs as [|x xs IH]; intros k h; cbn in h; [lia|].
        destruct k as [|k]; [destruct xs; reflexivity|]. cbn [nth]. rewrite <- IH by lia. cbn [firstn]. destruct xs; [cbn in h; lia|]. reflexivity. }
      assert (Fx : Forall (fun x => x << n) (firstn (S k) xs) /\ Forall (fun x => x << n) (skipn (S k) xs)).
      { rewrite <- Forall_app, firstn_skipn. exact GF. }
      destruct Fx as [Fx1 Fx2].
      assert (hz : nth k xs 0 << n). { rewrite Forall_forall in GF. apply GF, nth_In. lia. }
      rewrite hsplit. rewrite (cadd_comm (VV (firstn k ys) i)).
      eapply cle_trans.
      { unfold i, xsum. rewrite (amin_min K n (fun i => FF (skipn k ys) i + VV (firstn k ys) i) Hn).
        apply (minv_le K n (fun i => FF (skipn k ys) i + VV (firstn k ys) i) (nth k xs 0) hz). }
      rewrite (cadd_comm (gj _ _)).
      rewrite (cadd_comm (FF _ _)), (cadd_comm (pcost _ _ _)). apply cadd_mono2.
      + assert (G : gpath n (length (firstn k ys)) (firstn (S k) xs)).
        { split; [rewrite !firstn_length; lia|exact Fx1]. }
        pose proof (gpath_lb K n Hn pr p o _ _ G) as Hlb.
        replace (last (firstn (S k) xs) 0) with (nth k xs 0) in Hlb; [exact Hlb|].
        clear -hk GL. assert (h : k << length xs) by lia. clear hk GL. revert k h. induction xs as [|x xs IH]; intros k h; cbn in h; [lia|].
        destruct k as [|k]; [destruct xs; reflexivity|]. cbn [nth]. rewrite IH by lia. cbn [firstn]. destruct xs; [cbn in h; lia|]. reflexivity.
      + apply FF_lb; [rewrite !skipn_length; lia|exact Fx2]. }
  rewrite <- Eab, app_nth1 by lia.
  destruct a as [|a0 a] using rev_ind; [discriminate|]. rewrite last_last in Ea. subst a0.
  rewrite app_length in Ga1. cbn in Ga1. rewrite app_nth2 by lia. now replace (k - length a)%nat with 0%nat by lia.
Qed.
End V.
