(** Parallel passes of the FSC model. *)
From Coq Require Import List Arith Lia Bool.
From Verif Require Import ScanModel ScanSpec ScanProofs Ord FscModel FscSpec FscCore FscProofs.
Import ListNotations.

Section P.
Variable K : ordcost.
Variables n m : nat.
Hypothesis Hn : 0 < n.
Hypothesis Hm : 0 < m.
Variable infty : K.
Implicit Types (ss : list (stg K)) (s : stg K).

(** ** combine_V *)
Lemma vadd_vec k (g h : nat -> K) : vadd (vec k g) (vec k h) = Some (vec k (fun i => cadd (g i) (h i))).
Proof. revert g h; induction k as [|k IH]; intros g h; [reflexivity|]. rewrite !vec_S. simpl. rewrite IH. reflexivity. Qed.
Lemma combine_V_tab (A B : nat -> nat -> K) : combine_V (tab n n A) (tab n n B) = Some (tab n n (mp n A B)).
Proof.
  unfold combine_V. rewrite ncols_tab by exact Hn. unfold tab at 2 3. apply mapM_vec. intros i Hi.
  apply mapM_seq. intros k Hk. rewrite column_tab by exact Hk. rewrite vadd_vec. apply vmin_vec; exact Hn.
Qed.
Definition isV (M : list (list K)) : Prop := exists g, M = tab n n g.
Lemma combine_V_closed : closed_on isV combine_V.
Proof. intros x y [A ->] [B ->]. rewrite combine_V_tab. eexists. split; [reflexivity|]. eexists; reflexivity. Qed.
Lemma combine_V_assoc : assoc_on isV combine_V.
Proof.
  intros x y z xy yz [A ->] [B ->] [C ->]. rewrite !combine_V_tab. intros [= <-] [= <-].
  rewrite !combine_V_tab. f_equal. apply tab_ext. intros i j _ _. apply mp_assoc; exact Hn.
Qed.

(** ** stage elements *)
Lemma elem_body_tab s x u g : sok n m s -> x < n -> u < m ->
  elem_body (tab n m (sL s)) (tab n m (sf s)) x u (tab n n g) =
  Some (tab n n (fun i j => if i =? x then estep s i j (g i j) u else g i j)).
Proof.
  intros Hs Hx Hu. unfold elem_body. rewrite !get2_tab by (try assumption; apply Hs; assumption).
  destruct (cltb (sL s x u) (g x (sf s x u))) eqn:C.
  - rewrite upd2_tab by (try assumption; apply Hs; assumption). f_equal. apply tab_ext. intros i j Hi Hj.
    destruct (Nat.eqb_spec i x) as [->|]; simpl; [|reflexivity]. unfold estep.
    destruct (Nat.eqb_spec j (sf s x u)) as [->|Hne]; simpl.
    + rewrite Nat.eqb_refl, C. reflexivity.
    + destruct (Nat.eqb_spec (sf s x u) j); [congruence|reflexivity].
  - f_equal. apply tab_ext. intros i j Hi Hj.
    destruct (Nat.eqb_spec i x) as [->|]; simpl; [|reflexivity]. unfold estep.
    destruct (Nat.eqb_spec (sf s x u) j) as [<-|Hne]; simpl; [|reflexivity]. rewrite C. reflexivity.
Qed.
Lemma elem_row s x us g : sok n m s -> x < n -> Forall (fun u => u < m) us ->
  for_ us (elem_body (tab n m (sL s)) (tab n m (sf s)) x) (tab n n g) =
  Some (tab n n (fun i j => if i =? x then fold_left (estep s i j) us (g i j) else g i j)).
Proof.
  intros Hs Hx Hu; revert g; induction Hu as [|u us Hu1 Hu IH]; intros g.
  - simpl. f_equal. apply tab_ext. intros i j _ _. destruct (i =? x); reflexivity.
  - simpl. rewrite elem_body_tab by assumption. rewrite IH. f_equal. apply tab_ext. intros i j _ _.
    destruct (i =? x); reflexivity.
Qed.
Lemma stage_elem_tab s : sok n m s -> stage_elem infty n m (tab n m (sL s)) (tab n m (sf s)) = Some (tab n n (E m infty s)).
Proof.
  intros Hs. unfold stage_elem.
  assert (H : forall k, k <= n -> for_ (seq 0 k) (fun x => for_ (seq 0 m) (elem_body (tab n m (sL s)) (tab n m (sf s)) x)) (full infty n)
     = Some (tab n n (fun i j => if i <? k then E m infty s i j else infty))).
  { induction k as [|k IH]; intros Hk.
    - simpl. f_equal. unfold full. rewrite !repeat_vec. reflexivity.
    - rewrite seq_S, for_app, IH by lia. simpl.
      rewrite elem_row; [|exact Hs|lia|apply Forall_forall; intros u Hu; apply in_seq in Hu; lia].
      f_equal. apply tab_ext. intros i j Hi Hj.
      destruct (Nat.eqb_spec i k) as [->|Hne].
      + rewrite Nat.ltb_irrefl. destruct (Nat.ltb_spec k (S k)); [reflexivity|lia].
      + destruct (Nat.ltb_spec i k), (Nat.ltb_spec i (S k)); try reflexivity; lia. }
  rewrite H by lia. f_equal. apply tab_ext. intros i j Hi _. apply Nat.ltb_lt in Hi. rewrite Hi. reflexivity.
Qed.

Lemma mapM_seq_nth {A B} (g : A -> option B) (h : A -> B) l :
  (forall a, In a l -> g a = Some (h a)) ->
  mapM (fun k => do a <- nth_error l k; g a) (seq 0 (length l)) = Some (map h l).
Proof.
  intros H. rewrite <- (mapM_map g h l H). clear H.
  induction l as [|a l IH]; [reflexivity|]. simpl. destruct (g a); [|reflexivity].
  rewrite <- seq_shift. 
  assert (E : forall (g' : nat -> option B) q, mapM g' (map S q) = mapM (fun k => g' (S k)) q).
  { intros g' q. induction q as [|x q IHq]; simpl; [reflexivity|]. rewrite IHq. reflexivity. }
  rewrite E. simpl. rewrite IH. reflexivity.
Qed.

Lemma mapM_ext {A B} (g h : A -> option B) l : (forall a, In a l -> g a = h a) -> mapM g l = mapM h l.
Proof.
  induction l as [|a l IH]; intros H; simpl; [reflexivity|]. rewrite H by (left; reflexivity).
  rewrite IH by (intros; apply H; right; assumption). reflexivity.
Qed.

Lemma stage_elems_mkP ss lt : Forall (sok n m) ss ->
  stage_elems infty (mkP K n m ss lt) n m = Some (map (fun s => tab n n (E m infty s)) ss).
Proof.
  intros Hok. unfold stage_elems. simpl. rewrite map_length. rewrite Forall_forall in Hok.
  rewrite <- (mapM_seq_nth (fun s => stage_elem infty n m (tab n m (sL s)) (tab n m (sf s))) (fun s => tab n n (E m infty s)) ss).
  2:{ intros s Hs. apply stage_elem_tab. auto. }
  apply mapM_ext. intros k _. rewrite !nth_error_map. destruct (nth_error ss k); reflexivity.
Qed.

(** ** backward *)
Definition lastE (lt : nat -> K) : list (list K) := tab n n (fun x _ => lt x).
Lemma init_mkP ss lt : Forall (sok n m) ss -> ss <> [] ->
  parBackwardPass_init infty (mkP K n m ss lt) = Some (map (fun s => tab n n (E m infty s)) ss ++ [lastE lt]).
Proof.
  intros Hok Hne. unfold parBackwardPass_init.
  assert (E0 : exists s0, nth_error (ff (mkP K n m ss lt)) 0 = Some (tab n m (sf s0))).
  { destruct ss as [|s0 ss]; [congruence|]. exists s0. reflexivity. }
  destruct E0 as [s0 ->]. rewrite tab_length, ncols_tab by exact Hn.
  rewrite stage_elems_mkP by exact Hok.
  rewrite (mapM_seq _ (fun x => vec n (fun _ => lt x))).
  - reflexivity.
  - intros x Hx. simpl. rewrite vec_nth by exact Hx. rewrite repeat_vec. reflexivity.
Qed.

Lemma total_suffix ss lt :
  total_of combine_V (map (fun s => tab n n (E m infty s)) ss ++ [lastE lt]) = Some (tab n n (fun x _ => Jv n m infty ss lt x)).
Proof.
  induction ss as [|s ss IH]; [reflexivity|]. simpl map. cbn [app total_of].
  destruct (map (fun s => tab n n (E m infty s)) ss ++ [lastE lt]) as [|y l] eqn:El.
  { destruct ss; discriminate. }
  assert (HF : Forall isV (y :: l)).
  { rewrite <- El. apply Forall_app. split; [|constructor; [eexists; reflexivity|constructor]].
    apply Forall_map, Forall_forall. intros; eexists; reflexivity. }
  destruct (fold1_cons isV combine_V combine_V_closed combine_V_assoc l (tab n n (E m infty s)) y) as (t & E1 & E2);
    [eexists; reflexivity|exact (Forall_inv HF)|exact (Forall_inv_tail HF)|].
  rewrite E2. cbn [total_of] in IH. rewrite E1 in IH. injection IH as ->. rewrite combine_V_tab. reflexivity.
Qed.

Lemma skipn_app_last {A} (l : list A) a k : k <= length l -> skipn k (l ++ [a]) = skipn k l ++ [a].
Proof. intros H. rewrite skipn_app. replace (k - length l) with 0 by lia. reflexivity. Qed.

Lemma bscan_mkP ss lt : 
  par_backward_pass_scan (map (fun s => tab n n (E m infty s)) ss ++ [lastE lt]) =
  Some (vec (S (length ss)) (fun k => tab n n (fun x _ => Jv n m infty (skipn k ss) lt x))).
Proof.
  unfold par_backward_pass_scan.
  replace (S (length ss)) with (length (map (fun s => tab n n (E m infty s)) ss ++ [lastE lt])).
  2:{ rewrite app_length, map_length. simpl. lia. }
  apply (scan_known isV).
  - exact combine_V_closed.
  - exact combine_V_assoc.
  - destruct ss; discriminate.
  - apply Forall_app. split; [|constructor; [eexists; reflexivity|constructor]].
    apply Forall_map, Forall_forall. intros; eexists; reflexivity.
  - intros k Hk. rewrite app_length, map_length in Hk. simpl in Hk.
    rewrite skipn_app_last by (rewrite map_length; lia). rewrite skipn_map'. apply total_suffix.
Qed.

Lemma extract_mkP ss lt (V : nat -> nat -> K) : Forall (sok n m) ss ->
  parBackwardPass_extract (mkP K n m ss lt) (vec (S (length ss)) (fun k => tab n n (fun x _ => V k x))) =
  Some (map (fun k => vec n (fun x => amin m (fun u => cadd (sL (nth k ss (Stg (fun _ _ => 0) (fun _ _ => czero))) x u)
                                           (V (k + 1) (sf (nth k ss (Stg (fun _ _ => 0) (fun _ _ => czero))) x u))))) (seq 0 (length ss)),
        vec (S (length ss)) (fun k => vec n (V k))).
Proof.
  intros Hok. unfold parBackwardPass_extract. rewrite vec_nth by lia. rewrite column_tab by exact Hn.
  rewrite vec_length. simpl Nat.sub. rewrite Nat.sub_0_r.
  set (d := Stg (fun _ _ => 0) (fun _ _ => czero)).
  rewrite (for_append (fun k => [vec n (fun x => amin m (fun u => cadd (sL (nth k ss d) x u) (V (k + 1) (sf (nth k ss d) x u))))])
                      (fun k => [vec n (V (k + 1))])).
  - rewrite !flat_map_single. f_equal. f_equal.
    rewrite (vec_S (length ss)). simpl app. f_equal. unfold vec at 2.
    apply map_ext. intros k. rewrite Nat.add_1_r. reflexivity.
  - intros k us xs Hk. apply in_seq in Hk. rewrite vec_nth by lia. rewrite column_tab by exact Hn.
    simpl fL; simpl ff. rewrite !nth_error_map. rewrite (nth_error_nth' ss d) by lia. simpl.
    rewrite vu_table_tab; try assumption.
    2:{ rewrite Forall_forall in Hok. apply Hok. apply nth_In. lia. }
    rewrite argmin_tab by exact Hm. reflexivity.
Qed.

Lemma sent_ok_skipn ss lt k : sent_ok n m infty ss lt -> sent_ok n m infty (skipn k ss) lt.
Proof.
  revert ss; induction k as [|k IH]; intros [|s ss] H; simpl; auto. apply IH. apply H.
Qed.
Lemma bus_vec ss lt d : bus K n m ss lt = map (fun k => vec n (pol m (nth k ss d) (Vf m (skipn (k + 1) ss) lt))) (seq 0 (length ss)).
Proof.
  apply nth_error_ext. intros i. destruct (Nat.lt_ge_cases i (length ss)) as [H|H].
  - rewrite (bus_nth K n m ss lt i (nth i ss d) (skipn (S i) ss)) by (apply skipn_nth; exact H).
    symmetry. rewrite nth_error_map. rewrite (nth_error_nth' _ 0) by (rewrite seq_length; exact H).
    rewrite seq_nth by exact H. simpl. rewrite Nat.add_1_r. reflexivity.
  - transitivity (@None (list nat)); [|symmetry]; apply nth_error_None.
    + rewrite bus_length. exact H.
    + rewrite map_length, seq_length. exact H.
Qed.

Lemma parBackward_mkP ss lt : Forall (sok n m) ss -> ss <> [] -> sent_ok n m infty ss lt ->
  parBackwardPass infty (mkP K n m ss lt) = Some (bus K n m ss lt, bVs K n m ss lt).
Proof.
  intros Hok Hne Hs. unfold parBackwardPass. rewrite init_mkP by assumption. rewrite bscan_mkP.
  rewrite (extract_mkP ss lt (fun k x => Jv n m infty (skipn k ss) lt x)) by exact Hok.
  assert (HJ : forall k x, x < n -> Jv n m infty (skipn k ss) lt x = Vf m (skipn k ss) lt x).
  { intros k x Hx. apply (Jv_Vf K n m Hn Hm); [apply Forall_skipn; exact Hok|apply sent_ok_skipn; exact Hs|exact Hx]. }
  f_equal. f_equal.
  - rewrite (bus_vec ss lt (Stg (fun _ _ => 0) (fun _ _ => czero))). apply map_ext_in. intros k Hk. apply in_seq in Hk.
    apply vec_ext. intros x Hx. apply amin_ext. intros u Hu. f_equal. apply HJ.
    rewrite Forall_forall in Hok. apply Hok; try assumption. apply nth_In. lia.
  - rewrite bVs_vec by assumption. apply vec_ext. intros k Hk. apply vec_ext. intros x Hx. apply HJ; exact Hx.
Qed.

(** ** forward: function composition *)
Definition isF (v : list nat) : Prop := exists g, v = vec n g /\ forall i, i < n -> g i < n.
Lemma combine_f_vec (g h : nat -> nat) : (forall i, i < n -> g i < n) ->
  combine_f (vec n g) (vec n h) = Some (vec n (fun i => h (g i))).
Proof. intros H. unfold combine_f. apply mapM_vec. intros i Hi. apply vec_nth. auto. Qed.
Lemma combine_f_closed : closed_on isF combine_f.
Proof.
  intros x y (g & -> & Hg) (h & -> & Hh). rewrite combine_f_vec by exact Hg. eexists. split; [reflexivity|].
  eexists. split; [reflexivity|]. intros i Hi. cbv beta. auto.
Qed.
Lemma combine_f_assoc : assoc_on isF combine_f.
Proof.
  intros x y z xy yz (g & -> & Hg) (h & -> & Hh) (k & -> & Hk).
  rewrite combine_f_vec by exact Hg. rewrite combine_f_vec by exact Hh. intros [= <-] [= <-].
  rewrite !combine_f_vec by auto. reflexivity.
Qed.

Definition cl (s : stg K) (mu : nat -> nat) : nat -> nat := fun x => sf s x (mu x).
Definition fel ss (mus : list (nat -> nat)) : list (nat -> nat) := map (fun p => cl (fst p) (snd p)) (combine ss mus).

Lemma fel_ok ss : Forall (sok n m) ss -> forall mus, Forall (law_ok n m) mus ->
  Forall (fun g => forall i, i < n -> g i < n) (fel ss mus).
Proof.
  induction 1 as [|s ss Hs Hss IH]; intros mus Hmu; [constructor|]. destruct mus as [|mu mus]; [constructor|].
  pose proof (Forall_inv Hmu) as Hmu1. constructor; [|apply IH; exact (Forall_inv_tail Hmu)].
  intros i Hi. apply Hs; auto.
Qed.

Lemma total_prefix_f gs : Forall (fun g => forall i, i < n -> g i < n) gs -> forall g0, (forall i, i < n -> g0 i < n) ->
  total_of combine_f (map (vec n) (g0 :: gs)) = Some (vec n (fun i => fold_left (fun x g => g x) gs (g0 i))).
Proof.
  simpl. induction 1 as [|g gs Hg Hgs IH]; intros g0 H0; [reflexivity|].
  simpl. rewrite combine_f_vec by exact H0. apply (IH (fun i => g (g0 i))). auto.
Qed.

Lemma fold_sts ss : forall mus x k, length mus = length ss -> k <= length ss ->
  nth_error (sts K ss x (fus K ss mus x)) k = Some (fold_left (fun x g => g x) (firstn k (fel ss mus)) x).
Proof.
  induction ss as [|s ss IH]; intros [|mu mus] x k Hl Hk; try discriminate.
  - simpl in Hk. assert (k = 0) by lia. subst. reflexivity.
  - destruct k as [|k]; [reflexivity|]. simpl. apply IH; simpl in *; [congruence|lia].
Qed.
Lemma fus_nth ss : forall mus x k mu, length mus = length ss -> nth_error mus k = Some mu ->
  nth_error (fus K ss mus x) k = Some (mu (fold_left (fun x g => g x) (firstn k (fel ss mus)) x)).
Proof.
  induction ss as [|s ss IH]; intros [|mu0 mus] x k mu Hl Hk; try discriminate; destruct k as [|k]; try discriminate; simpl in *.
  - congruence.
  - apply IH; congruence.
Qed.
Lemma fel_length ss mus : length mus = length ss -> length (fel ss mus) = length ss.
Proof. intros H. unfold fel. rewrite map_length, combine_length. lia. Qed.

Lemma flat_map_if {A} (h : nat -> A) k l : (forall x, In x l -> x < k) ->
  flat_map (fun i => if i <? k then [h i] else []) l = map h l.
Proof.
  induction l as [|x l IH]; intros H; simpl; [reflexivity|].
  assert (x < k) as ->%Nat.ltb_lt by (apply H; left; reflexivity). simpl. f_equal. apply IH. intros; apply H; right; assumption.
Qed.

Lemma parForward_mkP ss lt mus x0 : Forall (sok n m) ss -> ss <> [] -> Forall (law_ok n m) mus -> length mus = length ss -> x0 < n ->
  parForwardPass (mkP K n m ss lt) x0 (map (vec n) mus) = Some (fus K ss mus x0, sts K ss x0 (fus K ss mus x0)).
Proof.
  intros Hok Hne Hmu Hl Hx. unfold parForwardPass.
  assert (Hi : parForwardPass_init (mkP K n m ss lt) x0 (map (vec n) mus) = Some (map (vec n) ((fun _ => x0) :: fel ss mus))).
  { unfold parForwardPass_init.
    assert (E0 : exists s0, nth_error (ff (mkP K n m ss lt)) 0 = Some (tab n m (sf s0))).
    { destruct ss as [|s0 ss]; [congruence|]. exists s0. reflexivity. }
    destruct E0 as [s0 ->]. rewrite tab_length, column_tab by exact Hm.
    assert (Hes : mapM (fun k => do u <- nth_error (map (vec n) mus) k; do f <- nth_error (ff (mkP K n m ss lt)) k;
                          mapM (fun x => do ux <- nth_error u x; get2 f x ux) (seq 0 n))
                (seq 0 (length (ff (mkP K n m ss lt)))) = Some (map (vec n) (fel ss mus))).
    { simpl. rewrite map_length. clear Hne.
      unfold fel. rewrite map_map.
      rewrite <- (mapM_seq_nth (fun p => mapM (fun x => do ux <- nth_error (vec n (snd p)) x; get2 (tab n m (sf (fst p))) x ux) (seq 0 n))).
      - rewrite combine_length, Hl, Nat.min_id. apply mapM_ext. intros k Hk. apply in_seq in Hk.
        rewrite !nth_error_map.
        rewrite (nth_error_nth' mus (fun _ => 0)) by lia.
        rewrite (nth_error_nth' ss s0) by lia.
        rewrite (nth_error_nth' (combine ss mus) (s0, fun _ => 0)) by (rewrite combine_length; lia).
        rewrite combine_nth by congruence. reflexivity.
      - intros [s' mu] Hin. simpl. apply mapM_seq. intros x Hx'. rewrite vec_nth by exact Hx'.
        rewrite Forall_forall in Hmu, Hok.
        rewrite get2_tab; [reflexivity|exact Hx'|].
        apply Hmu; [|exact Hx']. apply in_combine_r in Hin. exact Hin. }
    rewrite Hes. rewrite vec_length, repeat_vec. reflexivity. }
  rewrite Hi. pose proof (fel_ok ss Hok mus Hmu) as Hf. pose proof (fel_length ss mus Hl) as Hfl.
  unfold par_forward_pass_scan.
  rewrite (scan_known isF combine_f _ false (fun k => vec n (fun _ => fold_left (fun x g => g x) (firstn k (fel ss mus)) x0))).
  2: exact combine_f_closed. 2: exact combine_f_assoc. 2: discriminate.
  2:{ apply Forall_map. constructor; [exists (fun _ => x0); auto|]. eapply Forall_impl; [|exact Hf]. intros g Hg. exists g. auto. }
  2:{ intros k Hk. rewrite map_length in Hk. simpl in Hk. rewrite firstn_map.
      simpl firstn. apply (total_prefix_f (firstn k (fel ss mus)) (Forall_firstn _ k _ Hf) (fun _ => x0)). auto. }
  unfold parForwardPass_extract. rewrite vec_length, map_length. simpl length. rewrite Hfl, map_length, Hl.
  set (xk := fun k => fold_left (fun x g => g x) (firstn k (fel ss mus)) x0).
  rewrite (for_append (fun k => if k <? length ss then [nth k mus (fun _ => 0) (xk k)] else []) (fun k => [xk k])).
  - rewrite flat_map_single, !app_nil_l. apply (f_equal Some). apply f_equal2.
    + rewrite seq_S, flat_map_app. simpl. rewrite Nat.ltb_irrefl. rewrite app_nil_r.
      rewrite flat_map_if by (intros i Hi'; apply in_seq in Hi'; lia).
      apply nth_error_ext. intros i. destruct (Nat.lt_ge_cases i (length ss)) as [H|H].
      * rewrite nth_error_map. rewrite (nth_error_nth' _ 0) by (rewrite seq_length; exact H). rewrite seq_nth by exact H. simpl.
        symmetry. apply fus_nth; [exact Hl|]. apply nth_error_nth'. lia.
      * transitivity (@None nat); [|symmetry]; apply nth_error_None.
        -- rewrite map_length, seq_length. exact H.
        -- destruct (fus_ctl K n m ss Hok mus x0 Hmu Hl Hx) as [-> _]. exact H.
    + apply nth_error_ext. intros i. destruct (Nat.le_gt_cases i (length ss)) as [H|H].
      * rewrite nth_error_map. rewrite (nth_error_nth' _ 0) by (rewrite seq_length; lia). rewrite seq_nth by lia. simpl.
        symmetry. apply fold_sts; assumption.
      * transitivity (@None nat); [|symmetry]; apply nth_error_None.
        -- rewrite map_length, seq_length. lia.
        -- destruct (fus_ctl K n m ss Hok mus x0 Hmu Hl Hx) as [Hc _]. rewrite sts_length by exact Hc. lia.
  - intros k us xs Hk. apply in_seq in Hk. rewrite vec_nth by lia. rewrite vec_nth by exact Hn. fold (xk k).
    destruct (Nat.ltb_spec k (length ss)) as [H|H]; [|rewrite app_nil_r; reflexivity].
    rewrite nth_error_map. rewrite (nth_error_nth' mus (fun _ => 0)) by lia. simpl.
    rewrite vec_nth; [reflexivity|]. unfold xk.
    assert (Hy : forall gs y, Forall (fun g : nat -> nat => forall i, i < n -> g i < n) gs -> y < n -> fold_left (fun x g => g x) gs y < n).
    { induction gs as [|g gs IHg]; intros y HF Hy; simpl; [exact Hy|]. apply IHg; [exact (Forall_inv_tail HF)|].
      apply (Forall_inv HF). exact Hy. }
    apply Hy; [apply Forall_firstn; exact Hf|exact Hx].
Qed.
End P.
