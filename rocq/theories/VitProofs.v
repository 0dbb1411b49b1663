(** Viterbi algorithms against the specification over the reals. *)
From Coq Require Import List Arith Lia Bool Reals Lra.
From Verif Require Import ScanModel ScanSpec ScanUse Ord FscModel FscSpec FscCore FscProofs FscProofs2 FscProofs3 FscProofs4 TfScan VitModel VitSpec VitCore VitPar.
Import ListNotations.
Local Open Scope R_scope.
Local Notation "i << n" := (lt i n) (at level 70).

(** ** joint probability by functions *)
Section RJ.
Variables n ny : nat.
Variable a : nat -> R.
Variables p o : nat -> nat -> R.
Fixpoint ron (x : nat) (xs ys : list nat) : R :=
  match xs, ys with x' :: xs', y :: ys' => p x x' * o x' y * ron x' xs' ys' | _, _ => 1 end.
Definition rj (xs ys : list nat) : R := match xs with x :: xs' => a x * ron x xs' ys | [] => 1 end.

Lemma onwardE : forall xs ys x, x << n -> length xs = length ys -> Forall (fun x => x << n) xs -> Forall (fun y => y << ny) ys ->
  onward (tab n n p) (tab n ny o) x xs ys = Some (ron x xs ys).
Proof.
  induction xs as [|z xs IH]; intros [|y ys] x hx L F G; try discriminate; [reflexivity|].
  inversion F; subst. inversion G; subst. cbn [onward ron]. rewrite !get2_tab by assumption. rewrite IH by (auto; now injection L). reflexivity.
Qed.
Lemma jointE xs ys : path n (length ys) xs -> symbols ny ys -> joint (vec n a) (tab n n p) (tab n ny o) xs ys = Some (rj xs ys).
Proof.
  intros [L F] G. destruct xs as [|x xs]; [discriminate|]. inversion F; subst. cbn [joint rj]. rewrite vec_nth by assumption.
  rewrite onwardE by (auto; now injection L). reflexivity.
Qed.
End RJ.

Lemma last_any (xs : list nat) d e : xs <> [] -> last xs d = last xs e.
Proof. induction xs as [|x [|y xs] IH]; intros h; [congruence|reflexivity|]. cbn in *. apply IH. discriminate. Qed.
Lemma path_ne n T xs : path n T xs -> xs <> [].
Proof. intros [L _] ->. discriminate. Qed.
Lemma symbols_firstn ny ys k : symbols ny ys -> symbols ny (firstn k ys).
Proof. apply Forall_firstn. Qed.

(** ** any cost monoid that orders paths as their probabilities do *)
Section Link.
Variables n ny : nat.
Hypothesis Hn : (0 << n).
Variable a : nat -> R.
Variables p o : nat -> nat -> R.
Variable K : ordcost.
Variable c : R -> K -> Prop.
Variable ka : nat -> K.
Variables kp ko : nat -> nat -> K.
Hypothesis Hc : forall xs ys, path n (length ys) xs -> symbols ny ys -> c (rj a p o xs ys) (gj K ka kp ko xs ys).
Hypothesis Hle : forall q q' v v', c q v -> c q' v' -> (cleb v v' = true <-> q' <= q).
Local Notation pr' := (vec n a). Local Notation Pi' := (tab n n p). Local Notation Po' := (tab n ny o).

Lemma link_MAP ys xs : symbols ny ys ->
  gpath n (length ys) xs -> (forall xs', gpath n (length ys) xs' -> cleb (gj K ka kp ko xs ys) (gj K ka kp ko xs' ys) = true) ->
  MAP n pr' Pi' Po' ys xs.
Proof.
  intros S G H. split; [exact G|]. exists (rj a p o xs ys). split; [now apply jointE|].
  intros xs' G'. exists (rj a p o xs' ys). split; [now apply jointE|].
  apply (Hle (rj a p o xs ys) _ (gj K ka kp ko xs ys) (gj K ka kp ko xs' ys)); auto.
Qed.
Lemma MAP_link ys xs : symbols ny ys -> MAP n pr' Pi' Po' ys xs ->
  gpath n (length ys) xs /\ forall xs', gpath n (length ys) xs' -> cleb (gj K ka kp ko xs ys) (gj K ka kp ko xs' ys) = true.
Proof.
  intros S [G (q & E & H)]. split; [exact G|]. intros xs' G'. rewrite jointE in E by assumption. injection E as <-.
  destruct (H xs' G') as (q & E & Hq). rewrite jointE in E by assumption. injection E as <-.
  apply (Hle (rj a p o xs ys) (rj a p o xs' ys)); auto.
Qed.
Lemma link_best ys x : symbols ny ys -> (x << n) -> exists v, best_to n pr' Pi' Po' ys x v /\ c v (VV K n ka kp ko ys x) /\
  exists xs, path n (length ys) xs /\ v = rj a p o xs ys.
Proof.
  intros S hx. destruct (VV_att K n Hn ka kp ko ys x hx) as (xs & G & L & E).
  exists (rj a p o xs ys). rewrite <- E. split; [|split; [now apply Hc|eauto]]. split.
  - exists xs. split; [exact G|]. split; [|now apply jointE]. rewrite (last_any xs x 0); [exact L|]. eapply path_ne; exact G.
  - intros xs' G' L'. exists (rj a p o xs' ys). split; [now apply jointE|].
    apply (Hle (rj a p o xs ys) (rj a p o xs' ys) (gj K ka kp ko xs ys) (gj K ka kp ko xs' ys)); auto.
    rewrite E. rewrite (last_any xs' x 0) in L' by (eapply path_ne; exact G'). rewrite <- L'. now apply gpath_lb.
Qed.
Lemma good_MAP ys r : symbols ny ys -> good K n ka kp ko ys r -> exists xs, r = Some (xs, vals K n ka kp ko ys) /\ MAP n pr' Pi' Po' ys xs.
Proof.
  intros S G. destruct (good_optimal K n Hn ka kp ko ys r G) as (xs & E & P & _ & _ & H). exists xs. split; [exact E|].
  now apply link_MAP.
Qed.
Lemma unique_link ys xs : symbols ny ys -> unique_MAP n pr' Pi' Po' ys xs ->
  forall xs', gpath n (length ys) xs' -> cleb (gj K ka kp ko xs' ys) (gj K ka kp ko xs ys) = true -> xs' = xs.
Proof.
  intros S [M U] xs' G' h. apply U. destruct (MAP_link ys xs S M) as [_ H]. apply link_MAP; [exact S|exact G'|].
  intros xs2 G2. eapply cle_trans; [exact h|now apply H].
Qed.
End Link.

(** ** products of probabilities *)
Section ProbLink.
Variables n ny : nat.
Variable a : nat -> Prob.
Variables p o : nat -> nat -> Prob.
Lemma gj_prob xs ys : nnv (gj Prob a p o xs ys) = rj (fun x => nnv (a x)) (fun i j => nnv (p i j)) (fun i j => nnv (o i j)) xs ys.
Proof.
  destruct xs as [|x xs]; [reflexivity|]. cbn. f_equal. revert x ys. induction xs as [|z xs IH]; intros x [|y ys]; try reflexivity.
  cbn. now rewrite IH.
Qed.
Lemma map_vec {X Y} (g : X -> Y) k h : map g (vec k h) = vec k (fun i => g (h i)).
Proof. unfold vec. now rewrite map_map. Qed.
Lemma map_tab {X Y} (g : X -> Y) k l h : map (map g) (tab k l h) = tab k l (fun i j => g (h i j)).
Proof. unfold tab. rewrite map_vec. apply vec_ext. intros. apply map_vec. Qed.
End ProbLink.

Lemma table_tab' {X} n m (d : X) (Q : X -> Prop) M : table n m Q M ->
  M = tab n m (fun i j => nth j (nth i M []) d) /\ forall i j, i << n -> j << m -> Q (nth j (nth i M []) d).
Proof.
  intros [HL HF]. rewrite Forall_forall in HF. split.
  - rewrite (list_vec [] M) at 1. rewrite HL. apply vec_ext. intros i Hi.
    destruct (HF (nth i M [])) as [H1 _]; [apply nth_In; lia|].
    rewrite (list_vec d (nth i M [])) at 1. rewrite H1. reflexivity.
  - intros i j Hi Hj. destruct (HF (nth i M [])) as [H1 H2]; [apply nth_In; lia|].
    rewrite Forall_forall in H2. apply H2. apply nth_In. lia.
Qed.
Lemma repr {X} (d : X) (Q : X -> Prop) n ny prior Pi Po : model_ok Q n ny prior Pi Po ->
  exists a p o, prior = vec n a /\ Pi = tab n n p /\ Po = tab n ny o /\
    (forall i, i << n -> Q (a i)) /\ (forall i j, i << n -> j << n -> Q (p i j)) /\ (forall i j, i << n -> j << ny -> Q (o i j)).
Proof.
  intros (Hn & L & F & T1 & T2). destruct (table_tab' n n d Q Pi T1) as [E1 H1]. destruct (table_tab' n ny d Q Po T2) as [E2 H2].
  exists (fun i => nth i prior d). do 2 eexists. split; [|split; [exact E1|split; [exact E2|split; [|split; [exact H1|exact H2]]]]].
  - rewrite (list_vec d prior) at 1. now rewrite L.
  - intros i hi. rewrite Forall_forall in F. apply F, nth_In. lia.
Qed.

Lemma get2_vals K n a p o ys k x : (0 << n) -> (k <= length ys)%nat -> (x << n) ->
  get2 (vals K n a p o ys) k x = Some (VV K n a p o (firstn k ys) x).
Proof. intros. unfold get2. rewrite vals_nth by assumption. now rewrite vec_nth. Qed.

Lemma C15_lemma n ny (prior : list Prob) (Pi Po : list (list Prob)) ys :
  model_ok (fun _ => True) n ny prior Pi Po -> symbols ny ys ->
  let pr := map nnv prior in let pi := map (map nnv) Pi in let po := map (map nnv) Po in
  exists xs Vs, ref_viterbi prior Pi Po ys = Some (xs, Vs) /\ MAP n pr pi po ys xs /\ length Vs = S (length ys) /\
    forall k x, (k <= length ys)%nat -> (x < n)%nat -> exists v, get2 Vs k x = Some v /\ best_to n pr pi po (firstn k ys) x (nnv v).
Proof.
  intros M S. pose proof M as (Hn & _). destruct (repr nn_one _ n ny prior Pi Po M) as (a & p & o & -> & -> & -> & _).
  cbv zeta. rewrite map_vec, !map_tab.
  set (a' := fun i => nnv (a i)). set (p' := fun i j => nnv (p i j)). set (o' := fun i j => nnv (o i j)).
  pose (c := fun (q : R) (v : Prob) => q = nnv v).
  assert (Hc : forall xs ys, path n (length ys) xs -> symbols ny ys -> c (rj a' p' o' xs ys) (gj Prob a p o xs ys)).
  { intros. symmetry. apply gj_prob. }
  assert (Hle : forall q q' v v', c q v -> c q' v' -> (cleb v v' = true <-> q' <= q)).
  { intros q q' v v' -> ->. apply Rleb_le. }
  destruct (good_MAP n ny Hn a' p' o' Prob c a p o Hc Hle ys _ S (vit_ref_good Prob n ny Hn a p o ys S)) as (xs & E & HM).
  exists xs, (vals Prob n a p o ys). split; [exact E|]. split; [exact HM|]. split; [apply vec_length|].
  intros k x hk hx. exists (VV Prob n a p o (firstn k ys) x). split; [now apply get2_vals|].
  destruct (link_best n ny Hn a' p' o' Prob c a p o Hc Hle (firstn k ys) x (symbols_firstn _ _ _ S) hx) as (v & B & Ev & _).
  unfold c in Ev. now rewrite <- Ev.
Qed.

(** ** minus logarithms *)
Section LogLink.
Variables n ny : nat.
Hypothesis Hn : 0 << n.
Variable a : nat -> R.
Variables p o : nat -> nat -> R.
Hypothesis Ha : forall i, i << n -> 0 < a i.
Hypothesis Hp : forall i j, i << n -> j << n -> 0 < p i j.
Hypothesis Ho : forall i j, i << n -> j << ny -> 0 < o i j.
Definition la (i : nat) : Rcost := nl (a i).
Definition lp (i j : nat) : Rcost := nl (p i j).
Definition lo (i j : nat) : Rcost := nl (o i j).

Definition cl (q : R) (v : Rcost) : Prop := 0 < q /\ v = nl q.
Lemma nl_mult x y : 0 < x -> 0 < y -> nl (x * y) = (nl x + nl y).
Proof. intros. unfold nl. rewrite ln_mult by assumption. cbn. lra. Qed.
Lemma cl_path xs ys : path n (length ys) xs -> symbols ny ys -> cl (rj a p o xs ys) (gj Rcost la lp lo xs ys).
Proof.
  intros [L F] G. destruct xs as [|x xs]; [discriminate|]. injection L as L. inversion F as [|? ? hx F']; subst. clear F.
  assert (H : cl (ron p o x xs ys) (pcost Rcost lp lo x xs ys)).
  { revert x ys L hx F' G. induction xs as [|z xs IH]; intros x [|y ys] L hx F G; try discriminate.
    - split; [cbn; lra|]. cbn. unfold nl. rewrite ln_1. lra.
    - injection L as L. inversion F; subst. inversion G; subst. destruct (IH z ys) as [J1 J2]; auto.
      assert (0 < p x z) by auto. assert (0 < o z y) by auto. assert (0 < p x z * o z y) by now apply Rmult_lt_0_compat.
      cbn [ron pcost]. split; [now apply Rmult_lt_0_compat|]. rewrite J2. rewrite !nl_mult by assumption. reflexivity. }
  destruct H as [H1 H2]. assert (0 < a x) by auto. cbn [rj gj]. split; [now apply Rmult_lt_0_compat|]. rewrite H2, nl_mult by assumption. reflexivity.
Qed.
Lemma cl_le q q' v v' : cl q v -> cl q' v' -> (cleb v v' = true <-> q' <= q).
Proof.
  intros [h ->] [h' ->]. change (Rleb (nl q) (nl q') = true <-> q' <= q). rewrite Rleb_le. unfold nl. split; intros H.
  - apply Rnot_lt_le. intros H'. apply ln_increasing in H'; [lra|assumption].
  - destruct (Rle_lt_or_eq_dec _ _ H) as [H'| ->]; [|lra]. apply ln_increasing in H'; [lra|assumption].
Qed.
Local Notation pr' := (vec n a). Local Notation Pi' := (tab n n p). Local Notation Po' := (tab n ny o).

Lemma log_vals ys : symbols ny ys -> log_values n pr' Pi' Po' ys (vals Rcost n la lp lo ys).
Proof.
  intros S. split; [apply vec_length|]. intros k x hk hx.
  destruct (link_best n ny Hn a p o Rcost cl la lp lo cl_path cl_le (firstn k ys) x (symbols_firstn _ _ _ S) hx) as (v & B & [h E] & _).
  exists v. split; [exact h|]. split; [exact B|]. change (get2 (vals Rcost n la lp lo ys) k x = Some (nl v)). rewrite <- E. now apply get2_vals.
Qed.
Lemma log_good ys r : symbols ny ys -> good Rcost n la lp lo ys r -> exists xs Vs, r = Some (xs, Vs) /\ MAP n pr' Pi' Po' ys xs /\
  log_values n pr' Pi' Po' ys Vs.
Proof.
  intros S G. destruct (good_MAP n ny Hn a p o Rcost cl la lp lo cl_path cl_le ys r S G) as (xs & E & M).
  exists xs, (vals Rcost n la lp lo ys). auto using log_vals.
Qed.

(** ** getFSC *)
Local Notation FP ys := (mkP Rcost n n (vss Rcost lp lo ys) la).
Lemma fsc_LE y : y << ny -> fsc_L Pi' Po' n y = Some (tab n n (fun x u => lo x y + lp u x)).
Proof.
  intros hy. unfold fsc_L. apply (mapM_seq _ (fun x => vec n (fun u => lo x y + lp u x))). intros x hx. apply mapM_seq. intros u hu.
  rewrite !get2_tab by assumption. rewrite nl_mult by auto. f_equal. unfold lo, lp. ring.
Qed.
Lemma getFSC_E ys : symbols ny ys -> ys <> [] -> getFSC pr' Pi' Po' ys = Some (FP ys).
Proof.
  intros S ne. unfold getFSC. rewrite vec_length.
  assert (E : mapM (fsc_L Pi' Po' n) (rev ys) = Some (map (fun y => tab n n (fun x u => lo x y + lp u x)) (rev ys))).
  { apply Forall_rev in S. induction S as [|y l hy S IH]; [reflexivity|]. cbn [mapM map]. rewrite fsc_LE by exact hy. now rewrite IH. }
  rewrite E. apply C14_lemma.
  exists (length ys), (repeat (Arr n n (repeat (seq 0 n) n)) (length ys)),
    (map (fun L => Arr n n L) (map (fun y => tab n n (fun x u => lo x y + lp u x)) (rev ys))), (map nl pr'), n, n.
  split; [destruct ys; [congruence|cbn; lia]|]. split; [split; [reflexivity|apply repeat_length]|].
  split; [split; [reflexivity|now rewrite !map_length, rev_length]|]. split; [exact I|].
  split; [apply Forall_forall; intros x hx; apply repeat_spec in hx; now subst|].
  split; [apply Forall_map, Forall_map, Forall_forall; now intros|].
  split; [rewrite map_length; apply vec_length|]. split; [reflexivity|].
  unfold mkP. f_equal.
  - unfold vss. rewrite map_map. cbn [sf vst].
    assert (Er : repeat (seq 0 n) n = tab n n (fun _ u => u)).
    { transitivity (repeat (vec n (fun u => u)) n); [|apply rep_tab]. f_equal. unfold vec. symmetry. apply map_id. }
    rewrite Er. generalize (tab n n (fun _ u => u)). intros t. clear E Er. rewrite <- (rev_length ys). induction (rev ys) as [|y l IH]; [reflexivity|]. cbn [length repeat map adata]. f_equal. exact IH.
  - unfold vss. rewrite !map_map. reflexivity.
  - rewrite map_vec. reflexivity.
Qed.
Lemma vssok ys : Forall (sok n n) (vss Rcost lp lo ys). Proof. apply vss_ok. Qed.

(** the cost of a path in the control problem *)
Lemma fsc_path ys xs q : symbols ny ys -> path n (length ys) xs -> joint pr' Pi' Po' xs ys = Some q ->
  run_cost (ff (FP ys)) (fL (FP ys)) (fLT (FP ys)) (last xs 0%nat) (tl (rev xs)) = Some (- ln q)%R.
Proof.
  intros S P E. rewrite jointE in E by assumption. injection E as <-.
  destruct (gpath_rev n Hn (length ys) xs P) as (x & us & E & hx & C & ->). rewrite E. cbn [tl].
  rewrite run_cost_mkP; [|apply vssok|exact hx|now rewrite vss_length].
  destruct (cl_path xs ys P S) as [_ H].
  rewrite <- (gj_rc Rcost n Hn la lp lo ys xs x us); [|apply C|exact E]. now rewrite H.
Qed.

Lemma rev_bVs ys : rev (bVs Rcost n n (vss Rcost lp lo ys) la) = vals Rcost n la lp lo ys.
Proof.
  induction ys as [|y ys IH] using rev_ind; [reflexivity|]. rewrite vals_snoc by exact Hn. rewrite <- IH, vss_snoc. cbn [bVs rev].
  f_equal. f_equal. apply vec_ext. intros x hx. unfold VV. now rewrite vss_snoc.
Qed.
Lemma pus_bt l : forall x, bt Rcost n la lp lo l x (pus n (vss Rcost lp lo (rev l)) la x).
Proof.
  induction l as [|y l IH]; intros x; [exact I|]. cbn [rev]. rewrite vss_snoc. cbn [pus bt].
  split; [now apply pol_lt|]. split; [|apply IH]. now apply pick_ok.
Qed.
Lemma sts_vss l : forall x us, length us = length l -> sts Rcost (vss Rcost lp lo (rev l)) x us = x :: us.
Proof.
  induction l as [|y l IH]; intros x [|u us] L; try discriminate; [reflexivity|]. cbn [rev]. rewrite vss_snoc. cbn [sts vst sf].
  f_equal. apply IH. now injection L.
Qed.
Lemma seq_fwd ys x : symbols ny ys -> x << n ->
  seqForwardPass (FP ys) x (bus Rcost n n (vss Rcost lp lo ys) la) = Some (pus n (vss Rcost lp lo ys) la x, x :: pus n (vss Rcost lp lo ys) la x).
Proof.
  intros S hx. destruct (bus_map Rcost n n Hn (vss Rcost lp lo ys) la) as (mus & -> & H1 & H2 & H3).
  rewrite seqForward_mkP; auto using vssok. rewrite H3. f_equal. f_equal.
  pose proof (sts_vss (rev ys) x (pus n (vss Rcost lp lo ys) la x)) as E. rewrite rev_involutive in E. apply E.
  rewrite rev_length. destruct (pus_ctl Rcost n Hn (vss Rcost lp lo ys) la x) as [C _]. now rewrite vss_length in C.
Qed.
Lemma seq_good ys : good Rcost n la lp lo ys
   (Some (rev (amin n (VV Rcost n la lp lo ys) :: pus n (vss Rcost lp lo ys) la (amin n (VV Rcost n la lp lo ys))), vals Rcost n la lp lo ys)).
Proof.
  eexists. split; [|reflexivity]. pose proof (pus_bt (rev ys) (amin n (VV Rcost n la lp lo ys))) as B. now rewrite rev_involutive in B.
Qed.
Lemma bVs_0 ys : nth_error (bVs Rcost n n (vss Rcost lp lo ys) la) 0 = Some (vec n (VV Rcost n la lp lo ys)).
Proof. now rewrite bVs_nth by (try exact Hn; lia). Qed.
Lemma seqViterbi_good ys : symbols ny ys -> ys <> [] -> good Rcost n la lp lo ys (seqViterbi pr' Pi' Po' ys).
Proof.
  intros S ne. unfold seqViterbi. rewrite getFSC_E by assumption. rewrite seqBackward_mkP by auto using vssok.
  rewrite bVs_0, argmin_vec by exact Hn. rewrite seq_fwd by (auto; now apply amin_lt). rewrite rev_bVs. apply seq_good.
Qed.

(** ** the parallel passes *)
Variable b : R.
Hypothesis Hb : 0 <= b.
Hypothesis Hab : forall i, i << n -> - b <= ln (a i) <= b.
Hypothesis Hpb : forall i j, i << n -> j << n -> - b <= ln (p i j) <= b.
Hypothesis Hob : forall i j, i << n -> j << ny -> - b <= ln (o i j) <= b.
Lemma fsc_between ys : symbols ny ys -> costs_between (K := Rcost) (- (2 * b)) (2 * b) (FP ys).
Proof.
  intros S. split.
  - cbn [fL mkP]. apply Forall_map. unfold vss. apply Forall_map. apply Forall_rev in S. eapply Forall_impl; [|exact S].
    intros y hy. apply Forall_forall. intros r hr. apply vec_in in hr as (x & hx & ->). apply Forall_forall. intros e he. apply vec_in in he as (u & hu & ->).
    change (Rleb (- (2 * b)) (lo x y + lp u x) = true /\ Rleb (lo x y + lp u x) (2 * b) = true). rewrite !Rleb_le.
    unfold lo, lp, nl. pose proof (Hob x y hx hy). pose proof (Hpb u x hu hx). split; lra.
  - cbn [fLT mkP]. apply Forall_forall. intros e he. apply vec_in in he as (x & hx & ->).
    change (Rleb (- (2 * b)) (la x) = true /\ Rleb (la x) (2 * b) = true). rewrite !Rleb_le. unfold la, nl. pose proof (Hab x hx). split; lra.
Qed.
Lemma nmul_R k (x : Rcost) : nmul k x = (INR k * x).
Proof. induction k as [|k IH]; [cbn; ring|]. cbn [nmul]. rewrite IH, S_INR. cbn. ring. Qed.
Lemma fsc_valid ys : valid n n (FP ys). Proof. apply mkP_valid; auto using vssok. Qed.
Lemma ff_len ys : length (ff (FP ys)) = length ys. Proof. cbn [ff mkP]. now rewrite map_length, vss_length. Qed.
Lemma ff_ne ys : ys <> [] -> ff (FP ys) <> [].
Proof. intros ne E. apply (f_equal (@length _)) in E. rewrite ff_len in E. destruct ys; [congruence|discriminate]. Qed.
Lemma parBackward_E ys : symbols ny ys -> ys <> [] -> 4 * INR (S (length ys)) * b < 10 ^ 20 ->
  parBackwardPass infty (FP ys) = Some (bus Rcost n n (vss Rcost lp lo ys) la, bVs Rcost n n (vss Rcost lp lo ys) la).
Proof.
  intros S ne Hbd.
  destruct (C07_bounded Rcost n n (- (2 * b)) (2 * b) infty (FP ys)) as (us & Vs & E1 & E2); auto using fsc_valid, ff_ne, fsc_between.
  - apply Rleb_le. cbn. lra.
  - apply Rleb_le. cbn. lra.
  - rewrite ff_len, !nmul_R. apply Rleb_le. change (INR (Datatypes.S (length ys)) * (2 * b) <= infty + INR (length ys) * - (2 * b)). unfold infty.
    rewrite S_INR in *. pose proof (pos_INR (length ys)). nra.
  - rewrite E1. rewrite <- E2. now rewrite seqBackward_mkP by auto using vssok.
Qed.
Lemma bus_law ys : feedback_law n n (length (ff (FP ys))) (bus Rcost n n (vss Rcost lp lo ys) la).
Proof.
  rewrite ff_len. split; [now rewrite bus_length, vss_length|].
  destruct (bus_map Rcost n n Hn (vss Rcost lp lo ys) la) as (mus & -> & H1 & _ & _). apply Forall_map. eapply Forall_impl; [|exact H1].
  intros mu h. split; [apply vec_length|]. apply Forall_forall. intros u hu. apply vec_in in hu as (x & hx & ->). now apply h.
Qed.
Lemma parBwdFwd_good ys : symbols ny ys -> ys <> [] -> 4 * INR (S (length ys)) * b < 10 ^ 20 ->
  good Rcost n la lp lo ys (parBwdFwdViterbi pr' Pi' Po' ys).
Proof.
  intros S ne Hbd. unfold parBwdFwdViterbi. rewrite getFSC_E by assumption. rewrite parBackward_E by assumption.
  rewrite bVs_0, argmin_vec by exact Hn. assert (hx : amin n (VV Rcost n la lp lo ys) << n) by now apply amin_lt.
  destruct (C09_lemma Rcost n n (FP ys) (amin n (VV Rcost n la lp lo ys)) (bus Rcost n n (vss Rcost lp lo ys) la)) as (us & xs & E1 & E2 & _ & _);
    auto using fsc_valid, ff_ne, bus_law.
  rewrite E1. rewrite seq_fwd in E2 by assumption. injection E2 as <- <-. rewrite rev_bVs. apply seq_good.
Qed.
Lemma parBwdFwdBwd_unique ys xs : symbols ny ys -> ys <> [] -> 4 * INR (S (length ys)) * b < 10 ^ 20 ->
  unique_MAP n pr' Pi' Po' ys xs -> parBwdFwdBwdViterbi pr' Pi' Po' ys = Some (xs, vals Rcost n la lp lo ys).
Proof.
  intros S ne Hbd U. unfold parBwdFwdBwdViterbi. rewrite getFSC_E by assumption. rewrite parBackward_E by assumption.
  rewrite bVs_0, argmin_vec by exact Hn. set (x0 := amin n (VV Rcost n la lp lo ys)). assert (hx : x0 << n) by now apply amin_lt.
  destruct (bounds_strict Rcost n n (- (2 * b)) (2 * b) infty (FP ys) x0) as [D1 D2]; auto using fsc_valid, fsc_between.
  - apply Rleb_le. cbn. lra.
  - apply Rleb_le. cbn. lra.
  - rewrite ff_len, !nmul_R. unfold cltb. change (negb (Rleb (infty + INR (Datatypes.S (length ys)) * - (2 * b)) (INR (Datatypes.S (length ys)) * (2 * b))) = true).
    apply negb_true_iff. apply not_true_is_false. rewrite Rleb_le. unfold infty. lra.
  - destruct (C10_lemma1 Rcost n n infty (FP ys) x0) as (us & Vs & mu & mx & E1 & _ & E3 & _ & _ & _ & E4); auto using fsc_valid, ff_ne.
    { exact Rcost_strict. }
    rewrite parBackward_E in E1 by assumption. injection E1 as <- <-. rewrite E3. rewrite rev_bVs.
    assert (US : unique_optimal_states n (FP ys) x0).
    { intros us us' H H'. apply optimal_mkP in H; auto using vssok. apply optimal_mkP in H'; auto using vssok.
      assert (Q : forall us, ctl n (length (vss Rcost lp lo ys)) us /\ rc (vss Rcost lp lo ys) la x0 us = Vf n (vss Rcost lp lo ys) la x0 -> rev (x0 :: us) = xs).
      { intros v [[C1 C2] Ev]. rewrite vss_length in C1.
        assert (Gv : gpath n (length ys) (rev (x0 :: v))). { split; [rewrite rev_length; cbn; lia|apply Forall_rev; now constructor]. }
        apply U. apply (link_MAP n ny a p o Rcost cl la lp lo cl_path cl_le); [exact S|exact Gv|].
        intros xs' G'. rewrite (gj_rc Rcost n Hn la lp lo ys _ x0 v C1 (rev_involutive _)), Ev.
        eapply cle_trans; [|apply (gpath_lb Rcost n Hn); exact G']. fold (VV Rcost n la lp lo ys).
        unfold x0. rewrite (amin_min Rcost n (VV Rcost n la lp lo ys) Hn). apply minv_le.
        destruct (gpath_rev _ Hn _ _ G') as (x & w & _ & hx' & _ & ->). exact hx'. }
      pose proof (Q us H) as Q1. pose proof (Q us' H') as Q2. rewrite <- Q2 in Q1. apply (f_equal (@rev nat)) in Q1. rewrite !rev_involutive in Q1.
      injection Q1 as ->. reflexivity. }
    specialize (E4 US). rewrite seq_fwd in E4 by assumption. injection E4 as <- <-. 
    f_equal. f_equal. destruct (good_MAP n ny Hn a p o Rcost cl la lp lo cl_path cl_le ys _ S (seq_good ys)) as (xs2 & E & M).
    injection E as E. change (rev (x0 :: pus n (vss Rcost lp lo ys) la x0) = xs2) in E. rewrite E. now apply U.
Qed.
End LogLink.

(** ** statements on lists *)
Lemma map_nl_vec n a : map nl (vec n a) = vec n (la a). Proof. exact (map_vec nl n a). Qed.
Lemma map_nl_tab n m g : map (map nl) (tab n m g) = tab n m (lp g). Proof. exact (map_tab nl n m g). Qed.
Definition pos (e : R) : Prop := 0 < e.

Ltac unpack M a p o Ha Hp Ho Hn :=
  pose proof M as (Hn & _); destruct (repr 1 _ _ _ _ _ _ M) as (a & p & o & -> & -> & -> & Ha & Hp & Ho).

Lemma C16_lemma n ny prior Pi Po ys : model_ok pos n ny prior Pi Po -> symbols ny ys ->
  (exists xs Vs, ref_viterbi_log prior Pi Po ys = Some (xs, Vs) /\ MAP n prior Pi Po ys xs /\ log_values n prior Pi Po ys Vs) /\
  (exists xs Vs, ref_viterbi_log_v2 prior Pi Po ys = Some (xs, Vs) /\ MAP n prior Pi Po ys xs /\ log_values n prior Pi Po ys Vs).
Proof.
  intros M S. unpack M a p o Ha Hp Ho Hn. unfold ref_viterbi_log, ref_viterbi_log_v2. rewrite map_nl_vec, !map_nl_tab.
  split; apply log_good; auto.
  - now apply vit_log_good.
  - now apply vit_v2_good.
Qed.

Lemma best_to_unique n prior Pi Po ys x v v' : best_to n prior Pi Po ys x v -> best_to n prior Pi Po ys x v' -> v = v'.
Proof.
  intros [(xs & P & L & J) H] [(xs' & P' & L' & J') H'].
  destruct (H xs' P' L') as (q & E & h). destruct (H' xs P L) as (q' & E' & h'). rewrite J' in E. rewrite J in E'. injection E as <-. injection E' as <-. lra.
Qed.
Lemma list_get2 {X} (A B : list (list X)) T n : length A = T -> length B = T ->
  (forall r, In r A -> length r = n) -> (forall r, In r B -> length r = n) ->
  (forall k x, k << T -> x << n -> get2 A k x = get2 B k x) -> A = B.
Proof.
  intros LA LB RA RB H. apply list_ext; [congruence|]. intros k hk. rewrite LA in hk.
  destruct (nth_error A k) as [r|] eqn:E; [|apply nth_error_None in E; lia].
  destruct (nth_error B k) as [s|] eqn:E'; [|apply nth_error_None in E'; lia].
  f_equal. assert (Lr := RA r (nth_error_In _ _ E)). assert (Ls := RB s (nth_error_In _ _ E')).
  apply list_ext; [congruence|]. intros x hx. rewrite Lr in hx. specialize (H k x hk hx). unfold get2 in H. now rewrite E, E' in H.
Qed.
Lemma get2_map {X Y} (g : X -> Y) A k x : get2 (map (map g) A) k x = option_map g (get2 A k x).
Proof. unfold get2. rewrite nth_error_map. destruct (nth_error A k); cbn; [apply nth_error_map|reflexivity]. Qed.

Lemma C16_values n ny (prior : list Prob) (Pi Po : list (list Prob)) ys :
  model_ok (fun e => 0 < nnv e) n ny prior Pi Po -> symbols ny ys ->
  exists xs xs1 xs2 Vs, ref_viterbi prior Pi Po ys = Some (xs, Vs) /\
    ref_viterbi_log (map nnv prior) (map (map nnv) Pi) (map (map nnv) Po) ys = Some (xs1, map (map (fun v => - ln (nnv v))) Vs) /\
    ref_viterbi_log_v2 (map nnv prior) (map (map nnv) Pi) (map (map nnv) Po) ys = Some (xs2, map (map (fun v => - ln (nnv v))) Vs).
Proof.
  intros M S. pose proof M as (Hn & _). destruct (repr nn_one _ _ _ _ _ _ M) as (a & p & o & -> & -> & -> & Ha & Hp & Ho).
  assert (M1 : model_ok (fun _ : Prob => True) n ny (vec n a) (tab n n p) (tab n ny o)).
  { destruct M as (H1 & H2 & H3 & H4 & H5). repeat split; auto; try apply H4; try apply H5.
    - apply Forall_forall; auto.
    - destruct H4 as [_ H4]. eapply Forall_impl; [|exact H4]. intros r [? ?]. split; auto. apply Forall_forall; auto.
    - destruct H5 as [_ H5]. eapply Forall_impl; [|exact H5]. intros r [? ?]. split; auto. apply Forall_forall; auto. }
  destruct (C15_lemma n ny _ _ _ ys M1 S) as (xs & Vs & E & _ & L & HV). cbv zeta in HV.
  rewrite map_vec, !map_tab in *. set (a' := fun i => nnv (a i)) in *. set (p' := fun i j => nnv (p i j)) in *. set (o' := fun i j => nnv (o i j)) in *.
  assert (EV : Vs = vals Prob n a p o ys).
  { unfold ref_viterbi in E. destruct (vit_ref_good Prob n ny Hn a p o ys S) as (us & _ & E'). pose proof (eq_trans (eq_sym E) E') as E2. now injection E2. }
  assert (Key : forall r, good Rcost n (la a') (lp p') (lo o') ys r -> exists xs, r = Some (xs, map (map (fun v => - ln (nnv v))) Vs)).
  { intros r G. destruct (good_optimal Rcost n Hn _ _ _ ys r G) as (xs1 & -> & _). exists xs1. f_equal. f_equal.
    apply (list_get2 _ _ (Datatypes.S (length ys)) n).
    - apply vec_length.
    - now rewrite map_length.
    - intros r hr. apply vec_in in hr as (k & _ & ->). apply vec_length.
    - intros r hr. apply in_map_iff in hr as (r' & <- & hr). rewrite map_length, EV in *. apply vec_in in hr as (k & _ & ->). apply vec_length.
    - intros k x hk hx. destruct (log_vals n ny Hn a' p' o') with (ys := ys) as [_ H]; auto.
      destruct (H k x ltac:(lia) hx) as (v & _ & B & Ev). destruct (HV k x ltac:(lia) hx) as (w & Ew & B').
      etransitivity; [exact Ev|]. symmetry. etransitivity; [apply get2_map|]. etransitivity; [apply (f_equal (option_map (fun v => - ln (nnv v))) Ew)|]. cbn.
      now rewrite (best_to_unique _ _ _ _ _ _ _ _ B B'). }
  unfold ref_viterbi_log, ref_viterbi_log_v2. rewrite map_nl_vec, !map_nl_tab. fold (lo o').
  destruct (Key _ (vit_log_good Rcost n ny Hn (la a') (lp p') (lo o') ys S)) as (xs1 & E1).
  destruct (Key _ (vit_v2_good Rcost n ny Hn (la a') (lp p') (lo o') ys S)) as (xs2 & E2).
  exists xs, xs1, xs2, Vs. auto.
Qed.

Lemma C17_fsc n ny prior Pi Po ys : model_ok pos n ny prior Pi Po -> symbols ny ys -> ys <> [] ->
  exists P, getFSC prior Pi Po ys = Some P /\ valid n n P /\ length (ff P) = length ys /\
    forall xs q, path n (length ys) xs -> joint prior Pi Po xs ys = Some q ->
      run_cost (ff P) (fL P) (fLT P) (last xs 0%nat) (tl (rev xs)) = Some (- ln q).
Proof.
  intros M S ne. unpack M a p o Ha Hp Ho Hn.
  eexists. split; [apply (getFSC_E n ny); auto|]. split; [now apply fsc_valid|]. split; [apply ff_len|].
  intros xs q P J. now apply (fsc_path n ny).
Qed.
Lemma C17_seq n ny prior Pi Po ys : model_ok pos n ny prior Pi Po -> symbols ny ys -> ys <> [] ->
  exists xs Vs, seqViterbi prior Pi Po ys = Some (xs, Vs) /\ MAP n prior Pi Po ys xs /\ log_values n prior Pi Po ys Vs.
Proof.
  intros M S ne. unpack M a p o Ha Hp Ho Hn. apply log_good; auto. now apply (seqViterbi_good n ny).
Qed.
Lemma bounded_pos b n ny prior Pi Po : model_ok (log_bounded b) n ny prior Pi Po -> model_ok pos n ny prior Pi Po.
Proof.
  assert (H : forall l, Forall (log_bounded b) l -> Forall pos l). { intros l. apply Forall_impl. now intros e [h _]. }
  assert (H' : forall n m l, table n m (log_bounded b) l -> table n m pos l).
  { intros n' m l [h F]. split; [exact h|]. eapply Forall_impl; [|exact F]. intros r [? ?]; auto. }
  intros (H1 & H2 & H3 & H4 & H5). exact (conj H1 (conj H2 (conj (H _ H3) (conj (H' _ _ _ H4) (H' _ _ _ H5))))).
Qed.
Lemma b_nonneg b n ny prior Pi Po : model_ok (log_bounded b) n ny prior Pi Po -> 0 <= b.
Proof. intros (H1 & H2 & H3 & _). destruct H3 as [|e l [_ h] _]; [cbn in H2; lia|]. lra. Qed.
Lemma C17_par b n ny prior Pi Po ys : model_ok (log_bounded b) n ny prior Pi Po -> symbols ny ys -> ys <> [] ->
  4 * INR (S (length ys)) * b < 10 ^ 20 ->
  exists xs Vs, parBwdFwdViterbi prior Pi Po ys = Some (xs, Vs) /\ seqViterbi prior Pi Po ys = Some (xs, Vs) /\
    MAP n prior Pi Po ys xs /\ log_values n prior Pi Po ys Vs.
Proof.
  intros M S ne Hb. pose proof (b_nonneg _ _ _ _ _ _ M) as b0. unpack M a p o Ha Hp Ho Hn.
  assert (Ha' : forall i, i << n -> 0 < a i) by (intros; now apply Ha). 
  assert (Hp' : forall i j, i << n -> j << n -> 0 < p i j) by (intros; now apply Hp).
  assert (Ho' : forall i j, i << n -> j << ny -> 0 < o i j) by (intros; now apply Ho).
  destruct (log_good n ny Hn a p o Ha' Hp' Ho' ys (parBwdFwdViterbi (vec n a) (tab n n p) (tab n ny o) ys)) as (xs & Vs & E & G1 & G2); auto.
  { apply (parBwdFwd_good n ny) with (b := b); auto; intros; try apply Ha; try apply Hp; try apply Ho; assumption. }
  exists xs, Vs. split; [exact E|]. split; [|auto]. rewrite <- E. clear E G1 G2 xs Vs.
  unfold seqViterbi, parBwdFwdViterbi. rewrite (getFSC_E n ny Hn a p o Hp' Ho') by assumption. rewrite seqBackward_mkP by auto using vssok.
  rewrite (parBackward_E n ny Hn a p o b b0) by (auto; intros; try apply Ha; try apply Hp; try apply Ho; assumption).
  rewrite bVs_0, argmin_vec by exact Hn.
  destruct (C09_lemma Rcost n n (mkP Rcost n n (vss Rcost (lp p) (lo o) ys) (la a)) (amin n (VV Rcost n (la a) (lp p) (lo o) ys))
     (bus Rcost n n (vss Rcost (lp p) (lo o) ys) (la a))) as (us & xs & E1 & E2 & _ & _);
    auto using fsc_valid, ff_ne, bus_law; [now apply amin_lt|]. now rewrite E1, E2.
Qed.
Lemma C18_lemma b n ny prior Pi Po ys xs : model_ok (log_bounded b) n ny prior Pi Po -> symbols ny ys -> ys <> [] ->
  4 * INR (S (length ys)) * b < 10 ^ 20 -> unique_MAP n prior Pi Po ys xs ->
  exists Vs, parBwdFwdBwdViterbi prior Pi Po ys = Some (xs, Vs) /\ log_values n prior Pi Po ys Vs.
Proof.
  intros M S ne Hb U. pose proof (b_nonneg _ _ _ _ _ _ M) as b0. unpack M a p o Ha Hp Ho Hn.
  assert (Ha' : forall i, i << n -> 0 < a i) by (intros; now apply Ha). 
  assert (Hp' : forall i j, i << n -> j << n -> 0 < p i j) by (intros; now apply Hp).
  assert (Ho' : forall i j, i << n -> j << ny -> 0 < o i j) by (intros; now apply Ho).
  eexists. split; [|apply log_vals; assumption].
  apply (parBwdFwdBwd_unique n ny) with (b := b); auto; intros; try apply Ha; try apply Hp; try apply Ho; assumption.
Qed.
Lemma C19_lemma n ny prior Pi Po ys : model_ok pos n ny prior Pi Po -> symbols ny ys ->
  (exists xs Vs, viterbi_seq_fwbw prior Pi Po ys = Some (xs, Vs) /\ MAP n prior Pi Po ys xs /\ log_values n prior Pi Po ys Vs) /\
  ((2 <= length ys)%nat ->
   (exists xs Vs, viterbi_par_fwbw prior Pi Po ys = Some (xs, Vs) /\ MAP n prior Pi Po ys xs /\ log_values n prior Pi Po ys Vs) /\
   (exists xs Vs, viterbi_seqpar_fwbw prior Pi Po ys = Some (xs, Vs) /\ MAP n prior Pi Po ys xs /\ log_values n prior Pi Po ys Vs) /\
   (forall xs, unique_MAP n prior Pi Po ys xs ->
      exists Vs, viterbi_par_fwbwfw prior Pi Po ys = Some (xs, Vs) /\ log_values n prior Pi Po ys Vs)).
Proof.
  intros M S. unpack M a p o Ha Hp Ho Hn. unfold viterbi_seq_fwbw, viterbi_par_fwbw, viterbi_seqpar_fwbw, viterbi_par_fwbwfw, logs.
  rewrite map_nl_vec, !map_nl_tab. fold (lo o). split; [|intros h2; split; [|split]].
  - apply log_good; auto. now apply tf_seq_good.
  - apply log_good; auto. now apply tf_par_good.
  - apply log_good; auto. now apply tf_seqpar_good.
  - intros xs U. eexists. split; [|apply log_vals; assumption].
    apply tf_par_fwbwfw_unique; auto; [apply U|].
    apply (unique_link n ny a p o Rcost cl (la a) (lp p) (lo o) (cl_path n ny a p o Ha Hp Ho) cl_le ys xs S U).
Qed.
