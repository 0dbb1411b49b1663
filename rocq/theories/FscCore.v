(** Finite-state control on functions: dynamic programming, the sentinel, forward values.
    No Python here; FscProofs.v connects these facts to the model. *)
From Coq Require Import List Arith Lia Bool.
From Verif Require Import Ord.
Import ListNotations.

Definition vec {X} (n : nat) (g : nat -> X) : list X := map g (seq 0 n).
Definition tab {X} (n m : nat) (g : nat -> nat -> X) : list (list X) := vec n (fun i => vec m (g i)).

Lemma vec_length {X} n (g : nat -> X) : length (vec n g) = n.
Proof. unfold vec. rewrite map_length, seq_length. reflexivity. Qed.
Lemma vec_nth {X} n (g : nat -> X) i : i < n -> nth_error (vec n g) i = Some (g i).
Proof.
  intros H. unfold vec. rewrite nth_error_map.
  rewrite (nth_error_nth' _ 0) by (rewrite seq_length; exact H). rewrite seq_nth by exact H. reflexivity.
Qed.
Lemma vec_nth_none {X} n (g : nat -> X) i : n <= i -> nth_error (vec n g) i = None.
Proof. intros H. apply nth_error_None. rewrite vec_length. exact H. Qed.
Lemma vec_ext {X} n (g h : nat -> X) : (forall i, i < n -> g i = h i) -> vec n g = vec n h.
Proof. intros H. apply map_ext_in. intros i Hi. apply in_seq in Hi. apply H. lia. Qed.
Lemma vec_in {X} n (g : nat -> X) y : In y (vec n g) <-> exists i, i < n /\ y = g i.
Proof.
  unfold vec. rewrite in_map_iff. split.
  - intros (i & <- & Hi). apply in_seq in Hi. exists i. split; [lia|reflexivity].
  - intros (i & Hi & ->). exists i. split; [reflexivity|]. apply in_seq. lia.
Qed.
Lemma tab_ext {X} n m (g h : nat -> nat -> X) :
  (forall i j, i < n -> j < m -> g i j = h i j) -> tab n m g = tab n m h.
Proof. intros H. apply vec_ext. intros i Hi. apply vec_ext. intros j Hj. auto. Qed.
Lemma vec_S {X} n (g : nat -> X) : vec (S n) g = g 0 :: vec n (fun i => g (S i)).
Proof. unfold vec. simpl. f_equal. rewrite <- seq_shift, map_map. reflexivity. Qed.
Lemma list_vec {X} (d : X) l : l = vec (length l) (fun i => nth i l d).
Proof.
  induction l as [|x l IH]; [reflexivity|]. simpl length. rewrite vec_S. simpl nth. f_equal. exact IH.
Qed.

Section Core.
Variable K : ordcost.
Local Open Scope cost_scope.
Local Notation "i << n" := (lt i n) (at level 70).

Definition minv (n : nat) (g : nat -> K) : K := match vmin (vec n g) with Some v => v | None => czero end.
Definition amin (n : nat) (g : nat -> K) : nat := match argmin (vec n g) with Some i => i | None => O end.

Lemma vmin_vec n g : O << n -> vmin (vec n g) = Some (minv n g).
Proof. intros H. unfold minv. destruct n; [lia|]. rewrite vec_S. reflexivity. Qed.
Lemma argmin_vec n g : O << n -> argmin (vec n g) = Some (amin n g).
Proof. intros H. unfold amin. destruct n; [lia|]. rewrite vec_S. reflexivity. Qed.

Lemma minv_le n g i : i << n -> minv n g <= g i.
Proof.
  intros H. assert (E := vmin_vec n g ltac:(lia)). apply vmin_spec in E as [_ E].
  apply E. apply vec_in. eauto.
Qed.
Lemma minv_att n g : O << n -> exists i, i << n /\ minv n g = g i.
Proof.
  intros H. assert (E := vmin_vec n g H). apply vmin_spec in E as [E _]. apply vec_in in E. exact E.
Qed.
Lemma minv_glb n g c : O << n -> (forall i, i << n -> c <= g i) -> c <= minv n g.
Proof. intros H Hc. destruct (minv_att n g H) as (i & Hi & ->). auto. Qed.
Lemma minv_eq n g c : O << n -> (forall i, i << n -> c <= g i) -> (exists i, i << n /\ g i <= c) -> minv n g = c.
Proof.
  intros H Hc (i & Hi & Hg). apply cle_antisym.
  - eapply cle_trans; [apply minv_le; exact Hi|exact Hg].
  - apply minv_glb; assumption.
Qed.
Lemma minv_ext n g h : (forall i, i << n -> g i = h i) -> minv n g = minv n h.
Proof. intros H. unfold minv. rewrite (vec_ext n g h H). reflexivity. Qed.
Lemma amin_ext n g h : (forall i, i << n -> g i = h i) -> amin n g = amin n h.
Proof. intros H. unfold amin. rewrite (vec_ext n g h H). reflexivity. Qed.
Lemma amin_lt n g : O << n -> amin n g << n.
Proof. intros H. pose proof (argmin_lt _ _ _ (argmin_vec n g H)) as E. rewrite vec_length in E. exact E. Qed.
Lemma amin_min n g : O << n -> g (amin n g) = minv n g.
Proof.
  intros H. destruct (argmin_vmin _ _ _ (argmin_vec n g H)) as (v & Hv & Hm).
  rewrite vec_nth in Hv by (apply amin_lt; exact H). rewrite vmin_vec in Hm by exact H. congruence.
Qed.
Lemma amin_first n g i : i << amin n g -> O << n -> g (amin n g) < g i.
Proof.
  intros Hi H. destruct (argmin_spec _ _ _ (argmin_vec n g H)) as (v & Hv & _ & Hlt).
  rewrite vec_nth in Hv by (apply amin_lt; exact H). injection Hv as <-.
  apply (Hlt i); [|exact Hi]. apply vec_nth. pose proof (amin_lt n g H). lia.
Qed.
Lemma minv_add_l n g c : O << n -> c + minv n g = minv n (fun i => c + g i).
Proof.
  intros H. symmetry. apply minv_eq; [exact H| |].
  - intros i Hi. apply cadd_mono, minv_le, Hi.
  - destruct (minv_att n g H) as (i & Hi & ->). exists i. split; [exact Hi|apply cle_refl].
Qed.
Lemma minv_add_r n g c : O << n -> minv n g + c = minv n (fun i => g i + c).
Proof.
  intros H. rewrite cadd_comm, minv_add_l by exact H. apply minv_ext. intros; apply cadd_comm.
Qed.
Lemma minv_swap n m (g : nat -> nat -> K) : O << n -> O << m ->
  minv n (fun i => minv m (fun j => g i j)) = minv m (fun j => minv n (fun i => g i j)).
Proof.
  intros Hn Hm. apply cle_antisym; apply minv_glb; try assumption.
  - intros j Hj. apply minv_glb; [assumption|]. intros i Hi.
    eapply cle_trans; [apply (minv_le _ _ i Hi)|]. cbv beta. apply (minv_le m (fun j => g i j) j Hj).
  - intros i Hi. apply minv_glb; [assumption|]. intros j Hj.
    eapply cle_trans; [apply (minv_le _ _ j Hj)|]. cbv beta. apply (minv_le n (fun i => g i j) i Hi).
Qed.

(** min-plus matrix product *)
Definition mp (n : nat) (A B : nat -> nat -> K) : nat -> nat -> K :=
  fun i k => minv n (fun j => A i j + B j k).
Lemma mp_assoc n A B C i k : O << n -> mp n (mp n A B) C i k = mp n A (mp n B C) i k.
Proof.
  intros H. unfold mp.
  transitivity (minv n (fun j => minv n (fun j' => (A i j' + B j' j) + C j k))).
  { apply minv_ext. intros j _. apply minv_add_r; exact H. }
  rewrite minv_swap by assumption. apply minv_ext. intros j' _.
  rewrite minv_add_l by exact H. apply minv_ext. intros j _. apply cadd_assoc.
Qed.

Variables n m : nat.
Hypothesis Hn : O << n.
Hypothesis Hm : O << m.

Record stg := Stg { sf : nat -> nat -> nat; sL : nat -> nat -> K }.
Definition sok (s : stg) : Prop := forall x u, x << n -> u << m -> sf s x u << n.

(** cost-to-go *)
Fixpoint Vf (ss : list stg) (lt : nat -> K) (x : nat) : K :=
  match ss with
  | [] => lt x
  | s :: ss' => minv m (fun u => sL s x u + Vf ss' lt (sf s x u))
  end.
Definition pol (s : stg) (V : nat -> K) (x : nat) : nat := amin m (fun u => sL s x u + V (sf s x u)).

Fixpoint rc (ss : list stg) (lt : nat -> K) (x : nat) (us : list nat) : K :=
  match ss, us with
  | s :: ss', u :: us' => sL s x u + rc ss' lt (sf s x u) us'
  | _, _ => lt x
  end.
Definition ctl (T : nat) (us : list nat) : Prop := length us = T /\ Forall (fun u => u << m) us.

Lemma Vf_lb ss lt : Forall sok ss -> forall x us, x << n -> ctl (length ss) us -> Vf ss lt x <= rc ss lt x us.
Proof.
  induction 1 as [|s ss Hs Hss IH]; intros x us Hx [Hl Hu]; simpl; [apply cle_refl|].
  destruct us as [|u us]; [discriminate|]. inversion Hu as [|? ? Hu1 Hu2]; subst.
  eapply cle_trans; [apply minv_le; exact Hu1|]. apply cadd_mono.
  apply IH; [apply Hs; assumption|]. split; [simpl in Hl; congruence|assumption].
Qed.

(** the policy path *)
Fixpoint pus (ss : list stg) (lt : nat -> K) (x : nat) : list nat :=
  match ss with
  | [] => []
  | s :: ss' => let u := pol s (Vf ss' lt) x in u :: pus ss' lt (sf s x u)
  end.
Lemma pol_lt s V x : pol s V x << m.
Proof. apply amin_lt; exact Hm. Qed.
Lemma pus_ctl ss lt : forall x, ctl (length ss) (pus ss lt x).
Proof.
  induction ss as [|s ss IH]; intros x; simpl; [split; constructor|].
  destruct (IH (sf s x (pol s (Vf ss lt) x))) as [H1 H2]. split; [simpl; congruence|].
  constructor; [apply pol_lt|exact H2].
Qed.
Lemma pus_cost ss lt : forall x, rc ss lt x (pus ss lt x) = Vf ss lt x.
Proof.
  induction ss as [|s ss IH]; intros x; simpl; [reflexivity|].
  rewrite IH. unfold pol. apply (amin_min m (fun u => sL s x u + Vf ss lt (sf s x u)) Hm).
Qed.

Lemma Vf_ext_lt ss lt lt' : Forall sok ss -> (forall x, x << n -> lt x = lt' x) ->
  forall x, x << n -> Vf ss lt x = Vf ss lt' x.
Proof.
  induction 1 as [|s ss Hs Hss IH]; intros E x Hx; simpl; [auto|].
  apply minv_ext. intros u Hu. rewrite IH; auto.
Qed.
Lemma Vf_app ss1 ss2 lt : forall x, Vf (ss1 ++ ss2) lt x = Vf ss1 (Vf ss2 lt) x.
Proof.
  induction ss1 as [|s ss1 IH]; intros x; simpl; [reflexivity|].
  apply minv_ext. intros u _. rewrite IH. reflexivity.
Qed.

(** end state and concatenation of control lists *)
Fixpoint endst (ss : list stg) (x : nat) (us : list nat) : nat :=
  match ss, us with
  | s :: ss', u :: us' => endst ss' (sf s x u) us'
  | _, _ => x
  end.
Lemma rc_app ss1 ss2 lt us1 us2 : forall x, length us1 = length ss1 ->
  rc (ss1 ++ ss2) lt x (us1 ++ us2) = rc ss1 (fun y => rc ss2 lt y us2) x us1.
Proof.
  revert us1; induction ss1 as [|s ss1 IH]; intros us1 x Hl; destruct us1 as [|u us1]; try discriminate; simpl.
  - reflexivity.
  - rewrite IH; [reflexivity|]. simpl in Hl; congruence.
Qed.
Lemma rc_end ss lt us : forall x, length us = length ss ->
  rc ss lt x us = rc ss (fun _ => czero) x us + lt (endst ss x us).
Proof.
  revert us; induction ss as [|s ss IH]; intros us x Hl; destruct us as [|u us]; try discriminate; simpl.
  - rewrite cadd_0_l. reflexivity.
  - rewrite IH by (simpl in Hl; congruence). rewrite cadd_assoc. reflexivity.
Qed.
Lemma ctl_app T1 T2 us1 us2 : ctl T1 us1 -> ctl T2 us2 -> ctl (T1 + T2) (us1 ++ us2).
Proof. intros [A B] [C D]. split; [rewrite app_length; congruence|apply Forall_app; auto]. Qed.
Lemma endst_lt ss : Forall sok ss -> forall x us, x << n -> ctl (length ss) us -> endst ss x us << n.
Proof.
  induction 1 as [|s ss Hs Hss IH]; intros x us Hx [Hl Hu]; destruct us as [|u us]; try discriminate; simpl; auto.
  inversion Hu; subst. apply IH; [apply Hs; assumption|]. split; auto.
Qed.

(** ** The sentinel *)
Variable infty : K.
Definition estep (s : stg) (i j : nat) (acc : K) (u : nat) : K :=
  if (sf s i u =? j) && cltb (sL s i u) acc then sL s i u else acc.
Definition E (s : stg) (i j : nat) : K := fold_left (estep s i j) (seq 0 m) infty.

Lemma estep_fold s i j l : forall acc,
  fold_left (estep s i j) l acc <= acc /\
  (forall u, In u l -> sf s i u = j -> fold_left (estep s i j) l acc <= sL s i u) /\
  (fold_left (estep s i j) l acc = acc \/ exists u, In u l /\ sf s i u = j /\ fold_left (estep s i j) l acc = sL s i u).
Proof.
  induction l as [|u l IH]; intros acc; simpl.
  - split; [apply cle_refl|]. split; [intros ? []|]. auto.
  - destruct (IH (estep s i j acc u)) as (H1 & H2 & H3).
    assert (Ha : estep s i j acc u <= acc).
    { unfold estep. destruct (sf s i u =? j); simpl; [|apply cle_refl].
      destruct (cltb (sL s i u) acc) eqn:C; [apply clt_le; exact C|apply cle_refl]. }
    split; [eapply cle_trans; eassumption|]. split.
    + intros u' [<-|Hu'] Hf; [|auto]. eapply cle_trans; [exact H1|].
      unfold estep. rewrite Hf, Nat.eqb_refl. simpl.
      destruct (cltb (sL s i u) acc) eqn:C; [apply cle_refl|]. apply cle_not_lt. congruence.
    + destruct H3 as [H3|(u' & A & B & C)].
      * rewrite H3. unfold estep. destruct (Nat.eqb_spec (sf s i u) j) as [Hf|Hf]; simpl; [|auto].
        destruct (cltb (sL s i u) acc); [right; exists u; auto|auto].
      * right. exists u'. auto.
Qed.
Lemma E_infty s i j : E s i j <= infty.
Proof. apply (estep_fold s i j (seq 0 m) infty). Qed.
Lemma E_le s i u : u << m -> E s i (sf s i u) <= sL s i u.
Proof. intros H. apply (estep_fold s i (sf s i u) (seq 0 m) infty); [apply in_seq; lia|reflexivity]. Qed.
Lemma E_cases s i j : E s i j = infty \/ exists u, u << m /\ sf s i u = j /\ E s i j = sL s i u.
Proof.
  destruct (estep_fold s i j (seq 0 m) infty) as (_ & _ & [H|(u & Hu & H)]); [left; exact H|right].
  exists u. apply in_seq in Hu. split; [lia|exact H].
Qed.

Fixpoint Jv (ss : list stg) (lt : nat -> K) (x : nat) : K :=
  match ss with
  | [] => lt x
  | s :: ss' => minv n (fun j => E s x j + Jv ss' lt j)
  end.

(** the optimal values of neighbouring times differ by at most the sentinel *)
Fixpoint sent_ok (ss : list stg) (lt : nat -> K) : Prop :=
  match ss with
  | [] => True
  | s :: ss' => (forall i j, i << n -> j << n -> Vf ss lt i <= infty + Vf ss' lt j) /\ sent_ok ss' lt
  end.
Fixpoint sent_strict (ss : list stg) (lt : nat -> K) : Prop :=
  match ss with
  | [] => True
  | s :: ss' => (forall i j, i << n -> j << n -> Vf ss lt i < infty + Vf ss' lt j) /\ sent_strict ss' lt
  end.
Lemma sent_strict_ok ss lt : sent_strict ss lt -> sent_ok ss lt.
Proof.
  induction ss as [|s ss IH]; simpl; [auto|]. intros [H1 H2]. split; [|auto].
  intros i j Hi Hj. apply clt_le. auto.
Qed.

Lemma Jv_step s ss lt x : sok s -> x << n ->
  (forall j, j << n -> Vf (s :: ss) lt x <= infty + Vf ss lt j) ->
  minv n (fun j => E s x j + Vf ss lt j) = Vf (s :: ss) lt x.
Proof.
  intros Hs Hx Hb. apply minv_eq; [exact Hn| |].
  - intros j Hj. destruct (E_cases s x j) as [->|(u & Hu & Hf & ->)]; [auto|].
    simpl. subst j. apply (minv_le m (fun u => sL s x u + Vf ss lt (sf s x u)) u Hu).
  - simpl. destruct (minv_att m (fun u => sL s x u + Vf ss lt (sf s x u)) Hm) as (u & Hu & ->).
    exists (sf s x u). split; [auto|]. apply cadd_mono2; [apply E_le; exact Hu|apply cle_refl].
Qed.

Lemma Jv_Vf ss lt : Forall sok ss -> sent_ok ss lt -> forall x, x << n -> Jv ss lt x = Vf ss lt x.
Proof.
  induction 1 as [|s ss Hs Hss IH]; intros Hk x Hx; [reflexivity|].
  destruct Hk as [Hb Hk]. simpl Jv. rewrite <- (Jv_step s ss lt x Hs Hx).
  - apply minv_ext. intros j Hj. rewrite IH; auto.
  - intros j Hj. auto.
Qed.

(** ** Forward values: row vector times element *)
Definition step (d : nat -> K) (s : stg) : nat -> K := fun j => minv n (fun i => d i + E s i j).

Lemma step_total s ss lt d : sok s ->
  (forall i j, i << n -> j << n -> Vf (s :: ss) lt i <= infty + Vf ss lt j) ->
  minv n (fun j => step d s j + Vf ss lt j) = minv n (fun i => d i + Vf (s :: ss) lt i).
Proof.
  intros Hs Hb. unfold step.
  transitivity (minv n (fun j => minv n (fun i => d i + (E s i j + Vf ss lt j)))).
  { apply minv_ext. intros j _. rewrite minv_add_r by exact Hn. apply minv_ext. intros; apply cadd_assoc. }
  rewrite minv_swap by exact Hn. apply minv_ext. intros i Hi.
  rewrite <- minv_add_l by exact Hn. f_equal. apply Jv_step; auto.
Qed.

Lemma steps_total pre post lt : Forall sok (pre ++ post) -> sent_ok (pre ++ post) lt -> forall d,
  minv n (fun j => fold_left step pre d j + Vf post lt j) = minv n (fun i => d i + Vf (pre ++ post) lt i).
Proof.
  induction pre as [|s pre IH]; intros Hok Hs d; [reflexivity|].
  simpl in *. inversion Hok; subst. destruct Hs as [Hb Hs]. rewrite IH by assumption.
  apply step_total; assumption.
Qed.

Hypothesis Hstrict : strict_add K.

(** a state that attains the minimum is reached by real transitions from one that did *)
Lemma attain_back pre post lt : Forall sok (pre ++ post) -> sent_strict (pre ++ post) lt -> forall d j M,
  j << n -> M = minv n (fun i => d i + Vf (pre ++ post) lt i) ->
  fold_left step pre d j + Vf post lt j = M ->
  exists i us, i << n /\ ctl (length pre) us /\ endst pre i us = j /\
     d i + Vf (pre ++ post) lt i = M /\
     rc pre (Vf post lt) i us = Vf (pre ++ post) lt i.
Proof.
  induction pre as [|s pre IH]; intros Hok Hs d j M Hj HM Hat.
  - exists j, []. simpl in *. repeat split; auto.
  - simpl in Hok, Hs. pose proof (Forall_inv Hok) as Hs1; pose proof (Forall_inv_tail Hok) as Hok'. destruct Hs as [Hb Hs].
    assert (Hb' : forall i j, i << n -> j << n -> Vf (s :: pre ++ post) lt i <= infty + Vf (pre ++ post) lt j)
      by (intros; apply clt_le; apply Hb; assumption).
    destruct (IH Hok' Hs (step d s) j M Hj) as (i' & us & Hi' & Hus & Hend & Hi'M & Hrc).
    { rewrite HM. symmetry. apply step_total; assumption. }
    { exact Hat. }
    unfold step in Hi'M. destruct (minv_att n (fun i => d i + E s i i') Hn) as (i & Hi & Ei).
    rewrite Ei in Hi'M.
    assert (Mle : M <= d i + Vf (s :: pre ++ post) lt i).
    { rewrite HM. apply (minv_le n (fun i => d i + Vf (s :: pre ++ post) lt i) i Hi). }
    destruct (E_cases s i i') as [EI|(u & Hu & Hf & EL)].
    + exfalso. rewrite EI, cadd_assoc in Hi'M.
      assert (L : d i + Vf (s :: pre ++ post) lt i < d i + (infty + Vf (pre ++ post) lt i')) by (apply Hstrict; apply Hb; assumption).
      rewrite Hi'M in L. apply (clt_irrefl K M). eapply cle_lt_trans; eassumption.
    + rewrite EL, cadd_assoc in Hi'M. subst i'.
      assert (Hmin : Vf (s :: pre ++ post) lt i <= sL s i u + Vf (pre ++ post) lt (sf s i u))
        by (apply (minv_le m (fun u => sL s i u + Vf (pre ++ post) lt (sf s i u)) u Hu)).
      assert (Heq : Vf (s :: pre ++ post) lt i = sL s i u + Vf (pre ++ post) lt (sf s i u)).
      { destruct (cle_lt_or _ _ _ Hmin) as [Hlt|He]; [|exact He]. exfalso.
        apply (Hstrict _ _ (d i)) in Hlt. rewrite Hi'M in Hlt.
        apply (clt_irrefl K M). eapply cle_lt_trans; eassumption. }
      exists i, (u :: us). split; [exact Hi|]. destruct Hus as [Hus1 Hus2]. split; [split; [simpl; congruence|constructor; assumption]|].
      split; [exact Hend|]. split.
      * change ((s :: pre) ++ post) with (s :: pre ++ post). rewrite Heq. exact Hi'M.
      * change ((s :: pre) ++ post) with (s :: pre ++ post). rewrite Heq. simpl. rewrite Hrc. reflexivity.
Qed.

End Core.
Arguments minv {K}. Arguments amin {K}. Arguments mp {K}. Arguments Stg {K}. Arguments sf {K}. Arguments sL {K}.
Arguments sok {K}. Arguments Vf {K}. Arguments pol {K}. Arguments rc {K}. Arguments pus {K}. Arguments endst {K}.
Arguments E {K}. Arguments estep {K}. Arguments Jv {K}. Arguments sent_ok {K}. Arguments sent_strict {K}. Arguments step {K}.
