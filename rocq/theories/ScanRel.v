(** Both scans for arbitrary operators (not associative, not total): every result is a bracketing of its prefix. *)
From Coq Require Import List Arith Lia.
From Verif Require Import ScanModel ScanSpec ScanProofs ScanUse TfScan BracketSpec.
Import ListNotations.

Lemma f2_len {X Y} (Q : X -> Y -> Prop) a b : Forall2 Q a b -> length a = length b.
Proof. induction 1; cbn; auto. Qed.
(** * Two runs of the scan in step *)
Section Sim.
Context {A B : Type} (Rel : A -> B -> Prop) (op : A -> A -> option A) (op2 : B -> B -> option B).
Hypothesis H : forall x y z x' y', Rel x x' -> Rel y y' -> op x y = Some z -> exists z', op2 x' y' = Some z' /\ Rel z z'.

Definition orel (x : option A) (y : option B) : Prop :=
  match x, y with Some a, Some b => Rel a b | None, None => True | _, _ => False end.

Lemma comb_sim x y x' y' v : orel x x' -> orel y y' -> comb op x y = Some v ->
  exists v', comb op2 x' y' = Some v' /\ orel v v'.
Proof.
  intros hx hy. destruct y as [y|], y' as [y'|]; cbn in hy; try easy; cbn.
  - destruct x as [x|], x' as [x'|]; cbn in hx; try easy; cbn.
    + destruct (op x y) as [z|] eqn:E; [|easy]. intros [= <-].
      destruct (H _ _ _ _ _ hx hy E) as (z' & -> & r). exists (Some z'). auto.
    + intros [= <-]. exists (Some y'). auto.
  - intros [= <-]. exists x'. auto.
Qed.
Lemma upd_sim {X Y} (Q : X -> Y -> Prop) a a' : Forall2 Q a a' -> forall i v v' b, Q v v' -> upd a i v = Some b ->
  exists b', upd a' i v' = Some b' /\ Forall2 Q b b'.
Proof.
  induction 1 as [|x x' a a' hx ha IH]; intros i v v' b hv; cbn; [easy|].
  destruct i as [|i].
  - intros [= <-]. eexists. split; [reflexivity|]. constructor; auto.
  - destruct (upd a i v) as [t|] eqn:E; [|easy]. intros [= <-].
    destruct (IH i v v' t hv E) as (t' & -> & r). eexists. split; [reflexivity|]. constructor; auto.
Qed.
Lemma nth_sim {X Y} (Q : X -> Y -> Prop) a a' : Forall2 Q a a' -> forall i x, nth_error a i = Some x ->
  exists x', nth_error a' i = Some x' /\ Q x x'.
Proof. induction 1 as [|x x' a a' hx ha IH]; intros [|i] y; cbn; try easy; [intros [= <-]; eauto|apply IH]. Qed.
Lemma for_sim {S T} (Q : S -> T -> Prop) (body : nat -> S -> option S) (body' : nat -> T -> option T) l :
  (forall i s s' r, Q s s' -> body i s = Some r -> exists r', body' i s' = Some r' /\ Q r r') ->
  forall s s' r, Q s s' -> for_ l body s = Some r -> exists r', for_ l body' s' = Some r' /\ Q r r'.
Proof.
  intros hb. induction l as [|i l IH]; intros s s' r hs; cbn; [intros [= <-]; eauto|].
  destruct (body i s) as [t|] eqn:E; [|easy]. destruct (hb _ _ _ _ hs E) as (t' & -> & ht). apply IH; auto.
Qed.
Lemma up_body_sim d i a a' r : Forall2 orel a a' -> up_body op d i a = Some r ->
  exists r', up_body op2 d i a' = Some r' /\ Forall2 orel r r'.
Proof.
  intros ha. unfold up_body.
  destruct (nth_error a (i + 2 ^ d - 1)) as [x|] eqn:E1; [|easy].
  destruct (nth_error a (i + 2 ^ (d + 1) - 1)) as [y|] eqn:E2; [|easy].
  destruct (nth_sim _ _ _ ha _ _ E1) as (x' & -> & hx), (nth_sim _ _ _ ha _ _ E2) as (y' & -> & hy).
  destruct (comb op x y) as [v|] eqn:E; [|easy]. destruct (comb_sim _ _ _ _ _ hx hy E) as (v' & -> & hv).
  apply upd_sim; auto.
Qed.
Lemma down_body_sim d i a a' r : Forall2 orel a a' -> down_body op d i a = Some r ->
  exists r', down_body op2 d i a' = Some r' /\ Forall2 orel r r'.
Proof.
  intros ha. unfold down_body.
  destruct (nth_error a (i + 2 ^ d - 1)) as [x|] eqn:E1; [|easy].
  destruct (nth_error a (i + 2 ^ (d + 1) - 1)) as [y|] eqn:E2; [|easy].
  destruct (nth_sim _ _ _ ha _ _ E1) as (x' & -> & hx), (nth_sim _ _ _ ha _ _ E2) as (y' & -> & hy).
  destruct (upd a _ y) as [a1|] eqn:E3; [|easy]. destruct (upd_sim _ _ _ ha _ _ _ _ hy E3) as (a1' & -> & h1).
  destruct (comb op y x) as [v|] eqn:E; [|easy]. destruct (comb_sim _ _ _ _ _ hy hx E) as (v' & -> & hv).
  apply upd_sim; auto.
Qed.
Lemma extra_body_sim a0 a0' i a a' r : Forall2 orel a0 a0' -> Forall2 orel a a' -> extra_body op a0 i a = Some r ->
  exists r', extra_body op2 a0' i a' = Some r' /\ Forall2 orel r r'.
Proof.
  intros h0 ha. unfold extra_body.
  destruct (nth_error a i) as [x|] eqn:E1; [|easy]. destruct (nth_error a0 i) as [y|] eqn:E2; [|easy].
  destruct (nth_sim _ _ _ ha _ _ E1) as (x' & -> & hx), (nth_sim _ _ _ h0 _ _ E2) as (y' & -> & hy).
  destruct (comb op x y) as [v|] eqn:E; [|easy]. destruct (comb_sim _ _ _ _ _ hx hy E) as (v' & -> & hv).
  apply upd_sim; auto.
Qed.

Lemma scan_fwd_sim a a' r : Forall2 Rel a a' -> scan_fwd op a = Some r ->
  exists r', scan_fwd op2 a' = Some r' /\ Forall2 Rel r r'.
Proof.
  intros ha. assert (L := f2_len _ _ _ ha). unfold scan_fwd. rewrite <- L.
  destruct (length a) as [|k]; [easy|]. set (n := 2 ^ Nat.log2_up (S k)).
  assert (h0 : Forall2 orel (map Some a ++ repeat None (n - S k)) (map Some a' ++ repeat None (n - S k))).
  { apply Forall2_app.
    - clear -ha. induction ha; cbn; constructor; auto.
    - generalize (n - S k). induction n0; cbn; constructor; cbn; auto. }
  destruct (for_ _ (up_level op n) _) as [a1|] eqn:E1; [|easy].
  destruct (for_sim (Forall2 orel) (up_level op n) (up_level op2 n) (seq 0 (Nat.log2_up (S k)))
     (fun d s s' r hs e => for_sim (Forall2 orel) _ _ _ (fun i s s' r => up_body_sim d i s s' r) s s' r hs e) _ _ _ h0 E1)
    as (a1' & -> & h1).
  destruct (upd a1 _ _) as [a2|] eqn:E2; [|easy].
  destruct (upd_sim orel _ _ h1 (n - 1) None None a2 I E2) as (a2' & -> & h2).
  destruct (for_ _ (down_level op n) a2) as [a3|] eqn:E3; [|easy].
  destruct (for_sim (Forall2 orel) (down_level op n) (down_level op2 n) (rev (seq 0 (Nat.log2_up (S k))))
     (fun d s s' r hs e => for_sim (Forall2 orel) _ _ _ (fun i s s' r => down_body_sim d i s s' r) s s' r hs e) _ _ _ h2 E3)
    as (a3' & -> & h3).
  destruct (extra_level op n _ a3) as [a4|] eqn:E4; [|easy].
  destruct (for_sim (Forall2 orel) (extra_body op (map Some a ++ repeat None (n - S k)))
     (extra_body op2 (map Some a' ++ repeat None (n - S k))) (seq 0 n)
     (fun i s s' r => extra_body_sim _ _ i s s' r h0) _ _ _ h3 E4) as (a4' & E4' & h4).
  unfold extra_level. rewrite E4'.
  assert (h5 : Forall2 orel (firstn (S k) a4) (firstn (S k) a4')).
  { clear -h4. revert a4 a4' h4. generalize (S k) as j. induction j as [|j IH]; intros; cbn; [constructor|].
    destruct h4; constructor; auto. }
  revert r. induction h5 as [|x x' l l' hx hl IH]; intros r.
  - intros [= <-]. eauto.
  - destruct x as [x|], x' as [x'|]; cbn in hx; try easy.
    match goal with |- match ?m with _ => _ end = _ -> _ => destruct m as [q|] eqn:E5; [|easy] end.
    intros [= <-]. destruct (IH q eq_refl) as (q' & -> & hq). eexists. split; [reflexivity|]. constructor; auto.
Qed.

(** tfp.math.scan_associative *)
Lemma map2_sim l1 l1' : Forall2 Rel l1 l1' -> forall l2 l2' r, Forall2 Rel l2 l2' -> map2_o op l1 l2 = Some r ->
  exists r', map2_o op2 l1' l2' = Some r' /\ Forall2 Rel r r'.
Proof.
  induction 1 as [|x x' l1 l1' hx h1 IH]; intros l2 l2' r h2; cbn.
  - intros [= <-]. eauto.
  - destruct h2 as [|y y' l2 l2' hy h2]; [intros [= <-]; eauto|].
    destruct (op x y) as [z|] eqn:E; [|easy]. destruct (H _ _ _ _ _ hx hy E) as (z' & -> & hz).
    destruct (map2_o op l1 l2) as [q|] eqn:E2; [|easy]. intros [= <-].
    destruct (IH _ _ _ h2 E2) as (q' & -> & hq). eexists. split; [reflexivity|]. constructor; auto.
Qed.
Lemma evens_sim l l' : Forall2 Rel l l' -> Forall2 Rel (evens l) (evens l') /\ Forall2 Rel (odds l) (odds l').
Proof.
  revert l'. induction l as [l IH] using (well_founded_induction (Wf_nat.well_founded_ltof _ (@length A))).
  intros l' h. destruct h as [|x x' l l' hx h]; [split; constructor|].
  destruct h as [|y y' l l' hy h].
  - split; cbn; repeat constructor; auto.
  - destruct (IH l) with (l' := l') as [i1 i2]; [unfold ltof; cbn; lia|auto|].
    split; [cbn; constructor; auto|].
    change (odds (x :: y :: l)) with (evens (y :: l)). change (odds (x' :: y' :: l')) with (evens (y' :: l')).
    cbn. destruct h as [|z z' l l' hz h]; constructor; auto.
Qed.
Lemma tl_sim l l' : Forall2 Rel l l' -> Forall2 Rel (tl l) (tl l').
Proof. destruct 1; cbn; auto. Qed.
Lemma interleave_sim l1 l1' : Forall2 Rel l1 l1' -> forall l2 l2', Forall2 Rel l2 l2' ->
  Forall2 Rel (interleave l1 l2) (interleave l1' l2').
Proof.
  induction 1 as [|x x' l1 l1' hx h1 IH]; intros l2 l2' h2; cbn; auto.
  constructor; auto. destruct h2; auto.
Qed.
Lemma tfp_lv_unfold {X} (o : X -> X -> option X) lv x l : tfp_scan_lv o lv (x :: l) =
  match map2_o o (evens (x :: l)) (odds (x :: l)) with
  | None => None
  | Some red =>
      match l with
      | [_] => Some (x :: red)
      | _ =>
        match (match l, red with [_; z], [xy] => Some (xy, z) | _, _ => None end) with
        | Some (xy, z) => match o xy z with None => None | Some w => Some [x; xy; w] end
        | None =>
          match lv with
          | 0 => None
          | S lv' =>
              match tfp_scan_lv o lv' red with
              | None => None
              | Some odd =>
                  match map2_o o odd (tl (evens (x :: l))) with
                  | None => None
                  | Some ev => Some (interleave (x :: ev) odd)
                  end
              end
          end
        end
      end
  end.
Proof.
  destruct lv; cbn [tfp_scan_lv]; destruct (map2_o o (evens (x :: l)) (odds (x :: l))) as [red|]; try reflexivity;
    destruct l as [|y [|z [|w l]]]; try reflexivity; destruct red as [|xy [|? red]]; reflexivity.
Qed.
Lemma tfp_lv_sim lv : forall l l' r, Forall2 Rel l l' -> tfp_scan_lv op lv l = Some r ->
  exists r', tfp_scan_lv op2 lv l' = Some r' /\ Forall2 Rel r r'.
Proof.
  induction lv as [|lv IH]; intros l l' r h; (destruct h as [|x x' l l' hx h]; [easy|]); rewrite !tfp_lv_unfold;
    assert (hxl : Forall2 Rel (x :: l) (x' :: l')) by (constructor; auto); destruct (evens_sim _ _ hxl) as [he ho];
    (destruct (map2_o op _ _) as [red|] eqn:E; [|easy]);
    destruct (map2_sim _ _ he _ _ _ ho E) as (red' & -> & hr).
  - destruct h as [|y y' l l' hy h]; [easy|]. destruct h as [|z z' l l' hz h].
    + intros [= <-]. eexists. split; [reflexivity|]. constructor; auto.
    + destruct h as [|w w' l l' hw h]; [|easy]. destruct hr as [|xy xy' red red' hxy hr]; [easy|].
      destruct hr; [|easy]. destruct (op xy z) as [v|] eqn:E2; [|easy]. intros [= <-].
      destruct (H _ _ _ _ _ hxy hz E2) as (v' & -> & hv). eexists. split; [reflexivity|]. repeat constructor; auto.
  - assert (M : match tfp_scan_lv op lv red with
              | None => None
              | Some odd => match map2_o op odd (tl (evens (x :: l))) with
                  | None => None | Some ev => Some (interleave (x :: ev) odd) end end = Some r ->
        exists r', match tfp_scan_lv op2 lv red' with
              | None => None
              | Some odd => match map2_o op2 odd (tl (evens (x' :: l'))) with
                  | None => None | Some ev => Some (interleave (x' :: ev) odd) end end = Some r' /\ Forall2 Rel r r').
    { destruct (tfp_scan_lv op lv red) as [odd|] eqn:E2; [|easy]. destruct (IH _ _ _ hr E2) as (odd' & -> & h3).
      destruct (map2_o op odd _) as [ev|] eqn:E3; [|easy].
      destruct (map2_sim _ _ h3 _ _ _ (tl_sim _ _ he) E3) as (ev' & -> & h4). intros [= <-].
      eexists. split; [reflexivity|]. apply (interleave_sim (x :: ev) (x' :: ev')); auto. }
    destruct h as [|y y' l l' hy h]; [exact M|]. destruct h as [|z z' l l' hz h].
    + intros [= <-]. eexists. split; [reflexivity|]. constructor; auto.
    + destruct h as [|w w' l l' hw h]; [|exact M]. destruct hr as [|xy xy' red red' hxy hr]; [exact M|].
      destruct hr; [|exact M]. destruct (op xy z) as [v|] eqn:E2; [|easy]. intros [= <-].
      destruct (H _ _ _ _ _ hxy hz E2) as (v' & -> & hv). eexists. split; [reflexivity|]. repeat constructor; auto.
Qed.
Lemma tfp_sim L l l' r : Forall2 Rel l l' -> tfp_scan_associative op L l = Some r ->
  exists r', tfp_scan_associative op2 L l' = Some r' /\ Forall2 Rel r r'.
Proof.
  intros h. unfold tfp_scan_associative. rewrite <- (f2_len _ _ _ h). destruct (length l <? 2).
  - intros [= <-]. eauto.
  - now apply tfp_lv_sim.
Qed.
End Sim.

(** * Bracketings *)
Section Br.
Context {A : Type}.
Lemma br_ne (op : A -> A -> option A) l x : bracketing op l x -> l <> [].
Proof. induction 1 as [x|l1 l2 x y z h1 i1 h2 i2 e]; [easy|]. destruct l1; easy. Qed.
Lemma br_flip (op : A -> A -> option A) l x : bracketing (fun a b => op b a) l x -> bracketing op (rev l) x.
Proof.
  induction 1 as [x|l1 l2 x y z h1 i1 h2 i2 e]; [constructor|]. rewrite rev_app_distr. econstructor; eauto.
Qed.
Let wop (u v : list A) : option (list A) := Some (u ++ v).
Let words (a : list A) := map (fun x => [x]) a.
Lemma words_fold t : forall u, fold_left (@app A) (words t) u = u ++ t.
Proof. induction t as [|x t IH]; intros u; cbn; [now rewrite app_nil_r|]. rewrite IH, <- app_assoc. reflexivity. Qed.
Lemma words_rel op a : Forall2 (fun x w => bracketing op w x) a (words a).
Proof. induction a; cbn; constructor; auto. constructor. Qed.
Lemma f2_nth {X Y} (Q : X -> Y -> Prop) a b : Forall2 Q a b -> forall k x, nth_error a k = Some x -> exists y, nth_error b k = Some y /\ Q x y.
Proof. apply nth_sim. Qed.

Lemma scan_fwd_br op (a r : list A) : scan_fwd op a = Some r ->
  length r = length a /\ forall k x, nth_error r k = Some x -> bracketing op (firstn (S k) a) x.
Proof.
  intros E. assert (ne : a <> []) by (intros ->; discriminate).
  destruct (scan_fwd_sim (fun x w => bracketing op w x) op wop
    (fun x y z x' y' hx hy e => ex_intro _ (x' ++ y') (conj eq_refl (br_node op x' y' x y z hx hy e))) a (words a) r (words_rel op a) E)
    as (r' & E' & h).
  destruct (scan_total_prefix (@app A) (words a)) as (q & Eq & Lq & hq).
  - intros; symmetry; apply app_assoc.
  - destruct a; easy.
  - assert (q = r') as <-. { cbn in Eq. unfold wop in E'. congruence. }
    split; [rewrite (f2_len _ _ _ h), Lq; apply map_length|].
    intros k x hx. destruct (f2_nth _ _ _ h k x hx) as (w & hw & hb).
    assert (kl : k < length a). { rewrite <- (map_length (fun x => [x])). fold (words a). rewrite <- Lq, <- (f2_len _ _ _ h).
      apply nth_error_Some. congruence. }
    destruct a as [|a0 a]; [easy|]. rewrite (hq k [a0] (words (firstn k a))) in hw.
    + injection hw as <-. rewrite words_fold in hb. exact hb.
    + unfold words. rewrite map_length. exact kl.
    + cbn. unfold words. now rewrite firstn_map.
Qed.
Theorem scan_bracketing op (a r : list A) reverse : my_assoc_scan op a reverse = Some r ->
  length r = length a /\
  forall k x, nth_error r k = Some x -> bracketing op (if reverse then skipn k a else firstn (S k) a) x.
Proof.
  destruct reverse; [|apply scan_fwd_br]. unfold my_assoc_scan.
  destruct (scan_fwd _ (rev a)) as [q|] eqn:E; [|easy]. intros [= <-].
  destruct (scan_fwd_br _ _ _ E) as [L h]. rewrite rev_length in L. split; [now rewrite rev_length|].
  intros k x hx. assert (kl : k < length q). { rewrite <- rev_length. apply nth_error_Some. congruence. }
  rewrite nth_error_rev_lt in hx by exact kl. apply h, br_flip in hx.
  rewrite firstn_rev, rev_involutive in hx. replace (length a - S (length q - S k)) with k in hx by lia. exact hx.
Qed.

Lemma wscanl : forall t u, scanl_o wop u (words t) = Some (map (fun k => u ++ firstn k t) (seq 0 (S (length t)))).
Proof.
  induction t as [|x t IH]; intros u; cbn [words map scanl_o].
  - cbn. now rewrite app_nil_r.
  - fold (words t). unfold wop at 1. rewrite IH. f_equal. cbn [length].
    change (seq 0 (S (S (length t)))) with (0 :: seq 1 (S (length t))). rewrite <- (seq_shift (S (length t)) 0).
    rewrite map_cons, map_map. cbn [firstn]. rewrite app_nil_r. f_equal.
    apply map_ext. intros k. cbn [firstn]. now rewrite <- app_assoc.
Qed.
Theorem tfp_bracketing op L (a r : list A) : 1 <= L -> length a < 2 ^ (L + 1) -> tfp_scan_associative op L a = Some r ->
  length r = length a /\ forall k x, nth_error r k = Some x -> bracketing op (firstn (S k) a) x.
Proof.
  intros hL hl E.
  destruct (tfp_sim (fun x w => bracketing op w x) op wop
    (fun x y z x' y' hx hy e => ex_intro _ (x' ++ y') (conj eq_refl (br_node op x' y' x y z hx hy e))) L a (words a) r (words_rel op a) E)
    as (r' & E' & h).
  destruct a as [|a0 a].
  - cbn in E. injection E as <-. split; [reflexivity|]. intros [|k] x hx; discriminate.
  - cbn [words map] in E'. rewrite (tfp_scan_spec (fun _ => True) wop) in E'; auto.
    + rewrite wscanl in E'.
      assert (er : r' = map (fun k => [a0] ++ firstn k a) (seq 0 (S (length a)))) by congruence. subst r'. assert (Lr := f2_len _ _ _ h). rewrite map_length, seq_length in Lr.
      split; [exact Lr|]. intros k x hx. destruct (f2_nth _ _ _ h k x hx) as (w & hw & hb).
      assert (kl : k < S (length a)). { rewrite <- Lr. apply nth_error_Some. congruence. }
      rewrite nth_error_map, (nth_error_nth' _ 0), seq_nth in hw by (rewrite ?seq_length; exact kl).
      cbn in hw. injection hw as <-. exact hb.
    + intros x y _ _. unfold wop. eauto.
    + intros x y z xy yz _ _ _ [= <-] [= <-]. unfold wop. now rewrite app_assoc.
    + apply Forall_forall. auto.
    + rewrite map_length. cbn in hl. exact hl.
Qed.
Theorem tfp_rev_bracketing op mp (a r : list A) : 1 <= mp -> length a < 2 * mp -> tfp_scan_rev op mp a = Some r ->
  length r = length a /\ forall k x, nth_error r k = Some x -> bracketing op (skipn k a) x.
Proof.
  intros hmp hl. unfold tfp_scan_rev. destruct (tfp_scan_associative _ _ (rev a)) as [q|] eqn:E; [|easy]. intros [= <-].
  destruct (tfp_bracketing _ (num_levels mp) (rev a) q ltac:(unfold num_levels; lia) ltac:(rewrite rev_length; pose proof (pow_levels mp hmp); lia) E) as [L h].
  rewrite rev_length in L. split; [now rewrite rev_length|].
  intros k x hx. assert (kl : k < length q). { rewrite <- rev_length. apply nth_error_Some. congruence. }
  rewrite nth_error_rev_lt in hx by exact kl. apply h in hx. apply (br_flip op) in hx.
  rewrite firstn_rev, rev_involutive in hx. replace (length a - S (length q - S k)) with k in hx by lia. exact hx.
Qed.
(** induction principle: a property kept by the operator holds of every bracketing *)
Lemma br_inv op (P : A -> Prop) : (forall x y z, P x -> P y -> op x y = Some z -> P z) ->
  forall l x, bracketing op l x -> Forall P l -> P x.
Proof.
  intros hop. induction 1 as [x|l1 l2 x y z h1 i1 h2 i2 e]; intros F; [now inversion F|].
  apply Forall_app in F. destruct F. eapply hop; [apply i1|apply i2|]; eauto.
Qed.
Lemma br_one op (x y : A) : bracketing op [x] y -> y = x.
Proof.
  intros h. remember [x] as l eqn:E. destruct h as [z|l1 l2 z w v h1 h2 e]; [now injection E|].
  apply br_ne in h1. apply br_ne in h2. destruct l1; [easy|]. destruct l2; [easy|]. destruct l1; discriminate.
Qed.
End Br.
