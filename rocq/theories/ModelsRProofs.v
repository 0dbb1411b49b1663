(** Lemmas for C55 and C59. *)
From Coq Require Import Reals List Arith Lia Lra.
From Verif Require Import ModelsRModel ModelsRSpec.
Import ListNotations.
Local Open Scope R_scope.

Lemma bounce_in x c : -1 <= c <= 1 -> 1 / 2 < x < 10 - 1 / 2 -> 1 / 2 < bounce x (x + br * c) < 10 - 1 / 2.
Proof.
  intros hc hx. unfold bounce, bx0, bx1, bs, br.
  destruct (Rle_dec (x + 1 * c) (0 + 1 / 2)); [lra|]. destruct (Rle_dec (10 - 1 / 2) (x + 1 * c)); lra.
Qed.
Lemma bounce_sq x c : (bounce x (x + br * c) - x) ^ 2 = c ^ 2.
Proof. unfold bounce, br. destruct (Rle_dec _ _); [|destruct (Rle_dec _ _)]; ring. Qed.
Lemma walk_ok u w : inside (w_x w, w_y w) ->
  inside (w_x (walk u w), w_y (walk u w)) /\ dist2 (w_x w, w_y w) (w_x (walk u w), w_y (walk u w)) = 1.
Proof.
  intros [hx hy]. unfold walk. cbn [w_x w_y w_angle fst snd] in *. set (a := turn (w_angle w) u).
  pose proof (COS_bound a) as hc. pose proof (SIN_bound a) as hs. split.
  - split; cbn [fst snd]; apply bounce_in; assumption.
  - unfold dist2. cbn [fst snd]. rewrite !bounce_sq. pose proof (sin2_cos2 a) as h. unfold Rsqr in h. lra.
Qed.
Lemma walk_from_ok draw n : forall k w, inside (w_x w, w_y w) ->
  let l := (w_x w, w_y w) :: walk_from draw k n w in
  length l = S n /\ Forall inside l /\ forall i, (S i < length l)%nat -> dist2 (nth i l (0, 0)) (nth (S i) l (0, 0)) = 1.
Proof.
  induction n as [|n IH]; intros k w hw.
  - cbn. repeat split; auto. intros i h. lia.
  - cbn [walk_from]. destruct (walk_ok (draw k) w hw) as [h1 h2].
    destruct (IH (S k) (walk (draw k) w) h1) as (l1 & l2 & l3).
    cbn zeta in *. set (t := walk_from draw (S k) n (walk (draw k) w)) in *. repeat split.
    + cbn in *. now rewrite l1.
    + constructor; assumption.
    + intros [|i] h; [exact h2|]. cbn [nth length] in *. apply l3. lia.
Qed.
Lemma genData_l draw N : (0 < N)%nat -> exists l, genData draw N = Some l /\ length l = N /\ nth_error l 0 = Some (5, 5) /\
  Forall inside l /\ forall i, (S i < N)%nat -> dist2 (nth i l (0, 0)) (nth (S i) l (0, 0)) = 1.
Proof.
  intros hN. destruct N as [|n]; [lia|]. unfold genData. eexists; split; [reflexivity|].
  set (x := bx0 + (bx1 - bx0) / 2). assert (hx : x = 5) by (unfold x, bx0, bx1; lra).
  assert (hi : inside (x, x)) by (rewrite hx; unfold inside; cbn; lra).
  destruct (walk_from_ok draw n 0 (Walker 0 x x) hi) as (l1 & l2 & l3). cbn [w_x w_y] in *.
  repeat split; auto.
  - cbn. now rewrite hx.
  - intros i h. apply l3. now rewrite l1.
Qed.

(** ** Jacobians *)
Ltac dlim :=
  match goal with
  | |- derivable_pt_lim (fun t => t) _ _ => apply derivable_pt_lim_id
  | |- derivable_pt_lim (fun t => ?c) _ _ => apply derivable_pt_lim_const
  | |- derivable_pt_lim (fun t => cos t) _ _ => apply derivable_pt_lim_cos
  | |- derivable_pt_lim (fun t => sin t) _ _ => apply derivable_pt_lim_sin
  | |- derivable_pt_lim (fun t => @?f t + @?g t) _ _ => eapply (derivable_pt_lim_plus f g); dlim
  | |- derivable_pt_lim (fun t => @?f t * @?g t) _ _ => eapply (derivable_pt_lim_mult f g); dlim
  end.
Lemma lim_eq f x l l' : derivable_pt_lim f x l -> l = l' -> derivable_pt_lim f x l'.
Proof. now intros h <-. Qed.
Ltac jac := cbn; eapply lim_eq; [dlim | ring].
Lemma jac_x_l dt x u i j : (i < 4)%nat -> (j < 4)%nat -> partial_derivative (fun v => nth i (nl_f dt v u) 0) x j (nth j (nth i (nl_Fx dt x u) []) 0).
Proof.
  intros hi hj. unfold partial_derivative, put.
  destruct i as [|[|[|[|]]]]; try lia; destruct j as [|[|[|[|]]]]; try lia; jac.
Qed.
Lemma jac_u_l dt x u i j : (i < 4)%nat -> (j < 2)%nat -> partial_derivative (fun v => nth i (nl_f dt x v) 0) u j (nth j (nth i (nl_Fu dt x u) []) 0).
Proof.
  intros hi hj. unfold partial_derivative, put.
  destruct i as [|[|[|[|]]]]; try lia; destruct j as [|[|]]; try lia; jac.
Qed.

(** ** batches *)
Lemma nth_seq_map {A} (d : A) (l : list A) : map (fun b => nth b l d) (seq 0 (length l)) = l.
Proof.
  apply nth_ext with (d := d) (d' := d); rewrite map_length, seq_length; auto.
  intros i hi. rewrite (nth_indep _ d (nth 0 l d)) by now rewrite map_length, seq_length.
  rewrite (map_nth (fun b => nth b l d)). now rewrite seq_nth.
Qed.
Lemma stack1_map {A} (cols : list (A -> R)) c0 (l : list A) (a0 : A) :
  stack1 (map (fun c => map c l) (c0 :: cols)) = map (fun a => map (fun c => c a) (c0 :: cols)) l.
Proof.
  unfold stack1. cbn [map hd]. rewrite map_length.
  transitivity (map (fun a => map (fun c => c a) (c0 :: cols)) (map (fun b => nth b l a0) (seq 0 (length l)))).
  2: now rewrite nth_seq_map.
  rewrite map_map. apply map_ext_in. intros b hb. apply in_seq in hb.
  change (map (fun c => nth b c 0) (map (fun c => map c l) (c0 :: cols)) = map (fun c => c (nth b l a0)) (c0 :: cols)).
  rewrite map_map. apply map_ext. intros c.
  rewrite (nth_indep _ 0 (c a0)) by (rewrite map_length; lia). now rewrite map_nth.
Qed.
Lemma stack2_map {A} (mats : list (A -> list R)) m0 k (l : list A) (a0 : A) : (forall a, length (m0 a) = k) ->
  stack2 (map (fun m => map m l) (m0 :: mats)) = map (fun a => map (fun i => map (fun m => nth i (m a) 0) (m0 :: mats)) (seq 0 k)) l.
Proof.
  intros hk. unfold stack2. cbn [map hd]. rewrite map_length.
  transitivity (map (fun a => map (fun i => map (fun m => nth i (m a) 0) (m0 :: mats)) (seq 0 k)) (map (fun b => nth b l a0) (seq 0 (length l)))).
  2: now rewrite nth_seq_map.
  rewrite map_map. apply map_ext_in. intros b hb. apply in_seq in hb.
  assert (E : forall m : A -> list R, nth b (map m l) [] = m (nth b l a0)).
  { intros m. rewrite (nth_indep _ [] (m a0)) by (rewrite map_length; lia). now rewrite map_nth. }
  rewrite E, hk. apply map_ext. intros i. cbn [map]. f_equal.
  rewrite map_map. apply map_ext. intros m. now rewrite E.
Qed.
Lemma stack1_4 {A} (a b c d : A -> R) (l : list A) (a0 : A) :
  stack1 [map a l; map b l; map c l; map d l] = map (fun z => [a z; b z; c z; d z]) l.
Proof. exact (stack1_map [b; c; d] a l a0). Qed.
Lemma stack2_4 {A} (a b c d : A -> list R) k (l : list A) (a0 : A) : (forall z, length (a z) = k) ->
  stack2 [map a l; map b l; map c l; map d l] = map (fun z => map (fun i => [nth i (a z) 0; nth i (b z) 0; nth i (c z) 0; nth i (d z) 0]) (seq 0 k)) l.
Proof. exact (stack2_map [b; c; d] a k l a0). Qed.
Lemma stack2_2 {A} (a b : A -> list R) k (l : list A) (a0 : A) : (forall z, length (a z) = k) ->
  stack2 [map a l; map b l] = map (fun z => map (fun i => [nth i (a z) 0; nth i (b z) 0]) (seq 0 k)) l.
Proof. exact (stack2_map [b] a k l a0). Qed.
Lemma tcol_l (xs us : list vect) i : length xs = length us -> tcol xs i = map (fun z => fst z i) (combine xs us).
Proof.
  intros h. unfold tcol. revert us h. induction xs as [|x xs IH]; intros [|u us] h; try discriminate; [reflexivity|].
  cbn. f_equal. apply IH. now injection h.
Qed.
Lemma tcol_r (xs us : list vect) i : length xs = length us -> tcol us i = map (fun z => snd z i) (combine xs us).
Proof.
  intros h. unfold tcol. revert us h. induction xs as [|x xs IH]; intros [|u us] h; try discriminate; [reflexivity|].
  cbn. f_equal. apply IH. now injection h.
Qed.
Lemma tmap2_map {A} g (a b : A -> R) l : tmap2 g (map a l) (map b l) = map (fun z => g (a z) (b z)) l.
Proof. unfold tmap2. induction l as [|x l IH]; [reflexivity|]. cbn. now rewrite IH. Qed.
Definition z0 : vect * vect := (fun _ => 0, fun _ => 0).
Ltac batch h :=
  rewrite ?(tcol_l _ _ _ h), ?(tcol_r _ _ _ h); unfold tscale, tones, tzeros; rewrite ?map_map, ?tmap2_map, ?map_map, ?tmap2_map.
Lemma tf_f_l dt xs us : length xs = length us -> tf_nl_f dt xs us = map (fun z => nl_f dt (fst z) (snd z)) (combine xs us).
Proof. intros h. unfold tf_nl_f. batch h. now rewrite (stack1_4 _ _ _ _ _ z0). Qed.
Lemma tf_Fx_l dt xs us : length xs = length us -> tf_nl_Fx dt xs us = map (fun z => nl_Fx dt (fst z) (snd z)) (combine xs us).
Proof. intros h. unfold tf_nl_Fx. cbv zeta. batch h. now rewrite !(stack1_4 _ _ _ _ _ z0), (stack2_4 _ _ _ _ 4 _ z0). Qed.
Lemma tf_Fu_l dt xs us : length xs = length us -> tf_nl_Fu dt xs us = map (fun z => nl_Fu dt (fst z) (snd z)) (combine xs us).
Proof.
  intros h. unfold tf_nl_Fu. cbv zeta. batch h. rewrite !(stack1_4 _ _ _ _ _ z0), (stack2_2 _ _ 4 _ z0) by reflexivity.
  apply map_ext. intros z. unfold nl_Fu. cbn. repeat f_equal; ring.
Qed.
