(** Property theorems about fsc_tf.py (C77) and the control-based estimators of viterbi_tf.py (C78). *)
From Coq Require Import List Arith ZArith Reals.
From Verif Require Import ScanModel Ord FscModel FscSpec VitModel VitSpec VitEx FscTfModel FscTfSpec FscTfMain FscTfVit FscTfEx.
Import ListNotations.

(** C77: every pass returns what the NumPy pass returns; [ff], [fL], [fLT] are the stacked tables of the problem. *)
Theorem C77_seq_backward_agrees :
  forall (K : ordcost) (n m : nat) (P : fsc K), valid n m P -> ff P <> [] ->
  fsc_seq_backwardpass (ff P) (fL P) (fLT P) = seqBackwardPass P.
Proof. exact C77_sb. Qed.
Print Assumptions C77_seq_backward_agrees.

(** for any feedback law; the TensorFlow pass returns the states first *)
Theorem C77_seq_forward_agrees :
  forall (K : ordcost) (n m : nat) (P : fsc K) (x0 : nat) ul, valid n m P -> ff P <> [] -> x0 < n ->
  feedback_law n m (length (ff P)) ul ->
  exists us xs, fsc_seq_forwardpass x0 (ff P) ul = Some (xs, us) /\ seqForwardPass P x0 ul = Some (us, xs).
Proof. exact C77_sf. Qed.
Print Assumptions C77_seq_forward_agrees.

Theorem C77_par_backward_agrees :
  forall (K : ordcost) (n m : nat) (infty : K) (P : fsc K) (mp : nat), valid n m P -> ff P <> [] ->
  costs_at_most infty P -> scan_fits (length (ff P)) mp ->
  fsc_par_backwardpass infty (ff P) (fL P) (fLT P) mp = parBackwardPass infty P.
Proof. exact C77_pb. Qed.
Print Assumptions C77_par_backward_agrees.

Theorem C77_par_forward_agrees :
  forall (K : ordcost) (n m : nat) (P : fsc K) (x0 : nat) ul (mp : nat), valid n m P -> ff P <> [] -> x0 < n ->
  feedback_law n m (length (ff P)) ul -> scan_fits (length (ff P)) mp ->
  fsc_par_forwardpass x0 (ff P) ul mp = parForwardPass P x0 ul.
Proof. exact C77_pf. Qed.
Print Assumptions C77_par_forward_agrees.

(** for any feedback law and any value vectors *)
Theorem C77_fwdbwd_agrees :
  forall (K : ordcost) (n m : nat) (infty : K) (P : fsc K) (x0 : nat) ul Vs (mp : nat), valid n m P -> ff P <> [] -> x0 < n ->
  feedback_law n m (length (ff P)) ul -> value_vectors n (length (ff P)) Vs ->
  costs_at_most infty P -> scan_fits (length (ff P)) mp ->
  fsc_par_fwdbwdpass infty x0 (ff P) (fL P) ul Vs mp = parFwdBwdPass infty P x0 ul Vs.
Proof. exact C77_fb. Qed.
Print Assumptions C77_fwdbwd_agrees.

(** a horizon beyond the limit set by max_parallel raises, whatever the tables *)
Theorem C77_too_long_raises :
  forall (K : ordcost) (infty : K) (x0 : nat) fs Ls LT us Vs (mp : nat), 2 <= mp -> 2 ^ (Nat.log2_up mp + 1) <= S (length fs) ->
  fsc_par_backwardpass infty fs Ls LT mp = None /\ fsc_par_forwardpass x0 fs us mp = None /\
  fsc_par_fwdbwdpass infty x0 fs Ls us Vs mp = None.
Proof. exact C77_long. Qed.
Print Assumptions C77_too_long_raises.

(** bounded costs: the parallel passes return the optimal values, controls and states *)
Theorem C77_parallel_optimal :
  forall (K : ordcost) (n m : nat) (lo hi infty : K) (P : fsc K) (x0 mp : nat), valid n m P -> ff P <> [] -> x0 < n ->
  costs_between lo hi P -> cleb lo czero = true -> cleb czero hi = true ->
  cleb (nmul (S (length (ff P))) hi) (cadd infty (nmul (length (ff P)) lo)) = true -> scan_fits (length (ff P)) mp ->
  exists us Vs mu mx, fsc_par_backwardpass infty (ff P) (fL P) (fLT P) mp = Some (us, Vs) /\
    fsc_seq_backwardpass (ff P) (fL P) (fLT P) = Some (us, Vs) /\
    (forall k x, k <= length (ff P) -> x < n -> exists v, get2 Vs k x = Some v /\ least_cost m P k x v) /\
    fsc_par_forwardpass x0 (ff P) us mp = Some (mu, mx) /\ fsc_seq_forwardpass x0 (ff P) us = Some (mx, mu) /\
    optimal m P x0 mu /\ run_states (ff P) x0 mu = Some mx.
Proof. exact C77_opt. Qed.
Print Assumptions C77_parallel_optimal.

(** without the bound the two libraries may differ: a stage cost above 1e20 *)
Theorem C77_costs_above_the_constant_differ :
  exists (P : fsc Zcost) us us' v w, valid 1 1 P /\
  fsc_par_backwardpass (K := Zcost) (10 ^ 20)%Z (ff P) (fL P) (fLT P) 2 = Some (us, [[v]; [0%Z]]) /\ least_cost 1 P 0 0 v /\
  parBackwardPass (K := Zcost) (10 ^ 20)%Z P = Some (us', [[w]; [0%Z]]) /\ (w < v)%Z.
Proof. exact C77_differ. Qed.
Print Assumptions C77_costs_above_the_constant_differ.

Example C77_hypotheses : valid 3 2 tfP /\ ff tfP <> [] /\ costs_at_most (K := Zcost) (10 ^ 20)%Z tfP /\ scan_fits (length (ff tfP)) 3 /\
  costs_between (K := Zcost) (-2)%Z 7%Z tfP /\ cleb (o := Zcost) (-2)%Z (czero (o := Zcost)) = true /\ cleb (o := Zcost) (czero (o := Zcost)) 7%Z = true /\
  cleb (o := Zcost) (nmul (K := Zcost) 4 7%Z) (cadd (o := Zcost) (10 ^ 20)%Z (nmul (K := Zcost) 3 (-2)%Z)) = true.
Proof. exact tfP_ok. Qed.
Example C77_run : exists us Vs mu mx,
  fsc_par_backwardpass (K := Zcost) (10 ^ 20)%Z (ff tfP) (fL tfP) (fLT tfP) 3 = Some (us, Vs) /\
  parBackwardPass (K := Zcost) (10 ^ 20)%Z tfP = Some (us, Vs) /\ feedback_law 3 2 3 us /\ value_vectors (K := Zcost) 3 3 Vs /\
  fsc_par_fwdbwdpass (K := Zcost) (10 ^ 20)%Z 0 (ff tfP) (fL tfP) us Vs 3 = Some (mu, mx) /\
  fsc_par_forwardpass 0 (ff tfP) us 3 = Some (mu, mx) /\ mx = [0; 1; 2; 1].
Proof. exact tfP_run. Qed.
Example C77_too_long : 2 ^ (Nat.log2_up 3 + 1) <= S (length (repeat (nth 0 (ff tfP) []) 7)).
Proof. exact tfP_long. Qed.

(** C78: the hypotheses are those of C17 and C18; Properties_Vit.v shows a model that meets them *)
Local Open Scope R_scope.
Theorem C78_sequential_MAP :
  forall n ny prior Pi Po ys, model_ok (fun e => 0 < e) n ny prior Pi Po -> symbols ny ys -> ys <> [] ->
  exists fs Ls LT xs Vs, make_viterbi_fsc prior Pi Po ys = Some (fs, Ls, LT) /\ viterbi_fsc_seq_bwfw fs Ls LT = Some (xs, Vs) /\
    seqViterbi prior Pi Po ys = Some (xs, Vs) /\ MAP n prior Pi Po ys xs /\ log_values n prior Pi Po ys Vs.
Proof. exact C78_seq. Qed.
Print Assumptions C78_sequential_MAP.

Theorem C78_parallel_MAP :
  forall b n ny prior Pi Po ys, model_ok (log_bounded b) n ny prior Pi Po -> symbols ny ys -> (2 <= length ys)%nat ->
  4 * INR (S (length ys)) * b < 10 ^ 20 ->
  exists fs Ls LT xs Vs, make_viterbi_fsc prior Pi Po ys = Some (fs, Ls, LT) /\ viterbi_fsc_par_bwfw infty fs Ls LT = Some (xs, Vs) /\
    viterbi_fsc_seq_bwfw fs Ls LT = Some (xs, Vs) /\ parBwdFwdViterbi prior Pi Po ys = Some (xs, Vs) /\
    MAP n prior Pi Po ys xs /\ log_values n prior Pi Po ys Vs.
Proof. exact C78_par. Qed.
Print Assumptions C78_parallel_MAP.

Theorem C78_forward_backward_unique_MAP :
  forall b n ny prior Pi Po ys xs, model_ok (log_bounded b) n ny prior Pi Po -> symbols ny ys -> (2 <= length ys)%nat ->
  4 * INR (S (length ys)) * b < 10 ^ 20 -> unique_MAP n prior Pi Po ys xs ->
  exists fs Ls LT Vs, make_viterbi_fsc prior Pi Po ys = Some (fs, Ls, LT) /\ viterbi_fsc_par_bwfwbw infty fs Ls LT = Some (xs, Vs) /\
    log_values n prior Pi Po ys Vs.
Proof. exact C78_fb. Qed.
Print Assumptions C78_forward_backward_unique_MAP.

Example C78_model_holds : model_ok (log_bounded 7) 2 2 ex_prior ex_Pi ex_Po.
Proof. exact ex_model. Qed.
Example C78_horizon_holds : symbols 2 ex_ys /\ ex_ys <> [] /\ (2 <= length ex_ys)%nat /\ 4 * INR (S (length ex_ys)) * 7 < 10 ^ 20.
Proof. exact ex_horizon. Qed.
Example C78_unique_holds : unique_MAP 2 ex_prior ex_Pi ex_Po ex_ys [0; 0; 1; 1]%nat.
Proof. exact ex_unique. Qed.
