(** Examples for the theorems about the TensorFlow finite-state control passes. *)
From Coq Require Import List Arith Lia ZArith.
From Verif Require Import ScanModel Ord FscModel FscSpec FscTfModel FscTfSpec.
Import ListNotations.

Definition tfP : fsc Zcost :=
  @FSC Zcost [[[1; 2]; [0; 1]; [2; 0]]; [[1; 1]; [0; 2]; [2; 1]]; [[0; 1]; [1; 2]; [1; 0]]]
    [[[1; 0]; [3; 4]; [2; 1]]; [[5; 2]; [3; -1]; [0; 2]]; [[1; 1]; [7; -2]; [0; 4]]]%Z [5; 0; 1]%Z.
Lemma tfP_ok : valid 3 2 tfP /\ ff tfP <> [] /\ costs_at_most (K := Zcost) (10 ^ 20)%Z tfP /\ scan_fits (length (ff tfP)) 3 /\
  costs_between (K := Zcost) (-2)%Z 7%Z tfP /\ cleb (o := Zcost) (-2)%Z (czero (o := Zcost)) = true /\ cleb (o := Zcost) (czero (o := Zcost)) 7%Z = true /\
  cleb (o := Zcost) (nmul (K := Zcost) 4 7%Z) (cadd (o := Zcost) (10 ^ 20)%Z (nmul (K := Zcost) 3 (-2)%Z)) = true.
Proof.
  split; [constructor; simpl; try lia; repeat constructor|]. split; [discriminate|].
  split; [unfold costs_at_most; simpl; repeat constructor|]. split; [unfold scan_fits; cbn; lia|].
  split; [split; simpl; repeat constructor|]. repeat split.
Qed.
Lemma tfP_run : exists us Vs mu mx,
  fsc_par_backwardpass (K := Zcost) (10 ^ 20)%Z (ff tfP) (fL tfP) (fLT tfP) 3 = Some (us, Vs) /\
  parBackwardPass (K := Zcost) (10 ^ 20)%Z tfP = Some (us, Vs) /\ feedback_law 3 2 3 us /\ value_vectors (K := Zcost) 3 3 Vs /\
  fsc_par_fwdbwdpass (K := Zcost) (10 ^ 20)%Z 0 (ff tfP) (fL tfP) us Vs 3 = Some (mu, mx) /\
  fsc_par_forwardpass 0 (ff tfP) us 3 = Some (mu, mx) /\ mx = [0; 1; 2; 1].
Proof.
  do 4 eexists. split; [vm_compute; reflexivity|]. split; [vm_compute; reflexivity|]. split; [split; [reflexivity|repeat constructor]|].
  split; [split; [reflexivity|repeat constructor]|]. split; [vm_compute; reflexivity|]. split; vm_compute; reflexivity.
Qed.
(** eight elements are too many for max_parallel = 3 *)
Lemma tfP_long : 2 ^ (Nat.log2_up 3 + 1) <= S (length (repeat (nth 0 (ff tfP) []) 7)).
Proof. cbn. lia. Qed.
