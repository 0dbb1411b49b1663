(** A concrete case for the segment invariant of the scan: joining intervals, which raises unless they are adjacent. *)
From Coq Require Import List Arith Lia.
From Verif Require Import ScanModel ScanSeg.
Import ListNotations.

Definition join (x y : nat * nat) : option (nat * nat) := if snd x =? fst y then Some (fst x, snd y) else None.
Lemma join_scan : my_assoc_scan join [(0, 1); (1, 2); (2, 3); (3, 4); (4, 5)] true = Some [(0, 5); (1, 5); (2, 5); (3, 5); (4, 5)].
Proof. reflexivity. Qed.
Lemma join_hyp : let a := [(0, 1); (1, 2); (2, 3); (3, 4); (4, 5)] in let Inv i j x := x = (i, j) in
  a <> [] /\ (forall i j k x y, i < j -> j < k -> k <= length a -> Inv i j x -> Inv j k y -> exists z, join x y = Some z /\ Inv i k z) /\
  (forall i x, nth_error a i = Some x -> Inv i (S i) x) /\ join (2, 3) (0, 1) = None.
Proof.
  cbn zeta. split; [discriminate|]. split; [|split; [|reflexivity]].
  - intros i j k x y _ _ _ -> ->. exists (i, k). unfold join. cbn. rewrite Nat.eqb_refl. auto.
  - intros i x. do 5 (destruct i as [|i]; [intros [= <-]; reflexivity|]). destruct i; discriminate.
Qed.
