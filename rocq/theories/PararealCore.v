(** The parareal iteration over an abelian group: after i iterations the first i + 1 boundary values from the starting end
    are those of the fine solution. *)
From mathcomp Require Import all_ssreflect all_algebra.
From Verif Require Import ScanModel MxBase LqtModel PararealModel.
Import GRing.Theory.
Set Implicit Arguments. Unset Strict Implicit. Unset Printing Implicit Defensive.
Local Open Scope ring_scope.

Lemma add_sub_same (V : zmodType) (a b : V) : a + b - a = b.
Proof. by rewrite addrC addKr. Qed.

Section Bw.
Variable V : zmodType.
Variables (fo go : nat -> V -> option V) (f g : nat -> V -> V).
Hypothesis foE : forall k x, fo k x = Some (f k x).
Hypothesis goE : forall k x, go k x = Some (g k x).
Fixpoint dbw (k : nat) (cs : seq V) : seq V :=
  match cs with [::] => [::] | c :: cs' => match cs' with [::] => [:: c] | c' :: _ => f k c' :: dbw k.+1 cs' end end.
Lemma dense_bwE k cs : cs <> [::] -> dense_bw fo k cs = Some (dbw k cs).
Proof.
  elim: cs k => // c cs IH k _; case: cs IH => [//|c' cs] IH.
  by rewrite -[dense_bw _ _ _]/(let? f := fo k c' in let? fs := dense_bw fo k.+1 (c' :: cs) in Some (f :: fs)) foE (IH k.+1).
Qed.
Lemma size_dbw k cs : size (dbw k cs) = size cs.
Proof. by elim: cs k => // c [|c' cs] IH k //; rewrite -[RHS]/((size (c' :: cs)).+1) -(IH k.+1). Qed.
(** the coarse values are those of the current boundary values *)
Fixpoint inv_bw (k : nat) (cs gs : seq V) : Prop :=
  match cs, gs with
  | c :: cs', g0 :: gs' => match cs' with [::] => gs' = [::] | c' :: _ => g0 = g k c' /\ inv_bw k.+1 cs' gs' end
  | _, _ => False
  end.
Variable E : nat -> V.
Fixpoint ex_bw (b k : nat) (cs : seq V) : Prop :=
  match cs with [::] => True | c :: cs' => (cs' = [::] \/ (b <= k)%N -> c = E k) /\ ex_bw b k.+1 cs' end.
Lemma ex_bw_head b k c cs : ex_bw b k (c :: cs) -> (b <= k)%N -> c = E k.
Proof. by move=> [H _] bk; apply: H; right. Qed.
Variable N : nat.
Hypothesis Efine : forall k, (k < N)%N -> E k = f k (E k.+1).
Lemma iter_bw b k cs gs : (k + size cs = N.+1)%N -> inv_bw k cs gs -> ex_bw b.+1 k cs ->
  exists cs' gs', [/\ coarse_bw go k (dbw k cs) gs = Some (cs', gs'), inv_bw k cs' gs', size cs' = size cs & ex_bw b k cs'].
Proof.
  elim: cs k gs => [|c cs IH] k [|g0 gs] //.
  case: cs IH => [|c1 cs] IH sk.
    move=> E0 [H _]; exists [:: c], [:: c]; split=> //; split=> // -[_|bk]; first by apply: H; left.
    by apply: H; left.
  move=> [Eg Hi] [H0 He].
  have sk1 : (k.+1 + size (c1 :: cs) = N.+1)%N by rewrite -sk addSnnS.
  have [cs2 [gs2 [Ec Hi2 s2 He2]]] := IH k.+1 gs sk1 Hi He.
  case: cs2 Ec Hi2 s2 He2 => [|x cs2] Ec Hi2 s2 He2 //.
  exists (g k x + f k c1 - g0 :: x :: cs2), (g k x :: gs2).
  have -> : dbw k [:: c, c1 & cs] = f k c1 :: dbw k.+1 (c1 :: cs) by [].
  have -> : coarse_bw go k (f k c1 :: dbw k.+1 (c1 :: cs)) (g0 :: gs) = Some (g k x + f k c1 - g0 :: x :: cs2, g k x :: gs2).
    have : size (dbw k.+1 (c1 :: cs)) = (size cs).+1 by rewrite size_dbw.
    move: Ec; case: (dbw k.+1 (c1 :: cs)) => [//|y ys] Ec _.
    rewrite -[coarse_bw _ _ _ _]/(let? '(cs, gs) := coarse_bw go k.+1 (y :: ys) gs in
              if cs is x :: _ then let? z := go k x in Some (z + f k c1 - g0 :: cs, z :: gs) else None).
    by rewrite Ec /= goE.
  split=> //; first by rewrite -[LHS]/((size (x :: cs2)).+1) s2.
  split=> // -[//|bk].
  have kN : (k < N)%N by rewrite -ltnS -sk /= !addnS !ltnS leq_addr.
  have Ex : x = E k.+1 by apply: ex_bw_head He2 _; apply: leqW.
  have Ec1 : c1 = E k.+1 by apply: ex_bw_head He _.
  by rewrite Ex Eg Ec1 add_sub_same -Efine.
Qed.
End Bw.

Section Fw.
Variable V : zmodType.
Variables (fo go : nat -> V -> option V) (f g : nat -> V -> V) (N : nat).
Hypothesis foE : forall k x, (k < N)%N -> fo k x = Some (f k x).
Hypothesis goE : forall k x, (k < N)%N -> go k x = Some (g k x).
Fixpoint dfw (k : nat) (x : V) (cs : seq V) : seq V :=
  match cs with [::] => [::] | c :: cs' => f k x :: dfw k.+1 c cs' end.
Lemma dense_fwE k x cs : (k + size cs = N)%N -> dense_fw fo k (x :: cs) = Some (dfw k x cs).
Proof.
  elim: cs k x => // c cs IH k x sk; 
  rewrite -[dense_fw _ _ _]/(let? f := fo k x in let? fs := dense_fw fo k.+1 (c :: cs) in Some (f :: fs)) foE; last by rewrite -sk /= addnS ltnS leq_addr.
  by rewrite (IH k.+1) // -sk /= addSnnS.
Qed.
Lemma size_dfw k x cs : size (dfw k x cs) = size cs.
Proof. by elim: cs k x => //= c cs IH k x; rewrite IH. Qed.
Fixpoint inv_fw (k : nat) (x : V) (cs gs : seq V) : Prop :=
  match cs, gs with
  | [::], [::] => True
  | c :: cs', g0 :: gs' => g0 = g k x /\ inv_fw k.+1 c cs' gs'
  | _, _ => False
  end.
Variable E : nat -> V.
Fixpoint ex_fw (b k : nat) (cs : seq V) : Prop :=
  match cs with [::] => True | c :: cs' => ((k <= b)%N -> c = E k) /\ ex_fw b k.+1 cs' end.
Hypothesis Efine : forall k, (k < N)%N -> E k.+1 = f k (E k).
Lemma iter_fw b k x x' cs gs : (k + size cs = N)%N -> inv_fw k x cs gs -> ex_fw b k (x :: cs) -> ((k <= b.+1)%N -> x' = E k) ->
  exists cs' gs', [/\ coarse_fw go k x' (dfw k x cs) gs = Some (cs', gs'), inv_fw k x' cs' gs', size cs' = size cs & ex_fw b.+1 k.+1 cs'].
Proof.
  elim: cs k x x' gs => [|c cs IH] k x x' [|g0 gs] // sk; first by exists [::], [::].
  move=> [Eg Hi] [H0 He] H1.
  have kN : (k < N)%N by rewrite -sk /= addnS ltnS leq_addr.
  have sk1 : (k.+1 + size cs = N)%N by rewrite -sk /= addSnnS.
  have Hx : (k.+1 <= b.+1)%N -> g k x' + f k x - g0 = E k.+1.
    by move=> kb; rewrite Eg (H1 (leqW kb)) H0 // add_sub_same Efine.
  have [cs2 [gs2 [Ec Hi2 s2 He2]]] := IH k.+1 c (g k x' + f k x - g0) gs sk1 Hi He (fun h => Hx h).
  exists (g k x' + f k x - g0 :: cs2), (g k x' :: gs2); split.
  - by rewrite [LHS]/= goE //= Ec.
  - by split.
  - by rewrite /= s2.
  - by split.
Qed.
End Fw.

Section Iter.
Variables (X : Type) (f : X -> option X) (I : nat -> X -> Prop).
Lemma iter_o_inv i j s : (forall k s, I k s -> exists s', f s = Some s' /\ I k.+1 s') -> I j s ->
  exists s', iter_o i f s = Some s' /\ I (j + i)%N s'.
Proof.
  move=> H; elim: i j s => [|i IH] j s Is; first by exists s; rewrite addn0.
  by have [s1 [Es I1]] := H _ _ Is; have [s2 [E2 I2]] := IH _ _ I1; exists s2; rewrite /= Es /= E2 -addSnnS.
Qed.
End Iter.
