(** Lemmas on the model of the grid solvers: combinations. *)
From Coq Require Import PeanoNat.
From mathcomp Require Import all_ssreflect all_algebra.
From Verif Require Import ScanModel ScanSpec Ord FscModel FscCore FscProofs FscProofs2 TfScan MxBase LqtModel ClqtModel ClqtTfModel PararealModel HjbModel HjbSpec.
Import Order.TTheory GRing.Theory Num.Theory.
Set Implicit Arguments. Unset Strict Implicit. Unset Printing Implicit Defensive.
Local Open Scope ring_scope.

Lemma vec_mkseq {X} n (g : nat -> X) : vec n g = mkseq g n.
Proof. by []. Qed.
Lemma len_size {X} (l : seq X) : length l = size l. Proof. by []. Qed.
Lemma nth_error_mkseq {X} n (g : nat -> X) i : (i < n)%N -> List.nth_error (mkseq g n) i = Some (g i).
Proof. by move=> /ssrnat.ltP h; rewrite -vec_mkseq (vec_nth _ _ _ h). Qed.

Lemma obindS' {X Y} (f : X -> option Y) x : obind f (Some x) = f x. Proof. by []. Qed.

Section Arr.
Variables (X : Type) (d : X) (n : nat).
Definition mx (g : nat -> nat -> X) : seq (seq X) := mkseq (fun i => mkseq (g i) n) n.
Lemma mx_tab g : mx g = tab n n g. Proof. by []. Qed.
Lemma square_mx (A : seq (seq X)) : square n A -> A = mx (fun i j => nth d (nth [::] A i) j).
Proof.
case=> sA sr; apply: (@eq_from_nth _ [::]); first by rewrite size_mkseq.
move=> i iA; rewrite nth_mkseq -?sA //.
have /eqP sri : size (nth [::] A i) == n by move/(all_nthP [::]): sr; apply.
apply: (@eq_from_nth _ d) => [|j jr]; first by rewrite size_mkseq sri sA.
by rewrite nth_mkseq // sA -sri.
Qed.
Lemma mx_square g : square n (mx g).
Proof. by split; [rewrite size_mkseq | rewrite all_map; apply/allP => i _ /=; rewrite size_mkseq]. Qed.
Lemma nth_mx g i j : (i < n)%N -> (j < n)%N -> nth d (nth [::] (mx g) i) j = g i j.
Proof. by move=> h1 h2; rewrite !nth_mkseq. Qed.
Lemma mx_ext g h : (forall i j, (i < n)%N -> (j < n)%N -> g i j = h i j) -> mx g = mx h.
Proof. by move=> E; rewrite !mx_tab; apply: tab_ext => i j /ssrnat.ltP h1 /ssrnat.ltP h2; apply: E. Qed.
Hypothesis n0 : (0 < n)%N.
Lemma ncols_square (A : seq (seq X)) : square n A -> ncols A = n.
Proof. by move=> sA; rewrite (square_mx sA) mx_tab ncols_tab //; apply/ssrnat.ltP. Qed.
Lemma column_square (A : seq (seq X)) k : square n A -> (k < n)%N -> column A k = Some (mkseq (fun i => nth d (nth [::] A i) k) n).
Proof. by move=> sA kN; rewrite {1}(square_mx sA) mx_tab column_tab //; apply/ssrnat.ltP. Qed.
End Arr.
Lemma mapM_none {X Y} (g : X -> option Y) l x : List.In x l -> g x = None -> mapM g l = None.
Proof. by elim: l => //= y l IH [->|h] E; [rewrite E | case: (g y) => // z; rewrite IH]. Qed.
Lemma in_mkseq {X} m (g : nat -> X) i : (i < m)%N -> List.In (g i) (mkseq g m).
Proof. by move=> h; rewrite -vec_mkseq; apply/vec_in; exists i; split => //; apply/ssrnat.ltP. Qed.

Section Comb.
Variable R : realFieldType.
Local Notation K := (Fcost R).
Variable n : nat.
Hypothesis n0 : (0 < n)%N.
Implicit Types A B C : seq (seq R).

(** C50 *)
Lemma hjb_combine_l A B : square n A -> square n B -> exists C, [/\ hjb_combine_V A B = Some C, square n C &
  forall i k, (i < n)%N -> (k < n)%N -> least n (via A B i k) (at2 C i k)].
Proof.
move=> sA sB; have n0' : (0 < n)%coq_nat by apply/ssrnat.ltP.
exists (mx n (mp (K:=K) n (at2 A) (at2 B))); split.
- by rewrite /hjb_combine_V {1}(square_mx 0 sA) {1}(square_mx 0 sB) !mx_tab combine_V_tab.
- exact: mx_square.
move=> i k iN kN; rewrite /at2 nth_mx // /mp; split.
  by have [j [/ssrnat.ltP jn E]] := minv_att K n (fun j => at2 A i j + at2 B j k) n0'; exists j => //; rewrite E.
by move=> j jn; apply: (minv_le K n (fun j => at2 A i j + at2 B j k) j); apply/ssrnat.ltP.
Qed.
Lemma hjb_combine_assoc_l A B C AB BC : square n A -> square n B -> square n C ->
  hjb_combine_V A B = Some AB -> hjb_combine_V B C = Some BC -> hjb_combine_V AB C = hjb_combine_V A BC.
Proof.
move=> sA sB sC h1 h2; apply: (@combine_V_assoc K n _ A B C AB BC) => //; first by apply/ssrnat.ltP.
- by exists (at2 A); exact: (square_mx 0).
- by exists (at2 B); exact: (square_mx 0).
- by exists (at2 C); exact: (square_mx 0).
Qed.
Lemma hjb_combine2_l A B : hjb_combine_V2 A B = hjb_combine_V A B.
Proof.
rewrite /hjb_combine_V2 /hjb_combine_V /entries /combine_V.
apply: mapM_ext => row _; apply: mapM_ext => k _; rewrite /vsum.
case: (column B k) => //= c; case: (@vadd K row c) => //= s.
case E : (@argmin K s) => [j|] /=; last by case: s E => //= x s; have [//|i ->] := argmin_some K (x :: s).
by have [v [-> ->]] := argmin_vmin K s j E.
Qed.

(** C51 *)
Lemma first_min_uniq (g : nat -> R) i j : first_min n g i -> first_min n g j -> i = j :> nat.
Proof.
move=> [iN Hi] [jN Hj]; case: (ltngtP i j) => // h.
  by have [_ /(_ h)] := Hj _ iN; rewrite ltNge (Hi _ jN).1.
by have [_ /(_ h)] := Hi _ jN; rewrite ltNge (Hj _ iN).1.
Qed.
Lemma first_min_argmin (g : nat -> R) : exists2 j, @argmin K (mkseq g n) = Some j & first_min n g j.
Proof.
have n0' : (0 < n)%coq_nat by apply/ssrnat.ltP.
exists (amin (K:=K) n g); first by rewrite -vec_mkseq (@argmin_vec K).
split; first by apply/ssrnat.ltP; exact: amin_lt.
move=> i iN; split; first by rewrite (amin_min K n g n0'); apply: (minv_le K n g i); apply/ssrnat.ltP.
by move=> /ssrnat.ltP h; move: (amin_first K n g i h n0'); rewrite /cltb /= -ltNge.
Qed.
Lemma interpE (g : nat -> R) j : (1 < n)%N -> first_min n g j ->
  interp n.-1 (mkseq g n) =
  Some (if second_difference n g j == 0 then None
   else Some (g j - (g (right_of n j) - g (left_of j)) ^+ 2 / second_difference n g j / 8%:R)).
Proof.
move=> n1 Hj; have [j' Ej Hj'] := first_min_argmin g; have {j' Hj'} Ej : @argmin K (mkseq g n) = Some j by rewrite Ej (first_min_uniq Hj' Hj).
have jN : (j < n)%N by case: Hj.
rewrite /interp Ej obindS' (nth_error_mkseq g jN) obindS'.
have -> : jm1 j = left_of j by [].
have lN : (left_of j < n)%N by case: (j) jN => //= i; exact: ltnW.
rewrite (nth_error_mkseq _ lN) obindS'.
have -> : jp1 n.-1 j = Some (right_of n j).
  rewrite /jp1 /right_of -ltn_predRL; case: ifP => // /negbT; rewrite -leqNgt => h.
  have ej : j = n.-1 by apply/eqP; rewrite eqn_leq h andbT -ltnS prednK.
  rewrite ej -[X in (X < _)%N]addn0 ltn_add2l -ltnS prednK // n1; congr Some.
  by case: (n) n1 => [|[|q]] // _; rewrite -[q.+2.-1]/(q.+1) addSnnS addnK subn2.
have rN : (right_of n j < n)%N by rewrite /right_of; case: ifP => // _; case: (n) n1 => [|[|q]] //= _; rewrite subSS ltnS leq_subr.
rewrite obindS' (nth_error_mkseq _ rN) obindS' /=.
have -> : g (right_of n j) + g (left_of j) - 2%:R * g j + 0 = second_difference n g j.
  by rewrite addr0 /second_difference mulr_natl mulr2n opprD addrA [g (right_of n j) + _]addrC.
by [].
Qed.
End Comb.
