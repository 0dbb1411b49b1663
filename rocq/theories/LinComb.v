(** A normaliser for linear combinations: an equation between linear combinations of arbitrary terms is reduced to
    one scalar equation per term. *)
From Coq Require Import Ring Field.
From mathcomp Require Import all_ssreflect all_algebra.
From Verif Require Import MxBase LqtCore.
Import Order.TTheory GRing.Theory Num.Theory.
Set Implicit Arguments. Unset Strict Implicit. Unset Printing Implicit Defensive.
Local Open Scope ring_scope.

Section LinComb.
Variable R : realFieldType.
Variable V : lmodType R.
Inductive lexpr := LAtom of nat | LZero | LAdd of lexpr & lexpr | LOpp of lexpr | LScale of R & lexpr | LMuln of lexpr & nat.
Variable atoms : seq V.
Fixpoint lden (e : lexpr) : V :=
  match e with
  | LAtom i => nth 0 atoms i | LZero => 0 | LAdd a b => lden a + lden b | LOpp a => - lden a
  | LScale k a => k *: lden a | LMuln a k => lden a *+ k end.
Fixpoint lcoef (i : nat) (e : lexpr) : R :=
  match e with
  | LAtom j => if Nat.eqb i j then 1 else 0 | LZero => 0 | LAdd a b => lcoef i a + lcoef i b | LOpp a => - lcoef i a
  | LScale k a => k * lcoef i a | LMuln a k => lcoef i a *+ k end.
Lemma ldenE e : lden e = \sum_(i < size atoms) lcoef i e *: nth 0 atoms i.
Proof.
elim: e => [j||a IHa b IHb|a IHa|k a IHa|a IHa k] /=.
- case: (ltnP j (size atoms)) => lt.
    rewrite (bigD1 (Ordinal lt)) //= PeanoNat.Nat.eqb_refl scale1r big1 ?addr0 // => i ne.
    have -> : Nat.eqb i j = false by apply/PeanoNat.Nat.eqb_neq => e; case/eqP: ne; apply: val_inj.
    exact: scale0r.
  rewrite nth_default // big1 // => i _.
  have -> : Nat.eqb i j = false by apply/PeanoNat.Nat.eqb_neq => e; move: (ltn_ord i); rewrite e ltnNge lt.
  exact: scale0r.
- by rewrite big1 // => i _; exact: scale0r.
- by rewrite IHa IHb -big_split; apply: eq_bigr => i _ /=; rewrite scalerDl.
- by rewrite IHa -sumrN; apply: eq_bigr => i _; rewrite scaleNr.
- by rewrite IHa scaler_sumr; apply: eq_bigr => i _; rewrite scalerA.
- by rewrite IHa -sumrMnl; apply: eq_bigr => i _; rewrite scalerMnl.
Qed.
Fixpoint lall (k : nat) (P : nat -> Prop) : Prop := match k with 0%N => True | k'.+1 => P k' /\ lall k' P end.
Lemma lallP k P : lall k P -> forall i, (i < k)%N -> P i.
Proof. by elim: k => //= k IH [p /IH H] i; rewrite ltnS leq_eqVlt => /orP [/eqP ->|/H]. Qed.
Lemma lcheck e e' : lall (size atoms) (fun i => lcoef i e = lcoef i e') -> lden e = lden e'.
Proof. by move=> /lallP H; rewrite !ldenE; apply: eq_bigr => i _; rewrite H. Qed.
End LinComb.

Ltac lc_atoms e l :=
  lazymatch e with
  | (?a + ?b)%R => let l := lc_atoms a l in lc_atoms b l
  | (- ?a)%R => lc_atoms a l
  | 0%R => l
  | (_ *: ?a)%R => lc_atoms a l
  | (?a *+ 2)%R => lc_atoms a l
  | _ => ab_add e l
  end.
Ltac lc_reify R e l :=
  lazymatch e with
  | (?a + ?b)%R => let x := lc_reify R a l in let y := lc_reify R b l in constr:(LAdd x y)
  | (- ?a)%R => let x := lc_reify R a l in constr:(LOpp x)
  | 0%R => constr:(LZero R)
  | (?k *: ?a)%R => let x := lc_reify R a l in constr:(@LScale R k x)
  | (?a *+ 2)%R => let x := lc_reify R a l in constr:(LMuln x 2)
  | _ => let n := ab_pos e l in constr:(LAtom R n)
  end.
(** [lmod0]: in any module; [lmod]: for matrices, after making the algebraic structures uniform *)
Ltac lmod0 R V :=
  lazymatch goal with
  | |- @eq ?T ?a ?b =>
    let l := lc_atoms a (@nil T) in let l := lc_atoms b l in
    let x := lc_reify R a l in let y := lc_reify R b l in
    apply: (@lcheck R V l x y); cbn [lall lcoef size Nat.eqb]; repeat (split; [|]); try exact: I
  end.
Ltac lmod := let R := find_R in canon R;
  lazymatch goal with |- @eq (matrix _ ?a ?b) _ _ => lmod0 R (matrix_lmodType (Num.RealField.ringType R) a b) end.
