(** Matrices over a real field: an abelian-group normaliser, solving linear systems the way the
    NumPy/SciPy routines do, definiteness, Cholesky pivots. *)
From Coq Require Import Ring Field.
From mathcomp Require Import all_ssreflect all_algebra.
Import Order.TTheory GRing.Theory Num.Theory.
Set Implicit Arguments. Unset Strict Implicit. Unset Printing Implicit Defensive.
Local Open Scope ring_scope.

(** * Abelian-group normaliser *)
Inductive aexpr := AAtom of nat | AZero | AAdd of aexpr & aexpr | AOpp of aexpr | AMuln of aexpr & nat.
Section Abel.
Variable V : zmodType.
Variable atoms : seq V.
Fixpoint aden (e : aexpr) : V :=
  match e with
  | AAtom i => nth 0 atoms i | AZero => 0 | AAdd a b => aden a + aden b | AOpp a => - aden a
  | AMuln a k => aden a *+ k end.
Fixpoint anf (e : aexpr) : seq nat * seq nat :=
  match e with
  | AAtom i => ([:: i], [::]) | AZero => ([::], [::])
  | AAdd a b => let (p, q) := anf a in let (p', q') := anf b in (p ++ p', q ++ q')
  | AOpp a => let (p, q) := anf a in (q, p)
  | AMuln a k => let (p, q) := anf a in (flatten (nseq k p), flatten (nseq k q))
  end.
Definition asum (l : seq nat) : V := \sum_(i <- l) nth 0 atoms i.
Lemma asum_flat k l : asum (flatten (nseq k l)) = asum l *+ k.
Proof. by elim: k => [|k IH] /=; rewrite ?mulr0n /asum ?big_nil // big_cat -/(asum _) -/(asum _) IH mulrS. Qed.
Lemma anfE e : aden e = asum (anf e).1 - asum (anf e).2.
Proof.
elim: e => [i||a IHa b IHb|a IHa|a IHa k] /=.
- by rewrite /asum big_seq1 big_nil subr0.
- by rewrite /asum !big_nil subr0.
- rewrite IHa IHb; case: (anf a) => p q; case: (anf b) => p' q' /=.
  by rewrite /asum !big_cat /= opprD addrACA.
- by rewrite IHa; case: (anf a) => p q /=; rewrite opprB.
- by rewrite IHa; case: (anf a) => p q /=; rewrite !asum_flat mulrnBl.
Qed.
Definition acheck e e' : bool :=
  let (p, q) := anf e in let (p', q') := anf e' in perm_eq (p ++ q') (p' ++ q).
Lemma acheckP e e' : acheck e e' -> aden e = aden e'.
Proof.
rewrite !anfE /acheck; case: (anf e) => p q; case: (anf e') => p' q' /= H.
have E : asum (p ++ q') = asum (p' ++ q) by exact: perm_big.
move: E; rewrite /asum !big_cat /= -/(asum _) -/(asum q) -/(asum p) -/(asum q') -/(asum p') => E.
by apply/eqP; rewrite subr_eq addrAC -E addrK.
Qed.
End Abel.

Ltac ab_mem x l := lazymatch l with nil => constr:(false) | cons x _ => constr:(true) | cons _ ?l => ab_mem x l end.
Ltac ab_add x l := let b := ab_mem x l in lazymatch b with true => l | false => constr:(x :: l) end.
Ltac ab_pos x l := lazymatch l with cons x _ => constr:(0%N) | cons _ ?l => let n := ab_pos x l in constr:(n.+1) end.
Ltac ab_atoms e l :=
  lazymatch e with
  | (?a + ?b)%R => let l := ab_atoms a l in ab_atoms b l
  | (- ?a)%R => ab_atoms a l
  | 0%R => l
  | (?a *+ 2)%R => ab_atoms a l
  | (?a *+ 3)%R => ab_atoms a l
  | (?a *+ 4)%R => ab_atoms a l
  | _ => ab_add e l
  end.
Ltac ab_reify e l :=
  lazymatch e with
  | (?a + ?b)%R => let x := ab_reify a l in let y := ab_reify b l in constr:(AAdd x y)
  | (- ?a)%R => let x := ab_reify a l in constr:(AOpp x)
  | 0%R => constr:(AZero)
  | (?a *+ 2)%R => let x := ab_reify a l in constr:(AMuln x 2)
  | (?a *+ 3)%R => let x := ab_reify a l in constr:(AMuln x 3)
  | (?a *+ 4)%R => let x := ab_reify a l in constr:(AMuln x 4)
  | _ => let n := ab_pos e l in constr:(AAtom n)
  end.
(** * Scalars: bridge to the standard library's ring and field *)
Section ScalarOps.
Variable R : realFieldType.
Definition radd (a b : R) : R := a + b.
Definition rmul (a b : R) : R := a * b.
Definition ropp (a : R) : R := - a.
Definition rsub (a b : R) : R := a - b.
Definition rinv (a : R) : R := a^-1.
Definition rdiv (a b : R) : R := a / b.
Definition r0 : R := 0.
Definition r1 : R := 1.
Lemma mc_ring : ring_theory r0 r1 radd rmul rsub ropp (@eq R).
Proof.
constructor; rewrite /r0 /r1 /radd /rmul /rsub /ropp.
- exact: add0r. - exact: addrC. - exact: addrA. - exact: mul1r. - exact: mulrC. - exact: mulrA.
- exact: mulrDl. - by []. - exact: subrr.
Qed.
Lemma mc_field : field_theory r0 r1 radd rmul rsub ropp rdiv rinv (@eq R).
Proof.
constructor; first exact: mc_ring.
- by apply/eqP; rewrite oner_neq0.
- by [].
- by move=> p /eqP p0; rewrite /rmul /rinv mulVf.
Qed.
End ScalarOps.
Ltac rs_norm R e :=
  lazymatch e with
  | (?a + - ?b)%R => let x := rs_norm R a in let y := rs_norm R b in constr:(@rsub R x y)
  | (?a + ?b)%R => let x := rs_norm R a in let y := rs_norm R b in constr:(@radd R x y)
  | (- ?a)%R => let x := rs_norm R a in constr:(@ropp R x)
  | (?a * (?b)^-1)%R => let x := rs_norm R a in let y := rs_norm R b in constr:(@rdiv R x y)
  | (?a * ?b)%R => let x := rs_norm R a in let y := rs_norm R b in constr:(@rmul R x y)
  | ((?a)^-1)%R => let x := rs_norm R a in constr:(@rinv R x)
  | 0%R => constr:(@r0 R)
  | 1%R => constr:(@r1 R)
  | (?a *+ 2)%R => let x := rs_norm R a in constr:(@radd R x x)
  | (?a *+ 3)%R => let x := rs_norm R a in constr:(@radd R x (@radd R x x))
  | (?a *+ 4)%R => let x := rs_norm R a in constr:(@radd R x (@radd R x (@radd R x x)))
  | (?a *+ 6)%R => let x := rs_norm R a in constr:(@radd R x (@radd R x (@radd R x (@radd R x (@radd R x x)))))
  | (?a ^+ 2)%R => let x := rs_norm R a in constr:(@rmul R x x)
  | (?a ^+ 3)%R => let x := rs_norm R a in constr:(@rmul R x (@rmul R x x))
  | (?a ^+ 4)%R => let x := rs_norm R a in constr:(@rmul R x (@rmul R x (@rmul R x x)))
  | _ => e
  end.
(** put a scalar equation into the form the [ring] declarations know *)
Ltac rsn0 R := lazymatch goal with |- @eq _ ?a ?b =>
  let x := rs_norm R a in let y := rs_norm R b in change (@eq (Num.RealField.sort R) x y) end.

Lemma lincomb (V : zmodType) (a b x y : V) : a = b -> x - y = a - b -> x = y.
Proof. by move=> -> /eqP; rewrite subrr subr_eq0 => /eqP. Qed.


(** * Linear systems *)
Section Solve.
Variable R : realFieldType.

(** numpy.linalg.solve / scipy.linalg.solve / lu_factor+lu_solve: the unique solution, or an error when the
    matrix is singular.  (lu_factor only warns and lu_solve then returns NaN or inf; also an error here.) *)
Definition solve n p (A : 'M[R]_n) (B : 'M[R]_(n, p)) : option 'M[R]_(n, p) :=
  if A \in unitmx then Some (invmx A *m B) else None.

Lemma solveP n p (A : 'M[R]_n) (B X : 'M_(n, p)) :
  solve A B = Some X <-> (A \in unitmx) /\ A *m X = B.
Proof.
rewrite /solve; case: ifP => uA; split => //.
- by case=> <-; rewrite mulKVmx.
- by case=> _ <-; rewrite mulKmx.
- by case.
Qed.

Lemma solve_unit n p (A : 'M[R]_n) (B : 'M_(n, p)) : A \in unitmx -> solve A B = Some (invmx A *m B).
Proof. by rewrite /solve => ->. Qed.

Lemma unit_inj n p (A : 'M[R]_n) (X Y : 'M_(n, p)) : A \in unitmx -> A *m X = A *m Y -> X = Y.
Proof. by move=> uA /(congr1 (mulmx (invmx A))); rewrite !mulKmx. Qed.

(** a square matrix without kernel is invertible *)
Lemma unit_ker n (A : 'M[R]_n) : (forall x : 'cV_n, A *m x = 0 -> x = 0) -> A \in unitmx.
Proof.
move=> H; rewrite unitmxE unitfE -det_tr; apply/det0P => -[v v0 /(congr1 trmx)].
rewrite trmx_mul trmxK trmx0 => /H /eqP; rewrite trmx_eq0; exact/negP.
Qed.

(** ** quadratic forms *)
Definition sc (A : 'M[R]_1) : R := A 0 0.
Definition qf n (A : 'M[R]_n) (x : 'cV[R]_n) : R := sc (x^T *m A *m x).
Definition dot n (x y : 'cV[R]_n) : R := sc (x^T *m y).
Definition symm n (A : 'M[R]_n) : Prop := A^T = A.
Definition psd n (A : 'M[R]_n) : Prop := forall x, 0 <= qf A x.
Definition pd n (A : 'M[R]_n) : Prop := forall x, x != 0 -> 0 < qf A x.

Lemma scD (A B : 'M_1) : sc (A + B) = sc A + sc B. Proof. by rewrite /sc mxE. Qed.
Lemma scN (A : 'M_1) : sc (- A) = - sc A. Proof. by rewrite /sc mxE. Qed.
Lemma scZ a (A : 'M_1) : sc (a *: A) = a * sc A. Proof. by rewrite /sc mxE. Qed.
Lemma sc0 : sc 0 = 0. Proof. by rewrite /sc mxE. Qed.
Lemma scT (A : 'M_1) : sc A^T = sc A. Proof. by rewrite /sc mxE. Qed.
Lemma scM (A B : 'M_1) : sc (A *m B) = sc A * sc B.
Proof. by rewrite /sc !mxE big_ord1. Qed.
Definition scE := (scD, scN, scZ, sc0).

Lemma dotC n (x y : 'cV_n) : dot x y = dot y x.
Proof. by rewrite /dot -scT trmx_mul trmxK. Qed.
Lemma dotDr n (x y z : 'cV_n) : dot x (y + z) = dot x y + dot x z.
Proof. by rewrite /dot mulmxDr scD. Qed.
Lemma dotDl n (x y z : 'cV_n) : dot (y + z) x = dot y x + dot z x.
Proof. by rewrite dotC dotDr !(dotC x). Qed.
Lemma dotNr n (x y : 'cV_n) : dot x (- y) = - dot x y.
Proof. by rewrite /dot mulmxN scN. Qed.
Lemma dotNl n (x y : 'cV_n) : dot (- x) y = - dot x y.
Proof. by rewrite dotC dotNr dotC. Qed.
Lemma dotBr n (x y z : 'cV_n) : dot x (y - z) = dot x y - dot x z.
Proof. by rewrite dotDr dotNr. Qed.
Lemma dotBl n (x y z : 'cV_n) : dot (y - z) x = dot y x - dot z x.
Proof. by rewrite dotDl dotNl. Qed.
Lemma dotZr n a (x y : 'cV_n) : dot x (a *: y) = a * dot x y.
Proof. by rewrite /dot -scalemxAr scZ. Qed.
Lemma dotZl n a (x y : 'cV_n) : dot (a *: x) y = a * dot x y.
Proof. by rewrite dotC dotZr dotC. Qed.
Lemma dot0r n (x : 'cV_n) : dot x 0 = 0. Proof. by rewrite /dot mulmx0 sc0. Qed.
Lemma dot0l n (x : 'cV_n) : dot 0 x = 0. Proof. by rewrite dotC dot0r. Qed.
(** move a matrix to the other side *)
Lemma dotMr n p (A : 'M_(n, p)) (x : 'cV_n) (y : 'cV_p) : dot x (A *m y) = dot (A^T *m x) y.
Proof. by rewrite /dot trmx_mul trmxK mulmxA. Qed.
Lemma dotMl n p (A : 'M_(n, p)) (x : 'cV_p) (y : 'cV_n) : dot (A *m x) y = dot x (A^T *m y).
Proof. by rewrite dotMr trmxK. Qed.
Lemma qf_dot n (A : 'M_n) x : qf A x = dot x (A *m x).
Proof. by rewrite /qf /dot mulmxA. Qed.
Definition dotE := (dotDr, dotDl, dotNr, dotNl, dotZr, dotZl, dot0r, dot0l).

Lemma dot_ge0 n (x : 'cV_n) : 0 <= dot x x.
Proof. by rewrite /dot /sc mxE; apply: sumr_ge0 => i _; rewrite mxE -expr2 sqr_ge0. Qed.
Lemma dot_eq0 n (x : 'cV_n) : (dot x x == 0) = (x == 0).
Proof.
apply/idP/eqP => [|->]; last by rewrite dot0r.
rewrite /dot /sc mxE psumr_eq0; last by move=> i _; rewrite mxE -expr2 sqr_ge0.
move=> /allP H; apply/matrixP => i j; rewrite ord1 [RHS]mxE.
have := H i (mem_index_enum _); rewrite mxE -expr2 /= sqrf_eq0; exact/eqP.
Qed.
Lemma dot_gt0 n (x : 'cV_n) : x != 0 -> 0 < dot x x.
Proof. by move=> x0; rewrite lt_neqAle eq_sym dot_eq0 x0 dot_ge0. Qed.
(** vectors with equal products against everything are equal *)
Lemma dot_inj n (x y : 'cV_n) : (forall z, dot z x = dot z y) -> x = y.
Proof. by move=> H; apply/eqP; rewrite -subr_eq0 -dot_eq0 dotBr !H subrr. Qed.

Lemma qf0 n (A : 'M_n) : qf A 0 = 0. Proof. by rewrite qf_dot dot0l. Qed.
Lemma qfDl n (A B : 'M_n) x : qf (A + B) x = qf A x + qf B x.
Proof. by rewrite !qf_dot mulmxDl dotDr. Qed.
Lemma qfM n p (A : 'M_n) (B : 'M_(n, p)) x : qf (B^T *m A *m B) x = qf A (B *m x).
Proof. by rewrite !qf_dot dotMl !mulmxA. Qed.
Lemma qfN n (A : 'M_n) x : qf A (- x) = qf A x.
Proof. by rewrite !qf_dot mulmxN dotNl dotNr opprK. Qed.
Lemma qfZ n (A : 'M_n) a x : qf A (a *: x) = a ^+ 2 * qf A x.
Proof. by rewrite !qf_dot -scalemxAr dotZl dotZr mulrA expr2. Qed.
Lemma qf_tr n (A : 'M_n) x : qf A^T x = qf A x.
Proof. by rewrite !qf_dot dotMr trmxK dotC. Qed.
Lemma symm_dot n (A : 'M_n) x y : symm A -> dot x (A *m y) = dot y (A *m x).
Proof. by move=> sA; rewrite dotMr sA dotC. Qed.
(** expansion of a quadratic form around a point *)
Lemma qfD n (A : 'M_n) x y : symm A -> qf A (x + y) = qf A x + dot (A *m x) y *+ 2 + qf A y.
Proof.
move=> sA; rewrite !qf_dot mulmxDr !dotE [dot y (A *m x)]dotC [dot x (A *m y)]dotMr sA.
by rewrite mulr2n !addrA.
Qed.

Lemma psdD n (A B : 'M_n) : psd A -> psd B -> psd (A + B).
Proof. by move=> a b x; rewrite qfDl addr_ge0. Qed.
Lemma psd_cong n p (A : 'M_n) (B : 'M_(n, p)) : psd A -> psd (B^T *m A *m B).
Proof. by move=> a x; rewrite qfM. Qed.
Lemma psd0 n : psd (0 : 'M_n).
Proof. by move=> x; rewrite qf_dot mul0mx dot0r. Qed.
Lemma pd_psd n (A : 'M_n) : pd A -> psd A.
Proof. by move=> pA x; case: (eqVneq x 0) => [->|/pA/ltW //]; rewrite qf0. Qed.
Lemma pd_psdD n (A B : 'M_n) : pd A -> psd B -> pd (A + B).
Proof. by move=> a b x x0; rewrite qfDl ltr_paddr ?a. Qed.
Lemma symm0 n : symm (0 : 'M_n). Proof. exact: trmx0. Qed.
Lemma symm1 n : symm (1%:M : 'M_n). Proof. exact: trmx1. Qed.
Lemma symmD n (A B : 'M_n) : symm A -> symm B -> symm (A + B).
Proof. by rewrite /symm raddfD /= => -> ->. Qed.
Lemma symmB n (A B : 'M_n) : symm A -> symm B -> symm (A - B).
Proof. by rewrite /symm raddfB /= => -> ->. Qed.
Lemma symm_cong n p (A : 'M_n) (B : 'M_(n, p)) : symm A -> symm (B^T *m A *m B).
Proof. by rewrite /symm => sA; rewrite !trmx_mul trmxK sA mulmxA. Qed.
Lemma symm_inv n (A : 'M_n) : symm A -> symm (invmx A).
Proof. by rewrite /symm => sA; rewrite trmx_inv sA. Qed.
Lemma pd1 n : pd (1%:M : 'M_n).
Proof. by move=> x x0; rewrite qf_dot mul1mx dot_gt0. Qed.

Lemma pd_unit n (A : 'M_n) : pd A -> A \in unitmx.
Proof.
move=> pA; apply: unit_ker => x Ax; apply/eqP; apply/negPn/negP => /pA.
by rewrite qf_dot Ax dot0r ltxx.
Qed.
Lemma pd_cong n p (A : 'M_n) (B : 'M_(n, p)) :
  pd A -> (forall x : 'cV_p, B *m x = 0 -> x = 0) -> pd (B^T *m A *m B).
Proof. by move=> pA iB x x0; rewrite qfM pA //; apply: contraNneq x0 => /iB ->. Qed.
Lemma unit_injB n p (B : 'M[R]_n) (x : 'M_(n, p)) : B \in unitmx -> B *m x = 0 -> x = 0.
Proof. by move=> uB e; apply: (unit_inj uB); rewrite e mulmx0. Qed.
Lemma pd_inv n (A : 'M_n) : symm A -> pd A -> pd (invmx A).
Proof.
move=> sA pA; have uA := pd_unit pA.
have -> : invmx A = (invmx A)^T *m A *m invmx A by rewrite trmx_inv sA mulVmx // mul1mx.
by apply: pd_cong => // x; apply: unit_injB; rewrite unitmx_inv.
Qed.

(** a psd form vanishing at x has x in its kernel *)
Lemma psd_ker n (A : 'M_n) x : symm A -> psd A -> qf A x = 0 -> A *m x = 0.
Proof.
move=> sA pA x0; apply/eqP; rewrite -dot_eq0; apply/negPn/negP => ne.
set a := dot _ _ in ne; have a0 : 0 < a by rewrite lt_neqAle eq_sym ne dot_ge0.
set b := qf A (A *m x); have b0 : 0 <= b := pA _.
have := pA (x + (- (a / (b + 1))) *: (A *m x)).
rewrite (qfD _ _ sA) x0 add0r dotZr -/a qfZ -/b.
have b1 : 0 < b + 1 by rewrite ltr_paddl // ltr01.
set t := a / (b + 1); have t0 : 0 < t by rewrite divr_gt0.
rewrite leNgt => /negP; apply.
have tb : t ^+ 2 * b < t * a.
  by rewrite expr2 -mulrA ltr_pmul2l // /t mulrAC ltr_pdivr_mulr // ltr_pmul2l // ltr_addl ltr01.
rewrite sqrrN mulNr mulr2n -addrA; apply: ltr_naddl; first by rewrite oppr_le0 mulr_ge0 // ltW.
by rewrite addrC subr_lt0.
Qed.

(** I + C J is invertible for C, J symmetric positive semidefinite *)
Lemma unit_ICJ n (C J : 'M[R]_n) : symm C -> psd C -> symm J -> psd J -> 1%:M + C *m J \in unitmx.
Proof.
move=> sC pC sJ pJ; apply: unit_ker => x; rewrite mulmxDl mul1mx -mulmxA => /eqP.
rewrite addr_eq0 => /eqP E.
have Jx0 : qf J x = 0.
  apply: le_anti; rewrite pJ andbT qf_dot {1}E dotNl oppr_le0 dotC -qf_dot; exact: pC.
by rewrite E (psd_ker sJ pJ Jx0) mulmx0 oppr0.
Qed.
End Solve.


(** rebuild a term with one fixed choice of the (convertible) algebraic structures *)
Ltac cn_mx R e a b :=   (* e : matrix, dimensions a b *)
  lazymatch e with
  | @GRing.add _ ?x ?y => let x' := cn_mx R x a b in let y' := cn_mx R y a b in
      constr:(@GRing.add (matrix_zmodType (Num.RealField.zmodType R) a b) x' y')
  | @GRing.opp _ ?x => let x' := cn_mx R x a b in constr:(@GRing.opp (matrix_zmodType (Num.RealField.zmodType R) a b) x')
  | @GRing.zero _ => constr:(@GRing.zero (matrix_zmodType (Num.RealField.zmodType R) a b))
  | @GRing.natmul _ ?x ?k => let x' := cn_mx R x a b in
      constr:(@GRing.natmul (matrix_zmodType (Num.RealField.zmodType R) a b) x' k)
  | @GRing.scale _ _ ?k ?x => let k' := cn_sc R k in let x' := cn_mx R x a b in
      constr:(@GRing.scale (Num.RealField.ringType R) (matrix_lmodType (Num.RealField.ringType R) a b) k' x')
  | @mulmx _ _ ?c _ ?x ?y => let x' := cn_mx R x a c in let y' := cn_mx R y c b in
      constr:(@mulmx (Num.RealField.ringType R) a c b x' y')
  | @trmx _ _ _ ?x => let x' := cn_mx R x b a in constr:(@trmx (Num.RealField.sort R) b a x')
  | @invmx _ _ ?x => let x' := cn_mx R x a a in constr:(@invmx (Num.RealField.comUnitRingType R) a x')
  | @scalar_mx _ _ ?k => let k' := cn_sc R k in constr:(@scalar_mx (Num.RealField.ringType R) a k')
  | _ => cn_app R e
  end
with cn_app R e :=      (* other functions: canonicalise the matrix arguments *)
  lazymatch e with
  | ?f ?x => let f' := cn_app R f in
      let T := type of x in let T := eval hnf in T in
      lazymatch T with
      | matrix _ ?a ?b => let x' := cn_mx R x a b in constr:(f' x')
      | _ => constr:(f' x)
      end
  | _ => e
  end
with cn_sc R e :=
  lazymatch e with
  | @GRing.add _ ?x ?y => let x' := cn_sc R x in let y' := cn_sc R y in constr:(@GRing.add (Num.RealField.zmodType R) x' y')
  | @GRing.opp _ ?x => let x' := cn_sc R x in constr:(@GRing.opp (Num.RealField.zmodType R) x')
  | @GRing.zero _ => constr:(@GRing.zero (Num.RealField.zmodType R))
  | @GRing.one _ => constr:(@GRing.one (Num.RealField.ringType R))
  | @GRing.mul _ ?x ?y => let x' := cn_sc R x in let y' := cn_sc R y in constr:(@GRing.mul (Num.RealField.ringType R) x' y')
  | @GRing.inv _ ?x => let x' := cn_sc R x in constr:(@GRing.inv (Num.RealField.unitRingType R) x')
  | @GRing.natmul _ ?x ?k => let x' := cn_sc R x in constr:(@GRing.natmul (Num.RealField.zmodType R) x' k)
  | @GRing.exp _ ?x ?k => let x' := cn_sc R x in constr:(@GRing.exp (Num.RealField.ringType R) x' k)
  | dot ?x ?y => lazymatch e with @dot _ ?n _ _ =>
      let x' := cn_mx R x n 1%N in let y' := cn_mx R y n 1%N in constr:(@dot R n x' y') end
  | qf ?A ?x => lazymatch e with @qf _ ?n _ _ =>
      let A' := cn_mx R A n n in let x' := cn_mx R x n 1%N in constr:(@qf R n A' x') end
  | sc ?A => let A' := cn_mx R A 1%N 1%N in constr:(@sc R A')
  | _ => cn_app R e
  end.
Ltac cn R e := let T := type of e in let T := eval hnf in T in
  lazymatch T with matrix _ ?a ?b => cn_mx R e a b | _ => cn_sc R e end.
Ltac canon R := lazymatch goal with |- @eq _ ?a ?b =>
  let T := type of a in let T := eval hnf in T in
  lazymatch T with
  | matrix _ ?k ?l => let x := cn_mx R a k l in let y := cn_mx R b k l in change (@eq (matrix (Num.RealField.sort R) k l) x y)
  | _ => let x := cn_sc R a in let y := cn_sc R b in change (@eq (Num.RealField.sort R) x y)
  end end.
Ltac rsn R := canon R; rsn0 R.
(** decides equality in the free abelian group over the maximal non-additive subterms *)
Ltac abel0 :=
  lazymatch goal with
  | |- @eq ?T ?a ?b =>
    let l := ab_atoms a (@nil T) in let l := ab_atoms b l in
    let x := ab_reify a l in let y := ab_reify b l in
    apply: (@acheckP _ l x y); vm_compute; reflexivity
  end.
Ltac find_R := lazymatch goal with R : realFieldType |- _ => R end.
Ltac abel := let R := find_R in canon R; abel0.

(** expand products of sums, push transposes inward, associate products to the left *)
Ltac mxexp := repeat progress rewrite ?(mulmxDl, mulmxDr, mulmxBl, mulmxBr, mulmxN, mulNmx, opprD, opprK, raddfD, raddfB, raddfN, raddf0,
  mulmxA, trmx_mul, trmxK, trmx1, trmx0, mulmx1, mul1mx, mulmx0, mul0mx) /=.
Ltac mxabel := mxexp; abel.

(** * Cholesky *)
Section Chol.
Variable R : realFieldType.
Add Ring Rr : (mc_ring R).
Add Field Rf : (mc_field R).

(** LAPACK potrf on the upper triangle succeeds iff every pivot is positive; the pivots are those of
    repeated Schur complements, computed from the upper triangle only. *)
Fixpoint cholb n : 'M[R]_n -> bool :=
  match n with
  | 0%N => fun _ => true
  | n'.+1 => fun A : 'M[R]_(1 + n') =>
      (0 < A 0 0) && cholb (drsubmx A - (A 0 0)^-1 *: ((ursubmx A)^T *m ursubmx A))
  end.
(** the symmetric matrix with the same upper triangle *)
Definition usym n (A : 'M[R]_n) : 'M[R]_n := \matrix_(i, j) if (i <= j)%N then A i j else A j i.

(** cho_factor followed by cho_solve, and scipy.linalg.solve(..., assume_a='pos'): only the upper
    triangle is read; LinAlgError unless it is positive definite. *)
Definition solve_pos n p (A : 'M[R]_n) (B : 'M[R]_(n, p)) : option 'M[R]_(n, p) :=
  if cholb A then Some (invmx (usym A) *m B) else None.

Lemma usym_symm n (A : 'M_n) : symm (usym A).
Proof.
apply/matrixP => i j; rewrite !mxE.
case: (ltngtP i j) => // /ord_inj ->; by [].
Qed.
Lemma usym_id n (A : 'M[R]_n) : symm A -> usym A = A.
Proof.
move=> sA; apply/matrixP => i j; rewrite !mxE; case: ifP => // _.
by move/matrixP: sA => /(_ i j); rewrite mxE.
Qed.

Lemma cholb_usym n (A : 'M_n) : cholb (usym A) = cholb A.
Proof.
elim: n A => [//|n IH] A; cbn [cholb].
have E00 : usym A 0 0 = A 0 0 by rewrite mxE leqnn.
rewrite E00; congr (_ && _).
rewrite -[RHS]IH; congr (cholb _).
have Eu : ursubmx (usym A : 'M_(1 + n)) = ursubmx (A : 'M_(1+n)).
  by apply/matrixP => i j; rewrite !mxE ord1 /=.
rewrite Eu; apply/matrixP => i j.
set B := _ *m _.
have sB : B j i = B i j.
  by rewrite -[B in RHS]trmxK [RHS]mxE /B trmx_mul trmxK.
clearbody B; rewrite !mxE sB /= leq_add2l.
by case: ifP.
Qed.

Lemma qf_block1 n (a : R) (b : 'M[R]_(1, n)) (D : 'M[R]_n) (t : R) (y : 'cV_n) :
  qf (block_mx (a%:M : 'M_1) b b^T D) (col_mx (t%:M : 'M_1) y) = a * t ^+ 2 + t * sc (b *m y) *+ 2 + qf D y.
Proof.
rewrite qf_dot /dot mul_block_col tr_col_mx mul_row_col !mulmxDr !scD.
have scs (u : R) : sc (u%:M : 'M_1) = u by rewrite /sc mxE /= mulr1n.
have E1 : sc ((t%:M)^T *m (a%:M *m t%:M)) = a * t ^+ 2.
  by rewrite !scM scT !scs mulrCA expr2 mulrA.
have E2 : sc ((t%:M : 'M_1)^T *m (b *m y)) = t * sc (b *m y) by rewrite scM scT scs.
have E3 : sc (y^T *m (b^T *m t%:M)) = t * sc (b *m y).
  by rewrite -scT !trmx_mul !trmxK -mulmxA scM scT scs.
by rewrite E1 E2 E3 -/(dot _ _) -qf_dot mulr2n !addrA.
Qed.

Lemma cholbP n (A : 'M_n) : symm A -> cholb A <-> pd A.
Proof.
elim: n A => [|n IH] A sA.
  by split=> // _ x; rewrite (flatmx0 x) eqxx.
cbn [cholb].
set a := A 0 0; set b := ursubmx (A : 'M_(1+n)); set D := drsubmx (A : 'M_(1+n)).
set Sc := D - _.
have EA : (A : 'M_(1+n)) = block_mx (a%:M : 'M_1) b b^T D.
  etransitivity; first exact: (esym (submxK (A : 'M_(1+n)))).
  congr (block_mx _ _ _ _).
  - by apply/matrixP => i j; rewrite !ord1 !mxE /= mulr1n /a; congr (A _ _); apply: val_inj.
  - by rewrite /b trmx_ursub; congr dlsubmx.
have sD : symm D by rewrite /symm /D trmx_drsub sA.
have sS : symm Sc by apply: symmB => //; rewrite /symm linearZ /= trmx_mul trmxK.
have qE (t : R) (y : 'cV_n) : qf A (col_mx (t%:M : 'M_1) y : 'cV_(1+n)) = a * t ^+ 2 + t * sc (b *m y) *+ 2 + qf D y.
  transitivity (qf (block_mx (a%:M : 'M_1) b b^T D) (col_mx (t%:M : 'M_1) y)); [by rewrite -EA | exact: qf_block1].
have qS (y : 'cV_n) : qf Sc y = qf D y - a^-1 * (sc (b *m y)) ^+ 2.
  rewrite !qf_dot /Sc mulmxBl dotBr -scalemxAl dotZr -mulmxA [dot y (b^T *m _)]dotMr trmxK; congr (_ - _ * _).
  by rewrite /dot scM scT expr2.
have spl (x : 'cV[R]_(1+n)) : exists t y, x = col_mx (t%:M : 'M_1) y.
  exists (x 0 0), (dsubmx x); rewrite -[LHS]vsubmxK; congr col_mx.
  by apply/matrixP => i j; rewrite !ord1 !mxE mulr1n; congr (x _ _); apply: val_inj.
split.
- case/andP => a0 /(IH _ sS) pS x x0.
  have [t [y Ex]] := spl x; rewrite Ex qE.
  have -> : a * t ^+ 2 + t * sc (b *m y) *+ 2 + qf D y = a * (t + a^-1 * sc (b *m y)) ^+ 2 + qf Sc y.
    have an : a != 0 by rewrite gt_eqF.
    by rewrite qS; rsn R; field; exact/eqP.
  case: (eqVneq y 0) => [y0|yn]; last by rewrite ltr_paddl ?pS // mulr_ge0 ?sqr_ge0 ?ltW.
  rewrite y0 qf0 mulmx0 sc0 mulr0 !addr0 mulr_gt0 // lt_neqAle sqr_ge0 andbT eq_sym sqrf_eq0.
  apply: contra_neq x0 => t0; rewrite Ex y0 t0.
  by rewrite -scalemx1 scale0r col_mx0.
- move=> pA.
  have a0 : 0 < a.
    have := pA (col_mx (1%:M : 'M_1) (0 : 'cV_n) : 'cV_(1+n)).
    rewrite qE qf0 mulmx0 sc0 mulr0 mul0rn !addr0 expr1n mulr1; apply.
    have : (col_mx (1%:M : 'M_1) (0 : 'cV[R]_n) : 'cV_(1+n)) != 0 by rewrite col_mx_eq0 negb_and matrix_nonzero1.
    by [].
  rewrite a0 /=; apply/IH => // y y0.
  have := pA (col_mx ((- (a^-1 * sc (b *m y)))%:M : 'M_1) y : 'cV_(1+n)).
  rewrite qE qS.
  set g := sc _; have an : a != 0 by rewrite gt_eqF.
  have -> : a * (- (a^-1 * g)) ^+ 2 + - (a^-1 * g) * g *+ 2 + qf D y = qf D y - a^-1 * g ^+ 2.
    by rsn R; field; exact/eqP.
  apply; set t := - _.
  have : (col_mx (t%:M : 'M_1) y : 'cV_(1+n)) != 0 by rewrite col_mx_eq0 negb_and y0 orbT.
  by [].
Qed.

Lemma solve_posE n p (A : 'M_n) (B : 'M[R]_(n, p)) : symm A -> pd A -> solve_pos A B = Some (invmx A *m B).
Proof. by move=> sA pA; rewrite /solve_pos usym_id // (proj2 (cholbP sA) pA). Qed.
Lemma solve_pos_iff n p (A : 'M_n) (B : 'M[R]_(n, p)) : solve_pos A B <> None <-> pd (usym A).
Proof. by rewrite /solve_pos -cholbP ?cholb_usym; [case: cholb | exact: usym_symm]. Qed.
End Chol.
