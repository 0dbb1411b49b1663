(** The classical Runge-Kutta step on a quadratic vector field: its expansion in powers of the step size. *)
From Coq Require Import Ring Field.
From mathcomp Require Import all_ssreflect all_algebra.
From Verif Require Import MxBase LqtModel LqtSpec LqtCore LinComb Rk4Model Rk4Spec Rk4Proofs RkConvSpec.
Import Order.TTheory GRing.Theory Num.Theory.
Set Implicit Arguments. Unset Strict Implicit. Unset Printing Implicit Defensive.
Local Open Scope ring_scope.

Section Alg.
Variable R : realFieldType.
Add Ring Rr : (mc_ring R).
Add Field Rf : (mc_field R).
Ltac sfield := rsn R; field; repeat split; num_neq0 R.
Variables k l : nat.
Local Notation V := (matrix_lmodType R k l).
Section Lin.
Implicit Types B : V -> V.
Lemma linD B (HB : linear_map B) x y : B (x + y) = B x + B y. Proof. exact: (linearD (Linear (HB : linear B))). Qed.
Lemma linB B (HB : linear_map B) x y : B (x - y) = B x - B y. Proof. exact: (linearB (Linear (HB : linear B))). Qed.
Lemma linZ B (HB : linear_map B) a x : B (a *: x) = a *: B x. Proof. exact: (linearZZ (Linear (HB : linear B))). Qed.
End Lin.
Variables (c : V) (B : V -> V) (b : V -> V -> V).
Hypothesis HB : linear_map B.
Hypothesis Hb : bilinear_map b.
Definition f (x : V) : V := c + B x + b x x.
Definition bs (x y : V) : V := b x y + b y x.
Definition dA (x d : V) : V := B d + bs x d.
Lemma fD x d : f (x + d) = f x + dA x d + b d d.
Proof.
rewrite /f /dA /bs (linD HB) (linD (Hb.1 _)) !(linD (Hb.2 _)).
by apply/matrixP => i j; rewrite !mxE; abel.
Qed.
Lemma bsD x y z : bs x (y + z) = bs x y + bs x z.
Proof. by rewrite /bs (linD (Hb.1 _)) (linD (Hb.2 _)) addrACA. Qed.
Lemma bsZ x (a : R) y : bs x (a *: y) = a *: bs x y.
Proof. by rewrite /bs (linZ (Hb.1 _)) (linZ (Hb.2 _)) scalerDr. Qed.
Lemma dAD x y z : dA x (y + z) = dA x y + dA x z.
Proof. by rewrite /dA bsD (linD HB) addrACA. Qed.
Lemma dAZ x (a : R) y : dA x (a *: y) = a *: dA x y.
Proof. by rewrite /dA bsZ (linZ HB) scalerDr. Qed.
Lemma bZZ (a a' : R) x y : b (a *: x) (a' *: y) = (a * a') *: b x y.
Proof. by rewrite (linZ (Hb.1 _)) (linZ (Hb.2 _)) scalerA mulrC. Qed.
Lemma bDD x y : b (x + y) (x + y) = b x x + bs x y + b y y.
Proof. by rewrite (linD (Hb.1 _)) !(linD (Hb.2 _)) /bs !addrA; congr (_ + _); rewrite -!addrA; congr (_ + _); rewrite addrC. Qed.

Definition g2 x := dA x (f x).
Definition g3 x := dA x (g2 x) + 2%:R *: b (f x) (f x).
Definition g4 x := dA x (g3 x) + 3%:R *: bs (f x) (g2 x).
Definition g5 x := dA x (g4 x) + bs (f x) (g3 x) + 3%:R *: (bs (g2 x) (g2 x) + bs (f x) (g3 x)).
Definition gs (m : nat) : V -> V := nth (fun x => 0) [:: id; f; g2; g3; g4; g5] m.
Definition stp (h : R) (x : V) : V :=
  let k1 := f x in let k2 := f (x + 2%:R^-1 *: (h *: k1)) in let k3 := f (x + 2%:R^-1 *: (h *: k2)) in let k4 := f (x + h *: k3) in
  rk4_sum x (h *: k1) (h *: k2) (h *: k3) (h *: k4).
Lemma rk4_stp h x : rk4_x (fun x => Some (f x)) h x = Some (stp h x). Proof. by []. Qed.
Definition incr (h : R) (x : V) : V :=
  let k1 := f x in let k2 := f (x + 2%:R^-1 *: (h *: k1)) in let k3 := f (x + 2%:R^-1 *: (h *: k2)) in let k4 := f (x + h *: k3) in
  (1 / 6%:R) *: (k1 + 2%:R *: k2 + 2%:R *: k3 + k4).
Lemma stp_incr h x : stp h x = x + h *: incr h x.
Proof.
rewrite /stp /rk4_sum /incr /=; set k1 := f x; set k2 := f (_ + _ *: (_ *: k1)); set k3 := f (_ + _ *: (_ *: k2)); set k4 := f (_ + h *: k3).
by apply/matrixP => i j; rewrite !mxE; sfield.
Qed.
(** the expansion of the step *)
Local Notation "'1/2'" := (1 / 2%:R : R).
Local Notation "'1/4'" := (1 / 4%:R : R).
Definition pp (h : R) x := 1/2 *: dA x (f x) + 1/4 *: (h *: b (f x) (f x)).
Definition qq2 (h : R) x := (1/2 * 1/4) *: dA x (b (f x) (f x)) + 1/4 *: bs (f x) (pp h x) + 1/4 *: (h *: b (pp h x) (pp h x)).
Definition qq1 (h : R) x := 1/4 *: (dA x (dA x (f x)) + b (f x) (f x)) + h *: qq2 h x.
Definition qq (h : R) x := 1/2 *: dA x (f x) + h *: qq1 h x.
Definition rr (h : R) x := (1 / 6%:R) *: ((1/2 * 1/4) *: bs (f x) (b (f x) (f x)) + 1/2 *: b (pp h x) (pp h x) + dA x (qq2 h x)
  + bs (f x) (qq1 h x) + b (qq h x) (qq h x)).
Definition tayl (h : R) x : V := x + h *: f x + (h ^+ 2 / 2%:R) *: g2 x + (h ^+ 3 / 6%:R) *: g3 x + (h ^+ 4 / (4%:R * 6%:R)) *: g4 x.
Lemma alg3 (h f0 a w aa aw bp bf : R) :
  f0 + 2%:R^-1 * h * (a + h * (1/2 * aa + 1/4 * (h * aw))) + 2%:R^-1 * h * (2%:R^-1 * h) * (w + h * bf + h * h * bp) =
  f0 + h * (1/2 * a + h * (1/4 * (aa + w) + h * (1/2 * 1/4 * aw + 1/4 * bf + 1/4 * (h * bp)))).
Proof. sfield. Qed.
Lemma alg4 (h f0 a w aq bq bf : R) : f0 + h * (a + h * aq) + h * h * (w + h * bf + h * h * bq) = f0 + h * a + h ^+ 2 * (aq + w + h * bf + h ^+ 2 * bq).
Proof. sfield. Qed.
(** f0, a = A f0, w = b(f0, f0), A a, A w, A A a, bs(f0, a), bs(f0, w), b(p, p), A q2, bs(f0, q1), b(q, q) *)
Lemma alg5 (h x f0 a w aa aw aaa fa fw bp aq2 fq1 bq : R) :
  let p := 1/2 * a + 1/4 * (h * w) in
  let fp := 1/2 * fa + 1/4 * (h * fw) in
  let q2 := 1/2 * 1/4 * aw + 1/4 * fp + 1/4 * (h * bp) in
  let q := 1/2 * a + h * (1/4 * (aa + w) + h * q2) in
  let aq := 1/2 * aa + h * (1/4 * (aaa + aw) + h * aq2) in
  let fq := 1/2 * fa + h * fq1 in
  x + 1 / 6%:R * (h * f0 + 2%:R * (h * (f0 + h * p)) + 2%:R * (h * (f0 + h * q)) + h * (f0 + h * a + h ^+ 2 * (aq + w + h * fq + h ^+ 2 * bq))) =
  x + h * f0 + h ^+ 2 / 2%:R * a + h ^+ 3 / 6%:R * (aa + 2%:R * w) + h ^+ 4 / (4%:R * 6%:R) * (aaa + 2%:R * aw + 3%:R * fa)
  + h ^+ 5 * (1 / 6%:R * (1/2 * 1/4 * fw + 1/2 * bp + aq2 + fq1 + bq)).
Proof. move=> p fp q2 q aq fq; rewrite /q /aq /fq /q2 /fp /p !exprS expr0 !mulr1; sfield. Qed.
Lemma stp_expand h x : stp h x = tayl h x + h ^+ 5 *: rr h x.
Proof.
rewrite /stp /=.
have -> : f (x + 2%:R^-1 *: (h *: f x)) = f x + h *: pp h x.
  rewrite fD !scalerA dAZ bZZ /pp; move: (f x) (dA x (f x)) (b (f x) (f x)) => f0 a w.
  by apply/matrixP => i j; rewrite !mxE; sfield.
have pA : dA x (pp h x) = 1/2 *: dA x (dA x (f x)) + 1/4 *: (h *: dA x (b (f x) (f x))) by rewrite /pp dAD !dAZ.
have pF : bs (f x) (pp h x) = 1/2 *: bs (f x) (dA x (f x)) + 1/4 *: (h *: bs (f x) (b (f x) (f x))) by rewrite /pp bsD !bsZ.
have -> : f (x + 2%:R^-1 *: (h *: (f x + h *: pp h x))) = f x + h *: qq h x.
  rewrite fD !scalerA dAZ bZZ dAD dAZ bDD bZZ bsZ pA /qq /qq1 /qq2.
  by apply/matrixP => i j; rewrite !mxE; exact: alg3.
have -> : f (x + h *: (f x + h *: qq h x)) = f x + h *: dA x (f x) + h ^+ 2 *: (dA x (qq h x) + b (f x) (f x) + h *: bs (f x) (qq h x) + h ^+ 2 *: b (qq h x) (qq h x)).
  rewrite fD dAZ bZZ dAD dAZ bDD bZZ bsZ.
  by apply/matrixP => i j; rewrite !mxE; exact: alg4.
have qA : dA x (qq h x) = 1/2 *: dA x (dA x (f x)) + h *: (1/4 *: (dA x (dA x (dA x (f x))) + dA x (b (f x) (f x))) + h *: dA x (qq2 h x)).
  by rewrite /qq dAD !dAZ /qq1 dAD !dAZ dAD.
have qF : bs (f x) (qq h x) = 1/2 *: bs (f x) (dA x (f x)) + h *: bs (f x) (qq1 h x) by rewrite /qq bsD !bsZ.
have Q : qq h x = 1/2 *: dA x (f x) + h *: (1/4 *: (dA x (dA x (f x)) + b (f x) (f x)) + h *:
  ((1/2 * 1/4) *: dA x (b (f x) (f x)) + 1/4 *: (1/2 *: bs (f x) (dA x (f x)) + 1/4 *: (h *: bs (f x) (b (f x) (f x)))) + 1/4 *: (h *: b (pp h x) (pp h x)))) by rewrite -pF.
rewrite /tayl /rr /g4 /g3 /g2 dAD dAZ qA qF /rk4_sum.
move: Q (dA x (qq2 h x)) (bs (f x) (qq1 h x)) (b (qq h x) (qq h x)) => Q aq2 fq1 bq; rewrite {}Q {1}/pp.
by apply/matrixP => i j; rewrite !mxE; exact: alg5.
Qed.
End Alg.
