(** Linear-quadratic algebra: completion of squares, Riccati step, stationarity relations. *)
From Coq Require Import Ring Field.
From mathcomp Require Import all_ssreflect all_algebra.
From Verif Require Import MxBase LqtModel LqtSpec.
Import Order.TTheory GRing.Theory Num.Theory.
Set Implicit Arguments. Unset Strict Implicit. Unset Printing Implicit Defensive.
Local Open Scope ring_scope.

Lemma two_neq0 (R : realFieldType) : radd (r1 R) (r1 R) <> r0 R.
Proof. by apply/eqP; rewrite /radd /r1 /r0 -mulr2n pnatr_eq0. Qed.

Section Core.
Variable R : realFieldType.
Variables n m : nat.
Add Ring Rr : (mc_ring R).
Add Field Rf : (mc_field R).
Ltac sfield := rsn R; field; exact: two_neq0.

Section Stage.
Variable p : nat.
Variable s : stage R n m p.
Notation F := (sF s). Notation L := (sL s). Notation X := (sX s). Notation U := (sU s). Notation c := (scc s).
Notation H := (sH s). Notation r := (sr s). Notation Z := (sZ s). Notation sv := (ss s). Notation M := (sM s).
Hypothesis ok : stage_ok s.
Let sX' : X^T = X. Proof. by case: ok. Qed.
Let sU' : U^T = U. Proof. by case: ok. Qed.

(** gradients and second-order part of the stage cost *)
Definition gx x u : 'cV[R]_n := H^T *m X *m (H *m x - r) + H^T *m M *m (Z *m u - sv).
Definition gu x u : 'cV[R]_m := Z^T *m U *m (Z *m u - sv) + Z^T *m M^T *m (H *m x - r).
Definition sq (h : 'cV[R]_n) (k : 'cV[R]_m) : R :=
  qf X (H *m h) / 2%:R + qf U (Z *m k) / 2%:R + dot (H *m h) (M *m (Z *m k)).

Lemma stage_cost_exp x u h k :
  stage_cost s (x + h) (u + k) = stage_cost s x u + dot (gx x u) h + dot (gu x u) k + sq h k.
Proof.
rewrite /stage_cost /gx /gu /sq.
set e := H *m x - r; set w := Z *m u - sv.
have -> : H *m (x + h) - r = e + H *m h by rewrite /e; mxabel.
have -> : Z *m (u + k) - sv = w + Z *m k by rewrite /w; mxabel.
clearbody e w; rewrite (qfD _ _ sX') (qfD _ _ sU') mulmxDr !dotDl !dotDr.
have -> : dot (H^T *m X *m e) h = dot (X *m e) (H *m h) by rewrite dotMr !mulmxA.
have -> : dot (H^T *m M *m w) h = dot (H *m h) (M *m w) by rewrite [RHS]dotC dotMr !mulmxA.
have -> : dot (Z^T *m U *m w) k = dot (U *m w) (Z *m k) by rewrite dotMr !mulmxA.
have -> : dot (Z^T *m M^T *m e) k = dot e (M *m (Z *m k)) by rewrite !dotMr !mulmxA.
sfield.
Qed.

Lemma sq_ge0 h k : 0 <= sq h k.
Proof.
case: ok => _ _ j _; have := j (H *m h) (Z *m k).
have -> : sq h k = (qf X (H *m h) + qf U (Z *m k) + dot (H *m h) (M *m (Z *m k)) *+ 2) / 2%:R by rewrite /sq; sfield.
by move=> q; rewrite divr_ge0 // ler0n.
Qed.

(** consequences of admissibility *)
Lemma Z_unit : Z \in unitmx.
Proof.
apply: unit_ker => u e; apply/eqP/negPn/negP; case: ok => _ _ _ q /q.
by rewrite e qf0 ltxx.
Qed.
Lemma U_pd : pd U.
Proof.
move=> w w0; case: ok => _ _ _ q; rewrite -[w](mulKVmx Z_unit); apply: q.
apply: contra_neq w0 => e; by rewrite -[w](mulKVmx Z_unit) e mulmx0.
Qed.
Lemma ZUZ_pd : pd (Z^T *m U *m Z).
Proof. by move=> u u0; rewrite qfM; case: ok => _ _ _; apply. Qed.

(** ** Riccati step *)
Section Ric.
Variable Sv : 'M[R]_n.
Variable v : 'cV[R]_n.
Hypothesis sS : Sv^T = Sv.
Hypothesis pS : psd Sv.

Definition W := Z^T *m U *m Z + L^T *m Sv *m L.
Definition G := Z^T *m M^T *m H + L^T *m Sv *m F.
Definition e0 := Z^T *m U *m sv + Z^T *m M^T *m r - L^T *m Sv *m c + L^T *m v.
Variables (K : 'M[R]_(m, n)) (d : 'cV[R]_m).
Definition v' := H^T *m X *m r - K^T *m Z^T *m U *m sv + H^T *m M *m sv
            - K^T *m Z^T *m M^T *m r + (F - L *m K)^T *m (v - Sv *m c).
Definition S' := H^T *m X *m H - H^T *m M *m Z *m K + F^T *m Sv *m (F - L *m K).

Lemma W_symm : symm W.
Proof. by apply: symmD; apply: symm_cong. Qed.
Lemma W_pd : pd W.
Proof. by apply: pd_psdD; [exact: ZUZ_pd | apply: psd_cong]. Qed.
Lemma W_unit : W \in unitmx. Proof. exact: pd_unit W_pd. Qed.
Lemma gainP K1 d1 : gain s Sv v = Some (K1, d1) <-> W *m K1 = G /\ W *m d1 = e0.
Proof.
rewrite /gain !solve_posE; try exact: W_symm; try exact: W_pd.
rewrite /= -/W -/G -/e0.
split; first by case=> <- <-; rewrite !mulKVmx // W_unit.
by case=> <- <-; rewrite !mulKmx // W_unit.
Qed.
Lemma gain_some : exists K1 d1, gain s Sv v = Some (K1, d1).
Proof.
by exists (invmx W *m G), (invmx W *m e0); apply/gainP; rewrite !mulKVmx // W_unit.
Qed.
Hypothesis WK : W *m K = G.
Hypothesis Wd : W *m d = e0.

(** closed-loop form of S' *)
Lemma S'E : S' = H^T *m X *m H - H^T *m M *m Z *m K - (H^T *m M *m Z *m K)^T + K^T *m (Z^T *m U *m Z) *m K
                 + (F - L *m K)^T *m Sv *m (F - L *m K).
Proof.
have := congr1 (mulmx K^T) WK; rewrite /W /G /S' => e.
by apply: (lincomb (esym e)); mxexp; abel.
Qed.
Lemma S'_symm : symm S'.
Proof. rewrite /symm S'E; mxexp; rewrite sX' sU' sS; abel. Qed.
Lemma qfS' x : qf S' x = sq x (- K *m x) *+ 2 + qf Sv ((F - L *m K) *m x).
Proof.
rewrite S'E qfDl qfM /sq !qf_dot; congr (_ + _).
rewrite !(mulmxDl, mulNmx, mulmxN, dotE).
have -> : dot x (H^T *m X *m H *m x) = dot (H *m x) (X *m (H *m x)) by rewrite dotMl !mulmxA.
have -> : dot x ((H^T *m M *m Z *m K)^T *m x) = dot (H *m x) (M *m (Z *m (K *m x))).
  by rewrite dotMr trmxK dotC dotMl !mulmxA.
have -> : dot x (H^T *m M *m Z *m K *m x) = dot (H *m x) (M *m (Z *m (K *m x))) by rewrite dotMl !mulmxA.
have -> : dot x (K^T *m (Z^T *m U *m Z) *m K *m x) = dot (Z *m (K *m x)) (U *m (Z *m (K *m x))).
  by rewrite !dotMl !mulmxA.
sfield.
Qed.
Lemma S'_psd : psd S'.
Proof. by move=> x; rewrite qfS' addr_ge0 ?mulrn_wge0 ?sq_ge0 // pS. Qed.

(** expansion of the quadratic function *)
Lemma quad_exp (T : 'M[R]_n) w x h : symm T -> quad T w (x + h) = quad T w x + dot (T *m x - w) h + qf T h / 2%:R.
Proof. by move=> sT; rewrite /quad (qfD _ _ sT) !dotE; sfield. Qed.

Definition phi x u := stage_cost s x u + quad Sv v (next s x u).

Lemma next_exp x u h k : next s (x + h) (u + k) = next s x u + (F *m h + L *m k).
Proof. by rewrite /next; mxabel. Qed.

(** completion of the square *)
Lemma complete_square x u :
  phi x u = qf W (u - (d - K *m x)) / 2%:R + quad S' v' x + phi 0 d.
Proof.
have E1 u1 k : phi x (u1 + k) = phi x u1 + dot (gu x u1 + L^T *m (Sv *m next s x u1 - v)) k + qf W k / 2%:R.
  rewrite /phi -[x in LHS]addr0 stage_cost_exp next_exp quad_exp // mulmx0 add0r /sq mulmx0 qf0 dot0r !dot0l dotDl.
  have -> : dot (L^T *m (Sv *m next s x u1 - v)) k = dot (Sv *m next s x u1 - v) (L *m k) by rewrite dotMr.
  by rewrite /W qfDl !qfM; sfield.
have E2 h k : phi (0 + h) (d + k) = phi 0 d + dot (gx 0 d + F^T *m (Sv *m next s 0 d - v)) h
     + dot (gu 0 d + L^T *m (Sv *m next s 0 d - v)) k + (sq h k + qf Sv (F *m h + L *m k) / 2%:R).
  rewrite /phi stage_cost_exp next_exp quad_exp // !dotDr !dotDl.
  have -> : dot (L^T *m (Sv *m next s 0 d - v)) k = dot (Sv *m next s 0 d - v) (L *m k) by rewrite dotMr.
  have -> : dot (F^T *m (Sv *m next s 0 d - v)) h = dot (Sv *m next s 0 d - v) (F *m h) by rewrite dotMr.
  rewrite ?dotDl; sfield.
have G1 : gu x (d - K *m x) + L^T *m (Sv *m next s x (d - K *m x) - v) = 0.
  have e1 := congr1 (fun A => A *m x) WK; have e2 := Wd.
  have := congr2 (fun a b : 'cV_m => b - a) e1 e2; rewrite /W /G /e0 /gu /next => e.
  by apply: (lincomb e); mxexp; abel.
have G2 : gu 0 d + L^T *m (Sv *m next s 0 d - v) = 0.
  have := Wd; rewrite /W /e0 /gu /next => e.
  by apply: (lincomb e); mxexp; abel.
have G3 : gx 0 d + F^T *m (Sv *m next s 0 d - v) = - v'.
  have e2 := congr1 (mulmx K^T) Wd; have e1 := congr1 (fun A => A^T *m d) WK.
  have := congr2 (fun a b : 'cV_n => b - a) e1 e2.
  rewrite /W /G /e0 /gx /next /v' => e.
  by apply: (lincomb e); mxexp; rewrite sU' sS ?trmxK; abel.
have <- : (d - K *m x) + (u - (d - K *m x)) = u by abel.
rewrite E1 G1 dot0l addr0.
have -> : (d - K *m x) + (u - (d - K *m x)) - (d - K *m x) = u - (d - K *m x) by abel.
rewrite [LHS]addrC -addrA; congr (_ + _).
rewrite -[x in LHS]add0r -mulNmx E2 G2 G3 dot0l addr0 /quad dotNl add0r.
have -> : F *m x + L *m (- K *m x) = (F - L *m K) *m x by mxabel.
rewrite qfS' ; sfield.
Qed.

(** ** stationarity: l is the gradient of the value, l' that of the next value *)
Definition kkt (x l : 'cV[R]_n) (u : 'cV[R]_m) (x1 l1 : 'cV[R]_n) : Prop :=
  [/\ x1 = next s x u, l = gx x u + F^T *m l1 & gu x u + L^T *m l1 = 0].

Lemma ric_kkt x : let u := - K *m x + d in let x1 := next s x u in
  kkt x (S' *m x - v') u x1 (Sv *m x1 - v).
Proof.
move=> u x1; split => //.
- have e2 := congr1 (mulmx K^T) Wd; have e1 := congr1 (fun A => A^T *m d) WK.
  have := congr2 (fun a b : 'cV_n => a - b) e1 e2.
  rewrite /W /G /e0 /x1 /u /gx /next /v' /S' => e.
  by apply: (lincomb e); mxexp; rewrite sU' sS ?trmxK; abel.
- have e1 := congr1 (fun A => A *m x) WK; have e2 := Wd.
  have := congr2 (fun a b : 'cV_m => b - a) e1 e2; rewrite /W /G /e0 /x1 /u /gu /next => e.
  by apply: (lincomb e); mxexp; abel.
Qed.
End Ric.
End Stage.
End Core.
