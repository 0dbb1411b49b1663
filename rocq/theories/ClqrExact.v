(** The regulator's passes with method 'exact': solutions of the Riccati equation and of the closed loop. *)
From Coq Require Import Ring Field.
From mathcomp Require Import all_ssreflect all_algebra zify.
From Verif Require Import ScanModel MxBase LqtModel LqtCore LinComb NlqtSpec NlqtProofs Rk4Model ClqtModel ClqtSpec ClqtExp ClqtFwd2 ClqtVal LinModModel ClqrModel ClqrSpec.
Import Order.TTheory GRing.Theory Num.Theory.
Set Implicit Arguments. Unset Strict Implicit. Unset Printing Implicit Defensive.
Local Open Scope ring_scope.

Section Exp.
Variable R : realFieldType.
Add Ring Rr : (mc_ring R).
Add Field Rf : (mc_field R).

(** ** expansions *)
Lemma unit_bound k (X : 'M[R]_k) (h : R) : `|h| * mnorm X <= 2%:R^-1 ->
  1%:M + h *: X \in unitmx /\ mnorm (invmx (1%:M + h *: X)) <= mnorm (1%:M : 'M[R]_k) *+ 2.
Proof.
move=> hX.
have u : 1%:M + h *: X \in unitmx.
  apply: unit_ker => x; rewrite mulmxDl mul1mx -scalemxAl => /eqP; rewrite addr_eq0 => /eqP E.
  have : vnorm x <= 2%:R^-1 * vnorm x.
    rewrite {1}E vnormN vnormZ; apply: (@le_trans _ _ (`|h| * (mnorm X * vnorm x))).
      by rewrite ler_wpmul2l // vnormM.
    by rewrite mulrA ler_wpmul2r // vnorm_ge0.
  move=> le; apply: vnorm_eq0; apply/eqP; rewrite eq_le vnorm_ge0 andbT.
  have := le; rewrite -subr_ge0 -{2}[vnorm x]mul1r -mulrBl => le'.
  have hm : 2%:R^-1 - 1 < 0 :> R by rewrite subr_lt0 invf_lt1 ?ltr0n // ltr1n.
  by rewrite nmulr_rge0 in le'.
split => //; set W := invmx _.
have E : W = 1%:M - h *: (X *m W).
  apply/eqP; rewrite -subr_eq0 opprB; apply/eqP.
  have : (1%:M + h *: X) *m W = 1%:M by rewrite mulmxV.
  by rewrite mulmxDl mul1mx -scalemxAl => <-; rewrite opprD addrA; abel.
have : mnorm W <= mnorm (1%:M : 'M[R]_k) + 2%:R^-1 * mnorm W.
  rewrite {1}E; apply: le_trans (mnormD _ _) _; rewrite ler_add2l -scaleNr mnormZ normrN.
  apply: (@le_trans _ _ (`|h| * (mnorm X * mnorm W))); first by rewrite ler_wpmul2l // mnormM.
  by rewrite mulrA ler_wpmul2r // mnorm_ge0.
rewrite -subr_ge0 => le; rewrite -subr_ge0.
have -> : mnorm (1%:M : 'M[R]_k) *+ 2 - mnorm W = 2%:R * (mnorm (1%:M : 'M[R]_k) + 2%:R^-1 * mnorm W - mnorm W).
  by rsn R; field; exact: two_neq0.
by rewrite mulr_ge0 // ler0n.
Qed.
Lemma near_small (B : R) : 0 <= B -> near (fun h : R => `|h| * B <= 2%:R^-1).
Proof.
move=> B0; have p1 : 0 < 1 + B by rewrite ltr_paddr ?ltr01.
have p2 : 0 < 2%:R * (1 + B) by rewrite mulr_gt0 // ltr0n.
exists ((2%:R * (1 + B))^-1); first by rewrite invr_gt0.
move=> h hd; apply: (@le_trans _ _ ((2%:R * (1 + B))^-1 * (1 + B))).
  by apply: ler_pmul => //; rewrite ler_addr ler01.
by rewrite invfM -mulrA mulVf ?mulr1 // gt_eqF.
Qed.
(** the inverse of a function close to the identity *)
Lemma exp2_inv1 k (F : R -> 'M[R]_k) F1 : exp2 F 1%:M F1 ->
  near (fun h => F h \in unitmx) /\ exp2 (fun h => invmx (F h)) 1%:M (- F1).
Proof.
move=> [G bG EF]; pose X h := F1 + h *: G h.
have bX : bnd X by apply: bnd_add; [exact: bnd_const | exact: bnd_h].
have EX : near (fun h => F h = 1%:M + h *: X h) by apply: near_imp EF _ => h ->; rewrite /X scalerDr scalerA addrA.
have [B B0 nB] := bX.
have U : near (fun h => [/\ F h = 1%:M + h *: X h, F h \in unitmx & mnorm (invmx (F h)) <= mnorm (1%:M : 'M[R]_k) *+ 2]).
  apply: near_imp (near_and (near_and EX nB) (near_small B0)) _ => h [[-> b] s].
  have [|u le] := @unit_bound k (X h) h; last by [].
  by apply: le_trans s; rewrite ler_wpmul2l.
split; first by apply: near_imp U _ => h [].
have bI : bnd (fun h => invmx (F h)).
  by exists (mnorm (1%:M : 'M[R]_k) *+ 2); [rewrite mulrn_wge0 // mnorm_ge0 | apply: near_imp U _ => h []].
exists (fun h => X h *m (X h *m invmx (F h)) - G h).
  apply: bnd_add; first by apply: bnd_mul => //; exact: bnd_mul.
  have [B' B'0 nB'] := bG; exists B' => //; apply: near_imp nB' _ => h; by rewrite -scaleN1r mnormZ normrN1 mul1r.
apply: near_imp U _ => h [E u _]; set W := invmx _.
have EW : W = 1%:M - h *: (X h *m W).
  have : F h *m W = 1%:M by rewrite mulmxV.
  by rewrite {1}E mulmxDl mul1mx -scalemxAl => <-; lmod; rsn R; ring.
rewrite {1}EW {1}EW mulmxBr mulmx1 -!scalemxAr {1}/X; lmod; rsn R; ring.
Qed.

(** ** derivatives *)
Lemma derivative_exp2 k l (V : R -> 'M[R]_(k, l)) s D : derivative V s D <-> exp2 (fun g => V (s + g)) (V s) D.
Proof.
split=> [[d [B [d0 H]]]|E]; last first.
  by have [B B0 [d d0 H]] := exp2_bound E; exists d, B.
exists (fun g => if g == 0 then 0 else (g * g)^-1 *: (V (s + g) - (V s + g *: D))); last first.
  apply: near_all => g; case: eqP => [->|/eqP nz]; first by rewrite addr0 scale0r !addr0 scaler0 addr0.
  by rewrite scalerA mulfV ?mulf_neq0 // scale1r [RHS]addrC subrK.
pose B' := \sum_(i < k) \sum_(j < l) `|B|.
have B'0 : 0 <= B' by rewrite sumr_ge0 // => i _; rewrite sumr_ge0.
exists B' => //; exists d => // g /H W; case: eqP => [_|/eqP nz].
  by rewrite /mnorm big1 // => i _; rewrite big1 // => j _; rewrite mxE normr0.
rewrite mnormZ normrV ?unitfE ?mulf_neq0 // mulrC ler_pdivr_mulr; last by rewrite normr_gt0 mulf_neq0.
rewrite /mnorm /B' mulr_suml; apply: ler_sum => i _; rewrite mulr_suml; apply: ler_sum => j _.
have -> : (V (s + g) - (V s + g *: D)) i j = V (s + g) i j - (V s + g *: D) i j by rewrite !mxE.
apply: le_trans (W i j) _; rewrite -expr2 normrX -normrX -normrM; exact: ler_norm.
Qed.
Lemma derivative_mul k l q (F : R -> 'M[R]_(k, l)) (G : R -> 'M[R]_(l, q)) s F1 G1 : derivative F s F1 -> derivative G s G1 ->
  derivative (fun s => F s *m G s) s (F s *m G1 + F1 *m G s).
Proof. by move=> /derivative_exp2 a /derivative_exp2 b; apply/derivative_exp2; exact: exp2_mul. Qed.
Lemma derivative_const k l (A : 'M[R]_(k, l)) s : derivative (fun _ => A) s 0.
Proof. by apply/derivative_exp2; exact: exp2_const. Qed.

(** ** one-parameter groups *)
Variable expm : forall n, 'M[R]_n -> 'M[R]_n.
Section Group.
Variables (k : nat) (M : 'M[R]_k).
Hypothesis HM : exponential_of expm M.
Local Notation E s := (expm (s *: M)).
Lemma group_add a b : E (a + b) = E a *m E b. Proof. by case: HM. Qed.
Lemma group0 : E 0 = 1%:M. Proof. by rewrite scale0r; case: HM => _ []. Qed.
Lemma group_nat h i : E (i.+1%:R * h) = E h *m E (i%:R * h).
Proof. by rewrite -group_add -[i.+1]add1n natrD mulrDl mul1r. Qed.
Lemma group_exp2 : exp2 (fun g => E g) 1%:M M.
Proof.
have [_ [_ D]] := HM; have := (derivative_exp2 _ _ _).1 D; rewrite group0.
by move=> [G bG EG]; exists G => //; apply: near_imp EG _ => h; rewrite add0r.
Qed.
Lemma group_derivative s : derivative (fun s => E s) s (M *m E s).
Proof.
apply/derivative_exp2; have := exp2_mul group_exp2 (exp2_const (E s)); rewrite mulmx0 add0r mul1mx.
by move=> [G bG EG]; exists G => //; apply: near_imp EG _ => h; rewrite [s + h]addrC group_add.
Qed.
End Group.
End Exp.

(** ** the backward pass *)
Section Riccati.
Variable R : realFieldType.
Add Ring Rr2 : (mc_ring R).
Add Field Rf2 : (mc_field R).
Variable expm : forall n, 'M[R]_n -> 'M[R]_n.
Variables n m : nat.
Variable q : clqr R n m.
Variable ult : 'M[R]_(m, n).
Hypothesis Hult : qULT q = Some ult.
Local Notation N := (qL q *m ult).
Local Notation H := (qham q N).
Hypothesis Hexp : exponential_of expm H.
Variable Q0 : 'M[R]_n.
Definition EE (t : R) : 'M[R]_(n + n) := expm (- t *: H).
Definition CD (t : R) : 'M[R]_(n + n, n) := EE t *m col_mx 1%:M Q0.
Definition val (t : R) : 'M[R]_n := dsubmx (CD t) *m invmx (usubmx (CD t)).
Lemma EE_add a b : EE (a + b) = EE a *m EE b.
Proof. by rewrite /EE opprD group_add. Qed.
Lemma EE0 : EE 0 = 1%:M.
Proof. by rewrite /EE oppr0 group0. Qed.
Lemma CD_add a b : CD (a + b) = EE a *m CD b.
Proof. by rewrite /CD EE_add mulmxA. Qed.
Lemma CD0 : CD 0 = col_mx 1%:M Q0. Proof. by rewrite /CD EE0 mul1mx. Qed.
Lemma val0 : val 0 = Q0. Proof. by rewrite /val CD0 col_mxKd col_mxKu invmx1 mulmx1. Qed.

Lemma EE_exp2 : exp2 EE 1%:M (- H).
Proof.
have [G [B B0 bG] EG] := group_exp2 Hexp; exists (fun g => G (- g)).
  by exists B => //; case: bG => d d0 bG; exists d => // h; rewrite -normrN => /bG.
by case: EG => d d0 EG; exists d => // h; rewrite -normrN => /EG; rewrite /EE => ->; rewrite scaleNr scalerN mulrNN.
Qed.
Lemma val_flow t g : usubmx (CD t) \in unitmx -> usubmx (EE g *m col_mx 1%:M (val t)) \in unitmx ->
  val (t + g) = dsubmx (EE g *m col_mx 1%:M (val t)) *m invmx (usubmx (EE g *m col_mx 1%:M (val t))).
Proof.
move=> u u'; set W := EE g *m _.
have E : CD (t + g) = W *m usubmx (CD t).
  by rewrite addrC CD_add /W -mulmxA mul_col_mx mul1mx /val mulmxKV // vsubmxK.
have iE : invmx (usubmx W *m usubmx (CD t)) = invmx (usubmx (CD t)) *m invmx (usubmx W).
  have uu : usubmx W *m usubmx (CD t) \in unitmx by rewrite unitmx_mul u u'.
  by apply: (unit_inj uu); rewrite mulmxV // -mulmxA [_ *m (invmx _ *m _)]mulmxA mulmxV // mul1mx mulmxV.
by rewrite {1}/val E -(mul_dsub_mx W) -(mul_usub_mx W) iE -!mulmxA; congr (_ *m _); rewrite mulmxA mulmxV // mul1mx.
Qed.
Theorem val_derivative t : usubmx (CD t) \in unitmx -> derivative val t (- qriccati q N (val t)).
Proof.
move=> u; apply/derivative_exp2.
pose W g := EE g *m col_mx 1%:M (val t).
have eW : exp2 W (col_mx 1%:M (val t)) (- H *m col_mx 1%:M (val t)).
  by have := exp2_mul EE_exp2 (exp2_const (col_mx 1%:M (val t))); rewrite mulmx0 add0r mul1mx.
have HW : - H *m col_mx 1%:M (val t) = col_mx (- qF q + N *m val t) (qX q + (qF q)^T *m val t).
  by rewrite /qham opp_block_mx mul_block_col !opprK !mulmx1.
rewrite HW in eW.
have sub r (f : 'M[R]_(r, n + n)) : exp2 (fun g => f *m W g) (f *m col_mx 1%:M (val t)) (f *m col_mx (- qF q + N *m val t) (qX q + (qF q)^T *m val t)).
  by have := exp2_mul (exp2_const f) eW; rewrite mul0mx addr0.
have eU : exp2 (fun g => usubmx (W g)) 1%:M (- qF q + N *m val t).
  have := sub n (row_mx 1%:M 0); rewrite !mul_row_col !mul1mx !mul0mx !addr0.
  by move=> [G bG EG]; exists G => //; apply: near_imp EG _ => h; rewrite -{1}[W h]vsubmxK mul_row_col mul1mx mul0mx addr0.
have eD : exp2 (fun g => dsubmx (W g)) (val t) (qX q + (qF q)^T *m val t).
  have := sub n (row_mx 0 1%:M); rewrite !mul_row_col !mul1mx !mul0mx !add0r.
  by move=> [G bG EG]; exists G => //; apply: near_imp EG _ => h; rewrite -{1}[W h]vsubmxK mul_row_col mul1mx mul0mx add0r.
have [uU eI] := exp2_inv1 eU.
have [G bG EG] := exp2_mul eD eI.
exists G => //; apply: near_imp (near_and EG uU) _ => g [E u']; rewrite val_flow // E mulmx1; congr (_ + _ *: _ + _).
rewrite /qriccati mulmxN mulmxDr mulmxN mulmxA !mulNmx mulmx1; abel.
Qed.

(** symmetry *)
Hypothesis Hnat : natural_exp expm.
Hypotheses (sU : symm (qU q)) (sX : symm (qX q)) (sQ : symm Q0).
Hypothesis pU : pd (qU q).
Lemma ultE : ult = invmx (qU q) *m (qL q)^T.
Proof. by move: Hult; rewrite /qULT solve_posE // => -[]. Qed.
Lemma symm_N : symm N.
Proof. by rewrite /symm ultE !trmx_mul trmxK trmx_inv sU mulmxA. Qed.
Definition JJ : 'M[R]_(n + n) := block_mx 0 1%:M (- 1%:M) 0.
Lemma symplectic t : (EE t)^T *m JJ *m EE t = JJ.
Proof.
have I : H^T *m JJ = JJ *m (- H).
  rewrite /qham /JJ tr_block_mx opp_block_mx !mulmx_block !linearN /= trmxK sX symm_N.
  by rewrite !mulmx0 !mul0mx !addr0 !add0r !mulmx1 !mulNmx !mul1mx ?oppr0 ?opprK ?oppr0 ?opprK ?addr0 ?add0r ?opprK.
have E : (EE (- t))^T *m JJ = JJ *m EE t.
  case: Hnat => ht hi; rewrite /EE -ht; apply: hi.
  by rewrite opprK linearZ /= -scalemxAl I -scalemxAr mulmxN scalerN scaleNr.
by rewrite -mulmxA -E mulmxA -trmx_mul -EE_add addNr EE0 trmx1 mul1mx.
Qed.
Theorem val_symm t : usubmx (CD t) \in unitmx -> symm (val t).
Proof.
move=> u; have : (CD t)^T *m JJ *m CD t = 0.
  rewrite /CD trmx_mul -!mulmxA [JJ *m _]mulmxA [(EE t)^T *m _]mulmxA [(EE t)^T *m _]mulmxA symplectic /JJ.
  rewrite tr_col_mx mul_block_col !mul0mx !mulNmx !mul1mx add0r addr0 mul_row_col trmx1 mul1mx sQ mulmxN mulmx1; exact: subrr.
rewrite -{1 2}[CD t]vsubmxK tr_col_mx /JJ -mulmxA mul_block_col !mul0mx !mulNmx !mul1mx add0r addr0 mul_row_col mulmxN.
move=> /eqP; rewrite subr_eq0 => /eqP E.
rewrite /symm /val trmx_mul trmx_inv.
have ut : (usubmx (CD t))^T \in unitmx by rewrite unitmx_tr.
by apply: (unit_inj ut); rewrite mulKVmx // mulmxA E mulmxK.
Qed.

(** the loop *)
Lemma exact_loop dt k i acc r : qbwd_exact ult (EE dt) k (CD (i%:R * dt)) acc = Some r ->
  (forall j, (i < j <= i + k)%N -> usubmx (CD (j%:R * dt)) \in unitmx) /\
  r = ([seq ult *m val ((i + j)%:R * dt) | j <- rev (iota 1 k)] ++ acc.1, [seq val ((i + j)%:R * dt) | j <- rev (iota 1 k)] ++ acc.2).
Proof.
elim: k i acc => [|k IH] i acc.
  by case=> <-; split; [move=> j; lia | case: acc].
rewrite /qbwd_exact -/qbwd_exact.
have C1 : EE dt *m CD (i%:R * dt) = CD (i.+1%:R * dt) by rewrite -CD_add -[i.+1]add1n natrD mulrDl mul1r.
rewrite C1; case E: (solve _ _) => [Q'|]; last by [].
rewrite obindS; have [ut _] := (solveP _ _ _).1 E; rewrite (solve_unit _ ut) in E; case: E => E.
have u : usubmx (CD (i.+1%:R * dt)) \in unitmx by rewrite -unitmx_tr.
have {E} EQ : symz Q' = val (i.+1%:R * dt).
  have -> : Q' = val (i.+1%:R * dt) by rewrite -E -[RHS](val_symm u) /val trmx_mul trmx_inv.
  rewrite /symz (val_symm u) -mulr2n -scaler_nat scalerA mulVf ?pnatr_eq0 // scale1r.
  by [].
rewrite EQ => /IH [U ->]; split.
  by move=> j Hj; case: (ltngtP j i.+1) => [||->] //; [lia | move=> lt; apply: U; lia].
have -> : rev (iota 1 k.+1) = rcons [seq j.+1 | j <- rev (iota 1 k)] 1%N by rewrite -[iota 1 k.+1]/(1%N :: iota (1 + 1) k) rev_cons iotaDl map_rev.
rewrite !map_rcons -!cats1 -!catA -!map_comp /= addn1.
by congr (_ ++ _, _ ++ _); apply: eq_map => j /=; rewrite addSnnS.
Qed.
Lemma nth_rev_map {X} (x0 : X) (f : nat -> X) k i : (i < k)%N -> nth x0 [seq f j | j <- rev (iota 1 k)] i = f (k - i)%N.
Proof.
move=> lt; rewrite (nth_map 0%N) ?size_rev ?size_iota // nth_rev ?size_iota // nth_iota; last by lia.
by congr f; lia.
Qed.
End Riccati.

Section Exact.
Variable R : realFieldType.
Variable expm : forall n, 'M[R]_n -> 'M[R]_n.
Variables n m : nat.
Variable q : clqr R n m.
Hypothesis Hnat : natural_exp expm.

Theorem exact_backward_l (Q : option 'M[R]_n) :
  let Q0 := if Q is Some Q' then Q' else qXT q in
  let N := qL q *m invmx (qU q) *m (qL q)^T in
  symm (qU q) -> pd (qU q) -> symm (qX q) -> symm Q0 ->
  exponential_of expm (block_mx (qF q) (- N) (- qX q) (- (qF q)^T)) ->
  exists V, V 0 = Q0 /\
  forall steps dt Ks Ss, clqr_seqBackwardPass expm q steps dt Q Exact = Some (Ks, Ss) ->
  exists h, [/\ (if dt is Some h' then h = h' else h = qT q / steps%:R), size Ks = steps, size Ss = steps.+1 &
  forall i, (i <= steps)%N -> let s := (steps - i)%:R * h in
    [/\ nth 0 Ss i = V s, symm (V s), (i < steps)%N -> nth 0 Ks i = invmx (qU q) *m (qL q)^T *m V s
      & derivative V s ((qF q)^T *m V s + V s *m qF q - V s *m N *m V s + qX q)]].
Proof.
move=> Q0 N sU pU sX sQ He.
have Eu : qULT q = Some (invmx (qU q) *m (qL q)^T) by rewrite /qULT solve_posE.
set ult := invmx (qU q) *m (qL q)^T in Eu.
have EH : qham q (qL q *m ult) = block_mx (qF q) (- N) (- qX q) (- (qF q)^T) by rewrite /qham /ult mulmxA.
rewrite -EH in He.
exists (val expm q ult Q0); split; first exact: val0.
move=> steps dt Ks Ss; rewrite /clqr_seqBackwardPass.
case Ed: (qdt_or q dt _) => [h|]; last by [].
rewrite obindS Eu obindS -[or_else Q (qXT q)]/Q0.
have -> : expm (- h *: qham q (qL q *m ult)) = EE expm q ult h by [].
have -> : col_mx 1%:M Q0 = CD expm q ult Q0 (0%:R * h) by rewrite mul0r CD0.
move=> /(exact_loop Eu He Hnat sU sX sQ pU) [U /= [-> ->]]; exists h.
split.
- by case: dt Ed => [h'|] /=; [case | case: eqP => // _ [<-]].
- by rewrite cats0 size_map size_rev size_iota.
- by rewrite size_cat size_map size_rev size_iota addn1.
move=> i le; set s := _ * h.
have us : usubmx (CD expm q ult Q0 s) \in unitmx.
  rewrite /s; case: (ltngtP i steps) le => // [lt _|-> _]; first by apply: U; lia.
  by rewrite subnn mul0r CD0 // col_mxKu unitmx1.
have eN : qL q *m ult = N by rewrite /N /ult mulmxA.
have nthS : nth 0 ([seq val expm q ult Q0 ((0 + j)%:R * h) | j <- rev (iota 1 steps)] ++ [:: Q0]) i = val expm q ult Q0 s.
  rewrite /s nth_cat size_map size_rev size_iota; case: (ltngtP i steps) le => // [lt _|-> _].
    by rewrite (nth_rev_map 0 (fun j => val expm q ult Q0 ((0 + j)%:R * h))).
  by rewrite subnn mul0r val0.
split=> //.
- exact: (val_symm Eu He Hnat sU sX sQ pU us).
- by move=> lt; rewrite cats0 (nth_rev_map 0 (fun j => ult *m val expm q ult Q0 ((0 + j)%:R * h))).
have := val_derivative He us; rewrite /qriccati eN; congr (derivative _ _ _); rewrite !mulNmx; abel.
Qed.

(** ** the forward pass *)
Lemma expm_block k l (F : 'M[R]_k) (G : 'M[R]_(k, l)) (D : 'M[R]_l) s :
  expm (s *: block_mx F G 0 D) *m col_mx 1%:M 0 = col_mx (expm (s *: F)) 0.
Proof.
have -> : expm (s *: block_mx F G 0 D) *m col_mx 1%:M 0 = col_mx 1%:M 0 *m expm (s *: F).
  by case: Hnat => _ H; apply: H; rewrite -scalemxAl mul_block_col !mulmx1 !mulmx0 !addr0 mul_col_mx mul1mx mul0mx scale_col_mx scaler0.
by rewrite mul_col_mx mul1mx mul0mx.
Qed.
Lemma expm_ul k l (F : 'M[R]_k) (G : 'M[R]_(k, l)) (D : 'M[R]_l) s : ulsubmx (expm (s *: block_mx F G 0 D)) = expm (s *: F).
Proof.
have := expm_block F G D s; rewrite -{1}[expm (s *: block_mx _ _ _ _)]submxK mul_block_col !mulmx1 !mulmx0 !addr0.
by move=> /eq_col_mx [].
Qed.
Lemma expm_low k (F : 'M[R]_n) (G : 'M[R]_(n, k)) s : dsubmx (expm (s *: block_mx F G 0 0)) = row_mx 0 (expm (0 : 'M[R]_k)).
Proof.
have : row_mx 0 1%:M *m expm (s *: block_mx F G 0 0) = expm (0 : 'M[R]_k) *m row_mx 0 1%:M.
  case: Hnat => _ H; apply/esym; apply: H; rewrite mul0mx -scalemxAr mul_row_block !mul0mx !mulmx0 !addr0 row_mx0 scaler0 //.
rewrite -{1}[expm (s *: _)]vsubmxK mul_row_col mul0mx add0r mul1mx => ->.
by rewrite mul_mx_row mulmx0 mulmx1.
Qed.

Theorem exact_forward_l x0 Ks dt zoh us xs :
  (if zoh then exponential_of expm (block_mx (qF q) (qL q) 0 (0 : 'M[R]_m))
   else forall K, K \in Ks -> exponential_of expm (qF q - qL q *m K)) ->
  clqr_seqForwardPass expm q x0 Ks dt Exact zoh = Some (us, xs) ->
  exists h, [/\ (if dt is Some h' then h = h' else h = qT q / (size Ks)%:R), size us = size Ks, size xs = (size Ks).+1, nth 0 xs 0 = x0 &
  forall i, (i < size Ks)%N ->
    nth 0 us i = - nth 0 Ks i *m nth 0 xs i /\
    exists phi, [/\ phi 0 = nth 0 xs i, phi h = nth 0 xs i.+1 & forall s,
      derivative phi s (qF q *m phi s + qL q *m (if zoh then nth 0 us i else - nth 0 Ks i *m phi s))]].
Proof.
move=> He; rewrite /clqr_seqForwardPass; case Ed: (qdt_or q dt _) => [h|]; last by [].
rewrite obindS.
have step K u x : K \in Ks -> exists x' phi, [/\ qfwd_exact expm q h zoh K u x = Some x', phi 0 = x, phi h = x' & forall s,
    derivative phi s (qF q *m phi s + qL q *m (if zoh then u else - K *m phi s))].
  move=> iK; rewrite /qfwd_exact /lti_disc_u /lti_disc; case: zoh He => He; last first.
    have HK := He K iK; exists (expm (h *: (qF q - qL q *m K)) *m x), (fun s => expm (s *: (qF q - qL q *m K)) *m x); split=> //.
      by rewrite group0 // mul1mx.
    move=> s; have := derivative_mul (group_derivative HK s) (derivative_const x s).
    rewrite mulmx0 add0r; congr (derivative _ _ _).
    by rewrite -mulmxA mulmxBl mulNmx mulmxN [qL q *m (K *m _)]mulmxA.
  set Psi := block_mx (qF q) (qL q) 0 0 in He *.
  pose phi s := usubmx (expm (s *: Psi) *m col_mx x u).
  have e0 : expm (0 : 'M[R]_m) = 1%:M.
    have := expm_low (qF q) (qL q) 0; rewrite -/Psi (group0 He) scalar_mx_block block_mxEv col_mxKd.
    by move=> /(congr1 rsubmx); rewrite !row_mxKr.
  have low s : dsubmx (expm (s *: Psi) *m col_mx x u) = u.
    by rewrite -mul_dsub_mx expm_low e0 mul_row_col mul0mx mul1mx add0r.
  exists (phi h), phi; split=> //.
  - rewrite expm_ul /phi -(expm_ul (qF q) (qL q) 0) -/Psi.
    by rewrite -{3}[expm (h *: Psi)]submxK mul_block_col col_mxKu.
  - by rewrite /phi group0 // mul1mx col_mxKu.
  move=> s; have D := derivative_mul (group_derivative He s) (derivative_const (col_mx x u) s).
  have := derivative_mul (derivative_const (row_mx 1%:M 0 : 'M[R]_(n, n + m)) s) D.
  rewrite mul0mx addr0 mulmx0 add0r.
  have top (M : 'M[R]_(n + m, 1)) : row_mx 1%:M 0 *m M = usubmx M by rewrite -{1}[M]vsubmxK mul_row_col mul1mx mul0mx addr0.
  have -> : row_mx 1%:M 0 *m (Psi *m expm (s *: Psi) *m col_mx x u) = qF q *m phi s + qL q *m u.
    rewrite top -mulmxA -{1}[expm (s *: Psi) *m _]vsubmxK low /Psi mul_block_col !mul0mx addr0.
    by rewrite col_mxKu.
  move=> [d [B [d0 H]]]; exists d, B; split=> // g lg; have := H g lg; by rewrite !top.
have loop l x r : {subset l <= Ks} -> qfwd_loop (qfwd_exact expm q h zoh) l x = Some r ->
    [/\ size r.1 = size l, size r.2 = size l & forall i, (i < size l)%N ->
    nth 0 r.1 i = - nth 0 l i *m nth 0 (x :: r.2) i /\
    exists phi, [/\ phi 0 = nth 0 (x :: r.2) i, phi h = nth 0 (x :: r.2) i.+1 & forall s,
      derivative phi s (qF q *m phi s + qL q *m (if zoh then nth 0 r.1 i else - nth 0 l i *m phi s))]].
  elim: l x r => [|K l IH] x r sub; first by case=> <-.
  rewrite -[qfwd_loop _ (K :: l) x]/(let? x' := qfwd_exact expm q h zoh K (- K *m x) x in
    let? '(us, xs) := qfwd_loop (qfwd_exact expm q h zoh) l x' in Some (- K *m x :: us, x' :: xs)).
  have [x' [phi [-> p0 ph pd]]] := step K (- K *m x) x (sub K (mem_head _ _)).
  rewrite obindS; case E: (qfwd_loop (qfwd_exact expm q h zoh) _ _) => [[us' xs']|]; last by [].
  rewrite obindS => -[<-]; have [|s1 s2 N] := IH x' _ _ E; first by move=> z zl; apply: sub; rewrite inE zl orbT.
  rewrite /= s1 s2; split=> // -[|i] lt; last exact: N.
  by split=> //; exists phi.
case E: (qfwd_loop (qfwd_exact expm q h zoh) _ _) => [[us' xs']|]; last by [].
rewrite obindS => -[<- <-]; have [//|s1 s2 N] := loop _ _ _ _ E; exists h; split=> //=.
- by case: dt Ed => [h'|] /=; [case | case: eqP => // _ [<-]].
- by rewrite s2.
Qed.
End Exact.
