(** The scan of the parallel backward pass is stable: elements near the exact ones are combined into elements near the exact ones. *)
From Coq Require Import Reals Lra.
From mathcomp Require Import all_ssreflect all_algebra zify.
From Verif Require Import RealF MxBase LqtModel LqtCore ScanModel ScanSeg ClqtFwd2 ClqtModel ClqtSpec ClqtPack ClqrModel ClqrSpec ClqrExact ClqrPar ClqrElem RealExpSpec RealExp RealAssm ClqrOptSpec ClqrOpt RkConvA RkConvSpec RkConv RkConvP ParConvA.
Import Order.TTheory GRing.Theory Num.Theory.
Set Implicit Arguments. Unset Strict Implicit. Unset Printing Implicit Defensive.
Local Open Scope ring_scope.
Delimit Scope R_scope with Re.

Section Comb.
Variable n : nat.
Implicit Types e f g : elem Rf n.
Definition ed e f : Rf := nrm (eA e - eA f) + (nrm (eC e - eC f) + nrm (eJ e - eJ f)).
Lemma edA e f eps : ed e f <= eps -> nrm (eA e - eA f) <= eps.
Proof. by apply: le_trans; rewrite ler_addl addr_ge0 ?nrm_ge0. Qed.
Lemma edC e f eps : ed e f <= eps -> nrm (eC e - eC f) <= eps.
Proof. by apply: le_trans; rewrite /ed addrCA ler_addl addr_ge0 ?nrm_ge0. Qed.
Lemma edJ e f eps : ed e f <= eps -> nrm (eJ e - eJ f) <= eps.
Proof. by apply: le_trans; rewrite /ed addrA ler_addr addr_ge0 ?nrm_ge0. Qed.
Lemma ed_ge0 e f : 0 <= ed e f. Proof. by rewrite /ed !addr_ge0 ?nrm_ge0. Qed.
Definition cL e f := 1%:M + eC e *m eJ f.
Definition cR e f := 1%:M + eJ f *m eC e.
Definition cA e f := eA f *m (invmx (cL e f) *m eA e).
Definition cC e f := eA f *m (invmx (cL e f) *m (eC e *m (eA f)^T)) + eC f.
Definition cJ e f := (eA e)^T *m (invmx (cR e f) *m (eJ f *m eA e)) + eJ e.
Lemma combine_units e f : cL e f \in unitmx -> cR e f \in unitmx ->
  exists2 g, combine_abcej e f = Some g & [/\ eA g = cA e f, eC g = cC e f & eJ g = cJ e f].
Proof.
rewrite /cA /cC /cJ => u v; rewrite /combine_abcej -/(cL e f) -/(cR e f) !(solve_unit _ u) !obindS !(solve_unit _ v) !obindS; by eexists.
Qed.
Lemma combine_inv e f g : combine_abcej e f = Some g ->
  [/\ cL e f \in unitmx, cR e f \in unitmx & [/\ eA g = cA e f, eC g = cC e f & eJ g = cJ e f]].
Proof.
rewrite {1}/combine_abcej -/(cL e f) -/(cR e f).
case E1: (solve (cL e f) (eA e)) => [x1|] //; have [u _] := (solveP _ _ _).1 E1; rewrite !(solve_unit _ u) !obindS.
case E2: (solve (cR e f) (eeta f - eJ f *m eb e)) => [y1|] //; have [v _] := (solveP _ _ _).1 E2; rewrite !(solve_unit _ v) !obindS => -[<-].
by split=> //; split=> //=; move: E1; rewrite (solve_unit _ u) => -[<-].
Qed.
Variables e0 f0 g0 : elem Rf n.
Hypothesis C0 : combine_abcej e0 f0 = Some g0.
Definition nearby (eps : Rf) (x : elem Rf n * elem Rf n) : Prop := ed x.1 e0 <= eps /\ ed x.2 f0 <= eps.
Lemma combine_lip : exists2 L, 0 <= L & forall eps e f, 0 <= eps -> eps * L <= 1 -> ed e e0 <= eps -> ed f f0 <= eps ->
  exists2 g, combine_abcej e f = Some g & ed g g0 <= L * eps.
Proof.
have [u v [EA EC EJ]] := combine_inv C0.
pose lp k l := @lip (elem Rf n * elem Rf n) nearby k l.
have one k l (F : elem Rf n * elem Rf n -> 'M[Rf]_(k, l)) y : (forall eps x, nearby eps x -> nrm (F x - y) <= eps) -> lp k l F y.
  by move=> H; exists 1; rewrite ?ler01 // => eps x e0' _ hn; rewrite mul1r; exact: H.
have A1 : lp _ _ (fun x => eA x.1) (eA e0) by apply: one => eps x [h _]; exact: edA.
have A2 : lp _ _ (fun x => eA x.2) (eA f0) by apply: one => eps x [_ h]; exact: edA.
have C1 : lp _ _ (fun x => eC x.1) (eC e0) by apply: one => eps x [h _]; exact: edC.
have C2 : lp _ _ (fun x => eC x.2) (eC f0) by apply: one => eps x [_ h]; exact: edC.
have J1 : lp _ _ (fun x => eJ x.1) (eJ e0) by apply: one => eps x [h _]; exact: edJ.
have J2 : lp _ _ (fun x => eJ x.2) (eJ f0) by apply: one => eps x [_ h]; exact: edJ.
have LL : lp _ _ (fun x => cL x.1 x.2) (cL e0 f0) by apply: lip_add (lip_cst _ _) (lip_mul C1 J2).
have LR : lp _ _ (fun x => cR x.1 x.2) (cR e0 f0) by apply: lip_add (lip_cst _ _) (lip_mul J2 C1).
have [IL [LLu LLu0 HLL]] := lip_inv LL u; have [IR [LRu LRu0 HLR]] := lip_inv LR v.
have [a a0 HA] : lp _ _ (fun x => cA x.1 x.2) (cA e0 f0) by exact: lip_mul A2 (lip_mul IL A1).
have [c c0 HC] : lp _ _ (fun x => cC x.1 x.2) (cC e0 f0) by exact: lip_add (lip_mul A2 (lip_mul IL (lip_mul C1 (lip_tr A2)))) C2.
have [j j0 HJ] : lp _ _ (fun x => cJ x.1 x.2) (cJ e0 f0) by exact: lip_add (lip_mul (lip_tr A1) (lip_mul IR (lip_mul J2 A1))) J1.
exists (LLu + (LRu + (a + (c + j)))) => [|eps e f eps0 hl he hf]; first by rewrite !addr_ge0.
have dom L : L <= LLu + (LRu + (a + (c + j))) -> eps * L <= 1 by move=> le; exact: lip_dom le eps0 hl.
have hn : nearby eps (e, f) by [].
have uL : cL e f \in unitmx by apply: (HLL eps (e, f)) => //; apply: dom; rewrite ler_addl !addr_ge0.
have uR : cR e f \in unitmx by apply: (HLR eps (e, f)) => //; apply: dom; rewrite addrCA ler_addl !addr_ge0.
have [g Eg [gA gC gJ]] := combine_units uL uR; exists g => //.
rewrite /ed gA gC gJ EA EC EJ; apply: (@le_trans _ _ ((a + (c + j)) * eps)); last by rewrite ler_wpmul2r // [X in _ <= X]addrA ler_addr !addr_ge0.
have ha := HA eps (e, f) eps0 (dom a _) hn; have hc := HC eps (e, f) eps0 (dom c _) hn; have hj := HJ eps (e, f) eps0 (dom j _) hn.
rewrite !mulrDl; apply: ler_add; first by apply: ha; rewrite !addrA; apply: ler_paddr => //; apply: ler_paddr => //; rewrite ler_addr !addr_ge0.
apply: ler_add; first by apply: hc; rewrite !addrA; apply: ler_paddr => //; rewrite ler_addr !addr_ge0.
by apply: hj; rewrite !addrA ler_addr !addr_ge0.
Qed.
End Comb.

(** a scan of elements near a family that is closed under the combination of adjacent segments *)
Section Scan.
Variables (n B : nat) (ex : nat -> nat -> elem Rf n).
Hypothesis exC : forall i j k, (i < j)%N -> (j < k)%N -> (k <= B)%N -> combine_abcej (ex i j) (ex j k) = Some (ex i k).
Lemma comb_unif : exists2 L, 1 <= L & forall i j k, (i < j)%N -> (j < k)%N -> (k <= B)%N -> forall eps e f, 0 <= eps -> eps * L <= 1 ->
  ed e (ex i j) <= eps -> ed f (ex j k) <= eps -> exists2 g, combine_abcej e f = Some g & ed g (ex i k) <= L * eps.
Proof.
pose P i j k (L : Rf) := (i < j)%N -> (j < k)%N -> (k <= B)%N -> forall eps e f, 0 <= eps -> eps * L <= 1 ->
  ed e (ex i j) <= eps -> ed f (ex j k) <= eps -> exists2 g, combine_abcej e f = Some g & ed g (ex i k) <= L * eps.
have mono i j k L L' : L <= L' -> P i j k L -> P i j k L'.
  move=> le H h1 h2 h3 eps e f e0 hl he hf; have [g E hg] := H h1 h2 h3 eps e f e0 (lip_dom le e0 hl) he hf.
  by exists g => //; exact: lip_weak hg.
have [|i iB|L L0 HL] := @fin_unif (fun i L => forall j k, (j < B.+1)%N -> (k < B.+1)%N -> P i j k L) B.+1.
- by move=> i L L' le H j k hj hk; exact: mono (H j k hj hk).
- have [|j jB|L L0 HL] := @fin_unif (fun j L => forall k, (k < B.+1)%N -> P i j k L) B.+1.
  + by move=> j L L' le H k hk; exact: mono (H k hk).
  + have [|k kB|L L0 HL] := @fin_unif (fun k L => P i j k L) B.+1; first by move=> k L L'; exact: mono.
      case: (ltnP i j) => h1; last by exists 0 => h; move: h1; rewrite leqNgt h.
      case: (ltnP j k) => h2; last by exists 0 => _ h; move: h2; rewrite leqNgt h.
      by have [L L0 HL] := combine_lip (exC h1 h2 kB); exists L => _ _ _.
    by exists L => k hk; exact: HL.
  by exists L => j k hj hk; exact: HL.
exists (Order.max 1 L); first by rewrite le_maxr lexx.
move=> i j k h1 h2 h3; have [hi hj hk] : [/\ (i < B.+1)%N, (j < B.+1)%N & (k < B.+1)%N] by split; lia.
by apply: (mono i j k L _ _ (HL i hi j k hj hk)) h1 h2 h3; rewrite le_maxr lexx orbT.
Qed.
Theorem scan_stable : exists2 L, 0 <= L & forall eps (es : seq (elem Rf n)), 0 <= eps -> eps * L <= 1 -> es <> [::] -> size es = B ->
  (forall i e, List.nth_error es i = Some e -> ed e (ex i i.+1) <= eps) ->
  exists r, par_backward_pass_scan es = Some r /\ size r = B /\ forall k e, List.nth_error r k = Some e -> ed e (ex k B) <= L * eps.
Proof.
have [L L1 HL] := comb_unif.
have L0 : 0 <= L by exact: le_trans ler01 L1.
exists (L ^+ B.+1); first exact: exprn_ge0.
move=> eps es e0 hl nz sz he.
pose Inv i j e := ed e (ex i j) <= L ^+ (j - i) * eps.
have [||r [E [sr Hr]]] := @scan_seg _ (@combine_abcej Rf n) Inv es true nz.
- move=> i j k x y /ssrnat.ltP ij /ssrnat.ltP jk; rewrite -[length es]/(size es) sz => /ssrnat.leP kB hx hy.
  have d : 0 <= L ^+ (k - i).-1 * eps by rewrite mulr_ge0 ?exprn_ge0.
  have p a : (a <= (k - i).-1)%N -> L ^+ a * eps <= L ^+ (k - i).-1 * eps by move=> le; rewrite ler_wpmul2r // ler_weexpn2l.
  have [|||g E hg] := HL i j k ij jk kB (L ^+ (k - i).-1 * eps) x y d.
  + rewrite mulrAC -exprSr mulrC; apply: le_trans hl; rewrite ler_wpmul2l // ler_weexpn2l //; lia.
  + by apply: le_trans hx _; apply: p; lia.
  + by apply: le_trans hy _; apply: p; lia.
  exists g; split=> //; apply: le_trans hg _; rewrite mulrA -exprS prednK //; lia.
- move=> i x hx; rewrite /Inv subSnn expr1; apply: le_trans (he i x hx) _; by rewrite ler_pemull.
exists r; split=> //; split; first by rewrite -sz.
move=> k e hk; have h : Inv k (size es) e := Hr k e hk; rewrite /Inv sz in h; apply: le_trans h _; rewrite ler_wpmul2r // ler_weexpn2l //; lia.
Qed.
End Scan.

(** the exact family of the regulator *)
Section Exact.
Variables n m : nat.
Variable q : clqr Rf n m.
Hypotheses (sU : symm (qU q)) (pU : pd (qU q)) (sX : symm (qX q)) (pX : psd (qX q)) (sT : symm (qXT q)) (pT : psd (qXT q)).
Local Notation ulT := (ulT q).
Local Notation W := (val expmR q ulT (qXT q)).
Variable B : nat.
Variable tau : Rf.
Hypothesis tau0 : 0 <= tau.
Definition exf (i j : nat) : elem Rf n :=
  if (j <= B)%N then exact_elem expmR q ulT ((j - i)%:R * tau) else Elem 0 0 0 0 (W ((B - i)%:R * tau)).
Lemma tpos i : 0 <= i%:R * tau. Proof. by rewrite mulr_ge0 ?ler0n. Qed.
Lemma proj_fact (X Y : 'M[Rf]_(n + n, n)) (M : 'M[Rf]_n) : X = Y *m M -> usubmx Y \in unitmx ->
  dsubmx X = dsubmx Y *m invmx (usubmx Y) *m usubmx X.
Proof. by move=> -> u; rewrite -mul_usub_mx -mul_dsub_mx mulmxA mulmxKV. Qed.
Lemma W_flow (a t : Rf) : 0 <= a -> 0 <= t -> usubmx (CD expmR q ulT (W a) t) \in unitmx /\ W (a + t) = val expmR q ulT (W a) t.
Proof.
move=> a0 t0; have ua := unit_CD sU pU pX pT a0; have uat := unit_CD sU pU pX pT (addr_ge0 a0 t0).
have E : CD expmR q ulT (qXT q) (a + t) = CD expmR q ulT (W a) t *m usubmx (CD expmR q ulT (qXT q) a).
  by rewrite addrC CD_add; [rewrite /CD -mulmxA mul_col_mx mul1mx /val mulmxKV // vsubmxK | exact: expmR_group].
have u : usubmx (CD expmR q ulT (W a) t) \in unitmx.
  by move: uat; rewrite E -mul_usub_mx unitmx_mul => /andP [].
split=> //; apply: (can_inj (mulmxK uat)); rewrite {1}/val mulmxKV //; exact: (proj_fact E u).
Qed.
Lemma exf_comb i j k : (i < j)%N -> (j < k)%N -> (k <= B.+1)%N -> combine_abcej (exf i j) (exf j k) = Some (exf i k).
Proof.
move=> ij jk kB; have hult := ultS sU pU; have hexp := expmR_group (qham q (qL q *m ulT)).
rewrite /exf (_ : (j <= B)%N); last by lia.
case: leqP => kB'.
  have -> : (k - i)%:R * tau = (j - i)%:R * tau + (k - j)%:R * tau.
    by rewrite -mulrDl -natrD; congr (_%:R * _); lia.
  by apply: (combine_exact hult hexp expmR_natural sU sX pU); apply: goodt => //; rewrite ?addr_ge0 ?tpos.
have [u E] := @W_flow ((B - j)%:R * tau) ((j - i)%:R * tau) (tpos _) (tpos _).
have -> : (B - i)%:R * tau = (B - j)%:R * tau + (j - i)%:R * tau.
  by rewrite -mulrDl -natrD; congr (_%:R * _); lia.
rewrite E; apply: (combine_val hult hexp expmR_natural sU sX pU) => //; first by apply: goodt => //; exact: tpos.
by apply: W_symm => //; exact: tpos.
Qed.
End Exact.
