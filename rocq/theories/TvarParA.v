(** Tools for the parallel backward pass with time-varying data: convergence from a perturbed start, and stability of the
    scan for all five parts of the elements. *)
From Coq Require Import Reals.
From mathcomp Require Import all_ssreflect all_algebra zify.
From Verif Require Import RealF MxBase LqtModel LqtCore ScanModel ScanSeg ClqtModel ClqtSpec ClqtPack ClqtFwd2 RealExpSpec RealExp ClqrOpt RealDisc RkConvA RkConvC RkConv RkConvP
  FbConvC TvarSpec TvarRk TvarPack ParConvB.
Import Order.TTheory GRing.Theory Num.Theory.
Set Implicit Arguments. Unset Strict Implicit. Unset Printing Implicit Defensive.
Local Open Scope ring_scope.
Delimit Scope R_scope with Re.

Section Rk.
Variables k l : nat.
Local Notation V := (matrix_lmodType Rf k l).
Variables (f : V -> Rf -> V) (z : R -> V) (T : Rf).
Hypothesis T0 : 0 <= T.
Hypothesis flip : forall M : Rf, exists2 L : Rf, 0 <= L & forall x y s t, nrm x <= M -> nrm y <= M -> 0 <= s <= T -> 0 <= t <= T ->
  nrm (f x s) <= L /\ nrm (f x s - f y t) <= L * (nrm (x - y) + `|s - t|).
Hypothesis zc : forall t : Rf, 0 <= t <= T -> mcont z t.
Hypothesis zd : forall t : Rf, 0 < t < T -> mderiv z t (f (z t) t).
Theorem rk_order1_from (E0 : Rf) : 0 <= E0 -> exists2 D, 0 <= D & forall N, (0 < N)%N -> D <= N%:R -> forall xs : nat -> V,
  let h := T / N%:R in nrm (xs 0%N - z 0) <= E0 / N%:R ->
  (forall i, (i < N)%N -> nrm (xs i.+1 - z (i.+1%:R * h)%R) <= nrm (tstp f h (xs i) (i%:R * h) - z (i.+1%:R * h)%R)) ->
  forall i, (i <= N)%N -> nrm (xs i - z (i%:R * h)%R) <= D / N%:R.
Proof.
move=> E00; have [M M0 HM] := bounded_on T0 zc; have [C C0 HC] := exact_euler T0 flip zc zd.
have [L L0 HL] := flip (M + 2%:R).
pose B := (L + 2%:R) * (0 + L).
have B0 : 0 <= B by rewrite mulr_ge0 // addr_ge0 ?ler0n.
have [D D0 HD] := @converge_from T (B + C) L 1 E0 1 T0 (addr_ge0 B0 C0) L0 ltr01 E00 isT.
exists (Order.max D (T * (L + 1))); first by rewrite le_maxr D0.
move=> N Np; rewrite le_maxl => /andP [DN TN] xs h x0 step i iN.
have Nr : 0 < N%:R :> Rf by rewrite ltr0n.
apply: (@le_trans _ _ (D / N%:R)); last by rewrite ler_wpmul2r ?invr_ge0 ?ler0n // le_maxr lexx.
have h0 : 0 <= h by rewrite divr_ge0 // ltW.
have := HD N Np DN (fun i => nrm (xs i - z (i%:R * h)%R)); rewrite !expr1; apply => //; first by rewrite mul0r.
  by move=> j; exact: nrm_ge0.
move=> {iN}{}i iN small; rewrite -/h.
have ti : i%:R * h + h = i.+1%:R * h by rewrite -[i.+1]addn1 natrD mulrDl mul1r.
have tT : i.+1%:R * h <= T by rewrite mulrCA ler_pimulr // ler_pdivr_mulr // mul1r ler_nat.
have z0 : 0 <= i%:R * h by rewrite mulr_ge0 ?ler0n.
have iT : 0 <= i%:R * h <= T by rewrite z0 /=; apply: le_trans tT; rewrite -ti ler_addl.
have hz := HM _ iT.
have hx : nrm (xs i) <= M + 1.
  by rewrite -[xs i](subrK (z (i%:R * h)%R)) addrC; apply: le_trans (nrmD _ _) _; exact: ler_add.
have hx2 : nrm (xs i) <= M + 2%:R by apply: le_trans hx _; rewrite ler_add2l ler1n.
have hz2 : nrm (z (i%:R * h)%R) <= M + 2%:R by apply: le_trans hz _; rewrite ler_addl ler0n.
have near y : nrm (y - xs i) <= 1 -> nrm y <= M + 2%:R.
  move=> H; rewrite -[y](subrK (xs i)); apply: le_trans (nrmD _ _) _; rewrite addrC (natrD _ 1 1) addrA; exact: ler_add.
have sT s : i%:R * h <= s <= i%:R * h + h -> 0 <= s <= T.
  by move=> /andP [h1 h2]; rewrite (le_trans z0 h1) (le_trans h2) // ti.
apply: le_trans (step i iN) _.
have S1 : nrm (tstp f h (xs i) (i%:R * h) - (xs i + h *: f (xs i) (i%:R * h))) <= h ^+ 2 * B.
  apply: step_euler => //.
  - by rewrite /h mulrAC ler_pdivr_mulr // mul1r.
  - by rewrite mul0r mulr0 ler01.
  - by move=> y s /near hy /sT hs; exact: (proj1 (HL y (xs i) s _ hy hx2 hs iT)).
  - move=> y s /near hy hs; have := proj2 (HL y (xs i) s _ hy hx2 (sT s hs) iT).
    by rewrite [`|_|]ger0_norm // subr_ge0; case/andP: hs.
  - by move=> y s _ _; rewrite subrr nrm0 mul0r.
rewrite (tri3 _ (xs i) 0 (h *: f (xs i) (i%:R * h)) (z (i%:R * h)%R) _ (h *: f (z (i%:R * h)%R) (i%:R * h))).
apply: le_trans (nrmD _ _) _; rewrite -(sum3 h B 0 C L); apply: ler_add => //.
apply: le_trans (nrmD _ _) _; apply: ler_add; last by rewrite nrmN -ti; apply: HC => //; rewrite ti.
apply: le_trans (nrmD _ _) _; rewrite ler_add2l -scalerBr nrmZ ger0_norm // ler_wpmul2l //.
by apply: le_trans (proj2 (HL _ _ _ _ hx2 hz2 iT iT)) _; rewrite subrr normr0 addr0.
Qed.
End Rk.

(** ** elements with all five parts *)
Section Comb.
Variable n : nat.
Implicit Types e f g : elem Rf n.
Definition ed5 e f : Rf := ed e f + (nrm (eb e - eb f) + nrm (eeta e - eeta f)).
Lemma ed5_ed e f eps : ed5 e f <= eps -> ed e f <= eps.
Proof. by apply: le_trans; rewrite ler_addl addr_ge0 ?nrm_ge0. Qed.
Lemma ed5_b e f eps : ed5 e f <= eps -> nrm (eb e - eb f) <= eps.
Proof. by apply: le_trans; rewrite /ed5 addrCA ler_addl addr_ge0 ?nrm_ge0 // ed_ge0. Qed.
Lemma ed5_eta e f eps : ed5 e f <= eps -> nrm (eeta e - eeta f) <= eps.
Proof. by apply: le_trans; rewrite /ed5 addrA ler_addr addr_ge0 ?nrm_ge0 // ed_ge0. Qed.
Lemma ed5_ge0 e f : 0 <= ed5 e f. Proof. by rewrite /ed5 !addr_ge0 ?nrm_ge0 // ed_ge0. Qed.
Definition cb e f := eA f *m (invmx (cL e f) *m (eb e + eC e *m eeta f)) + eb f.
Definition ceta e f := (eA e)^T *m (invmx (cR e f) *m (eeta f - eJ f *m eb e)) + eeta e.
Lemma combine_inv5 e f g : combine_abcej e f = Some g -> eb g = cb e f /\ eeta g = ceta e f.
Proof.
move=> E; have [u v _] := combine_inv E; move: E; rewrite /cb /ceta.
by rewrite /combine_abcej -/(cL e f) -/(cR e f) !(solve_unit _ u) !obindS !(solve_unit _ v) !obindS => -[<-].
Qed.
Variables e0 f0 g0 : elem Rf n.
Hypothesis C0 : combine_abcej e0 f0 = Some g0.
Definition nearby5 (eps : Rf) (x : elem Rf n * elem Rf n) : Prop := ed5 x.1 e0 <= eps /\ ed5 x.2 f0 <= eps.
Lemma combine_lip5 : exists2 L, 0 <= L & forall eps e f, 0 <= eps -> eps * L <= 1 -> ed5 e e0 <= eps -> ed5 f f0 <= eps ->
  exists2 g, combine_abcej e f = Some g & ed5 g g0 <= L * eps.
Proof.
have [L1 L10 H1] := combine_lip C0.
have [u v _] := combine_inv C0; have [Eb Eeta] := combine_inv5 C0.
pose lp k l := @lip (elem Rf n * elem Rf n) nearby5 k l.
have one k l (F : elem Rf n * elem Rf n -> 'M[Rf]_(k, l)) y : (forall eps x, nearby5 eps x -> nrm (F x - y) <= eps) -> lp k l F y.
  by move=> H; exists 1; rewrite ?ler01 // => eps x e0' _ hn; rewrite mul1r; exact: H.
have A1 : lp _ _ (fun x => eA x.1) (eA e0) by apply: one => eps x [h _]; exact: edA (ed5_ed h).
have A2 : lp _ _ (fun x => eA x.2) (eA f0) by apply: one => eps x [_ h]; exact: edA (ed5_ed h).
have C1 : lp _ _ (fun x => eC x.1) (eC e0) by apply: one => eps x [h _]; exact: edC (ed5_ed h).
have J2 : lp _ _ (fun x => eJ x.2) (eJ f0) by apply: one => eps x [_ h]; exact: edJ (ed5_ed h).
have b1 : lp _ _ (fun x => eb x.1) (eb e0) by apply: one => eps x [h _]; exact: ed5_b h.
have b2 : lp _ _ (fun x => eb x.2) (eb f0) by apply: one => eps x [_ h]; exact: ed5_b h.
have n1 : lp _ _ (fun x => eeta x.1) (eeta e0) by apply: one => eps x [h _]; exact: ed5_eta h.
have n2 : lp _ _ (fun x => eeta x.2) (eeta f0) by apply: one => eps x [_ h]; exact: ed5_eta h.
have LL : lp _ _ (fun x => cL x.1 x.2) (cL e0 f0) by apply: lip_add (lip_cst _ _) (lip_mul C1 J2).
have LR : lp _ _ (fun x => cR x.1 x.2) (cR e0 f0) by apply: lip_add (lip_cst _ _) (lip_mul J2 C1).
have [IL _] := lip_inv LL u; have [IR _] := lip_inv LR v.
have neg k l (F : elem Rf n * elem Rf n -> 'M[Rf]_(k, l)) y : lp k l F y -> lp k l (fun x => - F x) (- y).
  by move=> [L L0 H]; exists L => // eps x e0' hl hn; rewrite -opprD nrmN; exact: H.
have [a a0 HA] : lp _ _ (fun x => cb x.1 x.2) (cb e0 f0) by exact: lip_add (lip_mul A2 (lip_mul IL (lip_add b1 (lip_mul C1 n2)))) b2.
have [c c0 HC] : lp _ _ (fun x => ceta x.1 x.2) (ceta e0 f0).
  exact: lip_add (lip_mul (lip_tr A1) (lip_mul IR (lip_add n2 (neg _ _ _ _ (lip_mul J2 b1))))) n1.
exists (L1 + (a + c)) => [|eps e f eps0 hl he hf]; first by rewrite !addr_ge0.
have dom L : L <= L1 + (a + c) -> eps * L <= 1 by move=> le; exact: lip_dom le eps0 hl.
have hn : nearby5 eps (e, f) by [].
have [g Eg hg] := H1 eps e f eps0 (dom L1 (ler_paddr (addr_ge0 a0 c0) (lexx _))) (ed5_ed he) (ed5_ed hf).
exists g => //; have [gb geta] := combine_inv5 Eg.
rewrite /ed5 gb geta Eb Eeta !mulrDl; apply: ler_add => //; apply: ler_add.
  by apply: (HA eps (e, f)) => //; apply: dom; rewrite addrCA ler_addl addr_ge0.
by apply: (HC eps (e, f)) => //; apply: dom; rewrite addrA ler_addr addr_ge0.
Qed.
End Comb.

Section Scan.
Variables (n B : nat) (ex : nat -> nat -> elem Rf n).
Hypothesis exC : forall i j k, (i < j)%N -> (j < k)%N -> (k <= B)%N -> combine_abcej (ex i j) (ex j k) = Some (ex i k).
Lemma comb_unif5 : exists2 L, 1 <= L & forall i j k, (i < j)%N -> (j < k)%N -> (k <= B)%N -> forall eps e f, 0 <= eps -> eps * L <= 1 ->
  ed5 e (ex i j) <= eps -> ed5 f (ex j k) <= eps -> exists2 g, combine_abcej e f = Some g & ed5 g (ex i k) <= L * eps.
Proof.
pose P i j k (L : Rf) := (i < j)%N -> (j < k)%N -> (k <= B)%N -> forall eps e f, 0 <= eps -> eps * L <= 1 ->
  ed5 e (ex i j) <= eps -> ed5 f (ex j k) <= eps -> exists2 g, combine_abcej e f = Some g & ed5 g (ex i k) <= L * eps.
have mono i j k L L' : L <= L' -> P i j k L -> P i j k L'.
  move=> le H h1 h2 h3 eps e f e0 hl he hf; have [g E hg] := H h1 h2 h3 eps e f e0 (lip_dom le e0 hl) he hf.
  by exists g => //; exact: lip_weak hg.
have [|i iB|L L0 HL] := @fin_unif (fun i L => forall j k, (j < B.+1)%N -> (k < B.+1)%N -> P i j k L) B.+1.
- by move=> i L L' le H j k hj hk; exact: mono (H j k hj hk).
- have [|j jB|L L0 HL] := @fin_unif (fun j L => forall k, (k < B.+1)%N -> P i j k L) B.+1.
  + by move=> j L L' le H k hk; exact: mono (H k hk).
  + have [|k kB|L L0 HL] := @fin_unif (fun k L => P i j k L) B.+1; first by move=> k L L'; exact: mono.
      case: (ltnP i j) => h1; last by exists 0 => h; move: h1; rewrite leqNgt h.
      case: (ltnP j k) => h2; last by exists 0 => _ h; move: h2; rewrite leqNgt h.
      by have [L L0 HL] := combine_lip5 (exC h1 h2 kB); exists L => _ _ _.
    by exists L => k hk; exact: HL.
  by exists L => j k hj hk; exact: HL.
exists (Order.max 1 L); first by rewrite le_maxr lexx.
move=> i j k h1 h2 h3; have [hi hj hk] : [/\ (i < B.+1)%N, (j < B.+1)%N & (k < B.+1)%N] by split; lia.
by apply: (mono i j k L _ _ (HL i hi j k hj hk)) h1 h2 h3; rewrite le_maxr lexx orbT.
Qed.
Theorem scan_stable5 : exists2 L, 0 <= L & forall eps (es : seq (elem Rf n)), 0 <= eps -> eps * L <= 1 -> es <> [::] -> size es = B ->
  (forall i e, List.nth_error es i = Some e -> ed5 e (ex i i.+1) <= eps) ->
  exists r, par_backward_pass_scan es = Some r /\ size r = B /\ forall k e, List.nth_error r k = Some e -> ed5 e (ex k B) <= L * eps.
Proof.
have [L L1 HL] := comb_unif5.
have L0 : 0 <= L by exact: le_trans ler01 L1.
exists (L ^+ B.+1); first exact: exprn_ge0.
move=> eps es e0 hl nz sz he.
pose Inv i j e := ed5 e (ex i j) <= L ^+ (j - i) * eps.
have [||r [E [sr Hr]]] := @scan_seg _ (@combine_abcej Rf n) Inv es true nz.
- move=> i j k x y /ssrnat.ltP ij /ssrnat.ltP jk; rewrite -[length es]/(size es) sz => /ssrnat.leP kB hx hy.
  have d : 0 <= L ^+ (k - i).-1 * eps by rewrite mulr_ge0 ?exprn_ge0.
  have p a : (a <= (k - i).-1)%N -> L ^+ a * eps <= L ^+ (k - i).-1 * eps by move=> le; rewrite ler_wpmul2r // ler_weexpn2l.
  have [|||g E hg] := HL i j k ij jk kB (L ^+ (k - i).-1 * eps) x y d.
  + rewrite mulrAC -exprSr mulrC; apply: le_trans hl; rewrite ler_wpmul2l // ler_weexpn2l //; lia.
  + by apply: le_trans hx _; apply: p; lia.
  + by apply: le_trans hy _; apply: p; lia.
  exists g; split=> //; apply: le_trans hg _; rewrite mulrA -exprS prednK //; lia.
- move=> i x hx; rewrite /Inv subSnn expr1; apply: le_trans (he i x hx) _; by rewrite ler_pemull.
exists r; split=> //; split; first by rewrite -sz.
move=> k e hk; have h : Inv k (size es) e := Hr k e hk; rewrite /Inv sz in h; apply: le_trans h _; rewrite ler_wpmul2r // ler_weexpn2l //; lia.
Qed.
End Scan.

(** ** packed elements *)
Section Pack.
Variable n : nat.
Lemma nrm_abcej (e : elem Rf n) : nrm (pack_abcej e) = (nrm (eA e) + nrm (eC e)) + nrm (eJ e) + nrm (eb e) + nrm (eeta e).
Proof.
rewrite !nrm_ent -!big_split /=; apply: eq_bigr => i _; rewrite (@big_cat_nat _ _ _ (n + n + n + 1)) /=; try lia.
rewrite (@big_cat_nat _ _ _ (n + n + n)) /=; try lia.
rewrite (@big_cat_nat _ _ _ (n + n)) /=; try lia.
rewrite (@big_cat_nat _ _ _ n) ?leq_addr //=; congr (_ + _ + _ + _ + _).
- apply: eq_big_nat => j /andP [_ jn]; rewrite /pack_abcej !ent_set; try lia.
  do 4 (rewrite [X in if X then _ else _](_ : _ = false); last by lia).
  by rewrite /= add0n jn subn0.
- rewrite -{1}[n]add0n big_addn addKn; apply: eq_big_nat => j /andP [_ jn]; rewrite /pack_abcej !ent_set; try lia.
  do 3 (rewrite [X in if X then _ else _](_ : _ = false); last by lia).
  have -> : (n <= j + n < n + n)%N by lia.
  by rewrite addnK.
- rewrite -{1}[(n + n)%N]add0n big_addn addKn; apply: eq_big_nat => j /andP [_ jn]; rewrite /pack_abcej !ent_set; try lia.
  do 2 (rewrite [X in if X then _ else _](_ : _ = false); last by lia).
  have -> : (2 * n <= j + (n + n) < 2 * n + n)%N by lia.
  by congr (`|ent _ _ _|); lia.
- rewrite -{1}[(n + n + n)%N]add0n big_addn addKn; apply: eq_big_nat => j /andP [_ jn]; rewrite /pack_abcej !ent_set; try lia.
  rewrite [X in if X then _ else _](_ : _ = false); last by lia.
  have -> : (3 * n <= j + (n + n + n) < 3 * n + 1)%N by lia.
  by congr (`|ent _ _ _|); lia.
rewrite -{1}[(n + n + n + 1)%N]add0n big_addn (_ : (3 * n + 2 - (n + n + n + 1) = 1)%N); last by lia.
apply: eq_big_nat => j /andP [_ jn]; rewrite /pack_abcej ent_set; last by lia.
have -> : (3 * n + 1 <= j + (n + n + n + 1) < 3 * n + 1 + 1)%N by lia.
by congr (`|ent _ _ _|); lia.
Qed.
Definition esub (e f : elem Rf n) := Elem (eA e - eA f) (eb e - eb f) (eC e - eC f) (eeta e - eeta f) (eJ e - eJ f).
Lemma abcej_sub (e f : elem Rf n) : pack_abcej e - pack_abcej f = pack_abcej (esub e f).
Proof.
rewrite addrC -scaleN1r -abcej_pack_lin; congr pack_abcej.
by rewrite /elem_lin /esub !scaleN1r ![- _ + _]addrC.
Qed.
Lemma ed5_pack (e f : elem Rf n) : nrm (pack_abcej e - pack_abcej f) = ed5 e f.
Proof. by rewrite abcej_sub nrm_abcej /ed5 /ed /= !addrA. Qed.
Definition emap (A : R -> 'M[Rf]_n) b (C : R -> 'M[Rf]_n) eta (J : R -> 'M[Rf]_n) (t : R) : elem Rf n := Elem (A t) (b t) (C t) (eta t) (J t).
Lemma mcont_abcej A b C eta J (t : Rf) : mcont A t -> mcont b t -> mcont C t -> mcont eta t -> mcont J t -> mcont (fun t => pack_abcej (emap A b C eta J t)) t.
Proof. by move=> *; do 5 (apply: mcont_set => //); exact: mcont_const. Qed.
Lemma mderiv_abcej A b C eta J (t : Rf) dA db dC deta dJ : mderiv A t dA -> mderiv b t db -> mderiv C t dC -> mderiv eta t deta -> mderiv J t dJ ->
  mderiv (fun t => pack_abcej (emap A b C eta J t)) t (pack_abcej (Elem dA db dC deta dJ)).
Proof. by move=> *; do 5 (apply: mderiv_set => //); exact: mderiv_const. Qed.
End Pack.
