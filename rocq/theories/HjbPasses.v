(** The passes over the blocks (C52), and the TensorFlow versions (C72). *)
From mathcomp Require Import all_ssreflect all_algebra.
From Verif Require Import ScanModel ScanSpec ScanUse Ord FscModel FscCore FscProofs FscProofs2 TfScan MxBase LqtModel ClqtModel ClqtTfModel PararealModel PararealTf.
From Verif Require Import HjbModel HjbSpec HjbProofs HjbInterp HjbPar.
Import Order.TTheory GRing.Theory Num.Theory.
Set Implicit Arguments. Unset Strict Implicit. Unset Printing Implicit Defensive.
Local Open Scope ring_scope.

Section Passes.
Variable R : realFieldType.
Local Notation K := (Fcost R).
Local Notation arr := (seq (seq (option R))).
Variable LT : R -> R.
Variable n : nat.
Hypothesis n1 : (1 < n)%N.
Let n0 : (0 < n)%N := ltnW n1.
Variable V : arr.
Hypothesis sV : square n V.
Variable xs : seq R.
Hypothesis sx : (n <= size xs)%N.

Definition VT : arr := mx n (fun i _ => Some (LT (nth 0 xs i))).
Lemma nth_errorE {X} (d : X) l i : (i < size l)%N -> List.nth_error l i = Some (nth d l i).
Proof. by elim: l i => // x l IH [|i] //= h; exact: IH. Qed.
Lemma nseq_mkseq {X} k (x : X) : nseq k x = mkseq (fun _ => x) k.
Proof. by apply: (@eq_from_nth _ x) => [|i]; rewrite size_nseq ?size_mkseq // => h; rewrite nth_nseq nth_mkseq // h. Qed.
Lemma VT_tableE : VT_table LT n xs = Some VT.
Proof.
rewrite /VT_table; apply: (mapM_seq _ (fun i => mkseq (fun _ => Some (LT (nth 0 xs i))) n) n) => i /ssrnat.ltP iN.
by rewrite (nth_errorE 0) ?(leq_trans iN) // obindS' nseq_mkseq.
Qed.
Lemma sVT : square n VT. Proof. exact: mx_square. Qed.

(** the value functions, one block after the other *)
Definition cmb (W : arr) : arr := odflt [::] (combine_V_interp V W).
Definition W k : arr := iter k cmb VT.
Lemma cmbE W' : square n W' -> combine_V_interp V W' = Some (cmb W').
Proof. by move=> s; rewrite /cmb; have [C ->] := combine_interp_closed n1 sV s. Qed.
Lemma cmb_square W' : square n W' -> square n (cmb W').
Proof. by move=> s; have [C E sC] := combine_interp_closed n1 sV s; rewrite /cmb E. Qed.
Lemma sW k : square n (W k). Proof. by elim: k => [|k IH]; [exact: sVT | rewrite /W iterS; exact: cmb_square]. Qed.
Definition cl (A : arr) : seq (option R) := mkseq (fun i => nat2 A i 0) n.
Lemma clE A : square n A -> column A 0 = Some (cl A).
Proof. by move=> s; rewrite (column_square None s n0). Qed.

Lemma assoc_loopE b j : assoc_loop V b (W j) = Some [seq cl (W k) | k <- iota j.+1 b].
Proof.
elim: b j => // b IH j.
rewrite -[LHS]/(let? V' := combine_V_interp V (W j) in let? v := column V' 0 in let? l := assoc_loop V b V' in Some (v :: l)).
by rewrite (cmbE (sW j)) obindS' -[cmb (W j)]/(W j.+1) (clE (sW j.+1)) obindS' IH.
Qed.
Definition Vlist b := rev [seq cl (W k) | k <- iota 0 b.+1].
Lemma seq_assocE b : seqBackwardPass_assoc LT xs b V = Some (Vlist b).
Proof.
rewrite /seqBackwardPass_assoc (_ : size V = n); last by case: sV.
by rewrite VT_tableE obindS' (clE sVT) obindS' (assoc_loopE b 0) obindS'.
Qed.
Lemma revW b : rev [seq W k | k <- iota 0 b.+1] = W b :: rev [seq W k | k <- iota 0 b].
Proof. by rewrite -[b.+1]addn1 iotaD map_cat rev_cat. Qed.
Lemma scanrE b : scanr_o (@combine_V_interp R) (rcons (nseq b V) VT) = Some (rev [seq W k | k <- iota 0 b.+1]).
Proof.
elim: b => // b IH.
rewrite revW -[LHS]/(match scanr_o (@combine_V_interp R) (rcons (nseq b V) VT) with
  | None => None | Some [::] => Some [:: V] | Some (z :: r) => match combine_V_interp V z with None => None | Some w => Some (w :: z :: r) end end).
by rewrite IH revW (cmbE (sW b)).
Qed.
Lemma extractE b : hjb_par_extract (rev [seq W k | k <- iota 0 b.+1]) = Some (Vlist b).
Proof.
rewrite /hjb_par_extract {1}revW /Vlist.
rewrite -!map_rev; elim: (rev _) => // k l IH.
by rewrite [omap_seq _ _]/= (clE (sW k)) obindS' IH.
Qed.
Lemma closed_interp : closed_on (square n) (@combine_V_interp R).
Proof. by move=> A B sA sB; have [C E sC] := combine_interp_closed n1 sA sB; exists C. Qed.
Lemma par_elems b : List.Forall (square n) (rcons (nseq b V) VT).
Proof. by elim: b => [|b IH] /=; constructor => //; exact: sVT. Qed.
Lemma par_seq_l b : (b <= 3)%N -> hjb_parBackwardPass LT xs b V = seqBackwardPass_assoc LT xs b V.
Proof.
move=> b3; rewrite seq_assocE /hjb_parBackwardPass /hjb_par_init (_ : size V = n); last by case: sV.
rewrite VT_tableE !obindS' /hjb_par_scan_interp (scan_small _ _ closed_interp).
- by rewrite scanrE obindS' extractE.
- by case: (b).
- by rewrite len_size size_rcons size_nseq; apply/ssrnat.leP.
exact: par_elems.
Qed.

(** TensorFlow *)
Hypothesis sx' : size xs = n.
Lemma tf_VTE : tf_VT LT xs = VT.
Proof.
rewrite /tf_VT /VT sx'; apply: (@eq_from_nth _ [::]); first by rewrite size_map size_mkseq sx'.
by move=> i; rewrite size_map => ix; rewrite (nth_map 0) // nth_mkseq -?sx' // nseq_mkseq sx'.
Qed.
Lemma tf_scanE b j (l : seq nat) : size l = b ->
  tf_scan (fun W (_ : nat) => combine_V_interp V W) (W j) l = Some [seq W k | k <- iota j.+1 b].
Proof.
elim: b j l => [|b IH] j [|x l] // [sl].
rewrite -[LHS]/(let? x' := combine_V_interp V (W j) in let? r := tf_scan (fun W (_ : nat) => combine_V_interp V W) x' l in Some (x' :: r)).
by rewrite (cmbE (sW j)) obindS' -[cmb (W j)]/(W j.+1) IH.
Qed.
Lemma tf_assocE b : tf_seq_bw_pass_assoc LT xs b V = seqBackwardPass_assoc LT xs b V.
Proof.
rewrite seq_assocE /tf_seq_bw_pass_assoc tf_VTE /tf_scan_rev -[VT]/(W 0).
rewrite (@tf_scanE b 0) ?size_rev ?size_iota // [omap _ _]/= obindS' (clE (sW 0)) obindS' -map_rev.
have -> l : omap_seq (fun A : arr => column A 0) [seq W k | k <- l] = Some [seq cl (W k) | k <- l].
  by elim: l => // k l IH; rewrite [omap_seq _ _]/= (clE (sW k)) obindS' IH.
by rewrite obindS' /Vlist -map_rev -map_rcons -rev_cons.
Qed.
End Passes.

(** the plain combination *)
Section Plain.
Variable R : realFieldType.
Variable n : nat.
Hypothesis n0 : (0 < n)%N.
Lemma scanr_rec {X} (d : X) (op : X -> X -> option X) l r : l <> [::] -> scanr_o op l = Some r ->
  [/\ size r = size l, forall k, (k.+1 < size l)%N -> op (nth d l k) (nth d r k.+1) = Some (nth d r k) &
      nth d r (size l).-1 = nth d l (size l).-1].
Proof.
elim: l r => // x l IH r _ /=; case E : (scanr_o op l) => [r'|] //.
case: l IH E => [_ [<-] [<-]|y l IH E] //.
have ne : y :: l <> [::] by [].
have {IH} [s1 s2 s3] := IH _ ne E.
case: r' {E} s1 s2 s3 => [|z r'] s1 s2 s3 //; case Ez : (op x z) => [w|] // [<-].
split; [exact: (congr1 S s1) | | exact: s3].
by move=> [|k] // h; exact: s2.
Qed.
Lemma plain_scan_l (es : seq (seq (seq R))) : es <> [::] -> (forall e, List.In e es -> square n e) ->
  exists r, [/\ hjb_par_scan es = Some r, size r = size es,
    forall k, (k.+1 < size es)%N -> hjb_combine_V (nth [::] es k) (nth [::] r k.+1) = Some (nth [::] r k) &
    nth [::] r (size es).-1 = nth [::] es (size es).-1].
Proof.
move=> e0 H.
have n0' : (0 < n)%coq_nat by apply/ssrnat.ltP.
have F : List.Forall (isV (Fcost R) n) es by apply/List.Forall_forall => e /H se; exists (at2 e); exact: (square_mx 0).
have C := combine_V_closed (Fcost R) n n0'; have As := combine_V_assoc (Fcost R) n n0'.
have [r [E _]] := scanr_o_spec _ _ C As es F; exists r.
rewrite /hjb_par_scan (scan_scanr _ _ C As) // E.
by have [h1 h2 h3] := scanr_rec [::] e0 E.
Qed.
End Plain.
