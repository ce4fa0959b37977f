(** Counterexamples for CSymFRProps.v. *)
From mathcomp Require Import all_ssreflect all_algebra.
From mathcomp.real_closed Require Import complex.
Require Import Ring Field.
From Verif Require Import MxTac StiefelModel StiefelSpec StiefelIntr CStieSpec CStieModel CMx CStieProofs CStieRetr CStiePolar CStieIntr CFrSpec CFr.
From Verif Require Import CSymFRModel CSymFRSpec CSymFRProofs CSymFRHess CSymFRIntr CSymFRRetr CSymFRFacts.
Import Order.TTheory GRing.Theory Num.Theory.
Set Implicit Arguments.
Unset Strict Implicit.
Local Open Scope ring_scope.
Local Open Scope complex_scope.

Section square.
Variable R : rcfType.
Local Notation C := R[i].
Local Notation re := (@complex.Re R).
Local Notation im := (@complex.Im R).
Add Field csfw_field : (rcf_field R).
Add Ring csfw_ring : (kring R).
(** The points I and diag(1, 2), and the Hermitian matrix with the entries i and -i. *)
Definition wx : 'M[C]_(2 + 0, 2) := 1%:M.
Definition wd : 'M[C]_2 := rdiag (\row_(i < 2) i.+1%:R).
Definition wy : 'M[C]_(2 + 0, 2) := wd.
Definition wj (c : R) (i j : 'I_2) : C := if (i < j)%N then 0 +i* c else if (j < i)%N then 0 +i* (- c) else 0.
Definition we : 'M[C]_(2 + 0, 2) := \matrix_(i < 2, j < 2) wj 1 i j.
Definition wS : 'M[C]_2 := \matrix_(i, j) wj (3%:R / 4%:R) i j.
Definition wW : 'M[C]_2 := \matrix_(i, j) (if i == j then 0 else 0 +i* 4%:R^-1).
Lemma square_hhr (r : 'M[C]_2) : cupper r -> real_diag r -> is_chhr (r : 'M[C]_(2 + 0, 2)) 1%:M r.
Proof.
move=> Hr Hd; split=> //; rewrite ?/unitary adj1 mul1mx //.
by apply/matrixP => i j; rewrite mxE; case: splitP => [i' E|[]//]; congr (r _ _); exact: val_inj.
Qed.
Lemma wx_hhr : is_chhr wx 1%:M (1%:M : 'M[C]_2).
Proof.
apply: square_hhr => [i j Hij|i]; rewrite mxE; last by rewrite eqxx.
by case: eqP Hij => // ->; rewrite ltnn.
Qed.
Lemma wy_hhr : is_chhr wy 1%:M wd.
Proof.
apply: square_hhr => [i j Hij|i]; rewrite rdiag_entry //.
by case: eqP Hij => [->|_]; rewrite ?ltnn // mulr0n.
Qed.
Lemma wx_full : cfull_rank wx.
Proof. by move=> v; rewrite mul1mx. Qed.
Lemma wy_full : cfull_rank wy.
Proof.
move=> v H; apply/matrixP => i j; have := congr1 (fun A : 'M[C]_(_, 1) => A i j) H.
rewrite rdiag_mul [RHS]mxE => /eqP; rewrite mulf_eq0 rc_eq0 !mxE pnatr_eq0 => /eqP ->; by [].
Qed.
Lemma wj_conj c i j : conjc (wj c j i) = wj c i j.
Proof. by rewrite /wj; case: (ltngtP j i) => _; apply: ceq; rewrite ?reJ ?imJ /= ?oppr0 ?opprK. Qed.
Lemma wS_herm : hermitian wS.
Proof. by apply/matrixP => i j; rewrite !mxE wj_conj. Qed.
Lemma we_sym : hermitian (we : 'M[C]_2).
Proof. by apply/matrixP => i j; rewrite !mxE wj_conj. Qed.
Lemma we_hor : horizontal wx we.
Proof.
apply/(horP wx_full); have -> : invmx (adj wx *m wx) *m adj wx *m we = we.
  by rewrite /wx adj1 !mul1mx invmx1 !mul1mx.
exact: we_sym.
Qed.
Lemma wW_skew : skew_hermitian wW.
Proof.
apply/matrixP => i j; rewrite !mxE eq_sym; case: eqP => _; apply: ceq; rewrite ?(reJ, imJ, reN, imN) /= ?oppr0 //.
Qed.
Lemma quarter : 4%:R * 4%:R^-1 = 1 :> R.
Proof. by rewrite mulfV // pnatr_eq0. Qed.
Lemma we_split : we = wy *m (wS + wW).
Proof.
have := quarter; rewrite /we /wy /wS /wW /wj; move: (4%:R^-1) => c Hc.
apply/matrixP => i j; rewrite rdiag_mul !mxE.
case: i j => [[|[|//]] Hi] [[|[|//]] Hj]; rewrite -!val_eqE /=; apply: ceq; rewrite !(reM, imM, reD, imD) /=;
  rewrite ?mul0r ?mulr0 ?subr0 ?addr0 ?add0r ?mulr0 //.
- by apply: (eq_trans (esym Hc)); num R.
by apply: (eq_trans (congr1 -%R (esym Hc))); num R.
Qed.
Lemma we_proj : projection wy we = wy *m wS.
Proof.
symmetry; apply: (split_unique wy_full).
  apply/(horP wy_full); rewrite mulmxA Cixx0 ?mul1mx //; [exact: wS_herm | exact: wy_full].
exists wW; split; [exact: wW_skew | by rewrite we_split mulmxDr addrAC subrr add0r].
Qed.
Lemma wL : lower_factor wd = wd.
Proof.
apply/matrixP => i j; rewrite mxE !rdiag_entry eqxx mulr1n mxE /= ltNge ler0n /=; case: ltnP => H.
  by case: eqP H => [->|_]; rewrite ?ltnn // mulr0n.
by rewrite mxE eq_sym; case: eqP => [->|_]; apply: ceq; rewrite /= ?oppr0.
Qed.
(** Equal coordinates: equal entries below the diagonal. *)
Lemma hpack_entry p (S T : 'M[C]_p) a b (i j : 'I_p) : (i < j)%N -> hpack S ++ a = hpack T ++ b -> S j i = T j i.
Proof.
move=> Hij /eqP; rewrite eqseq_cat ?hpack_size // => /andP [/eqP E _]; move: E; rewrite /hpack => /eqP.
rewrite eqseq_cat ?diag_size // => /andP [_ /eqP E].
have Hm : (i, j) \in upper_pairs p by rewrite upper_mem.
have [A1 B1] := twos_nth (fun ij : 'I_p * 'I_p => Num.sqrt 2%:R * re (S ij.2 ij.1)) (fun ij : 'I_p * 'I_p => Num.sqrt 2%:R * im (S ij.2 ij.1)) [::] Hm.
have [A2 B2] := twos_nth (fun ij : 'I_p * 'I_p => Num.sqrt 2%:R * re (T ij.2 ij.1)) (fun ij : 'I_p * 'I_p => Num.sqrt 2%:R * im (T ij.2 ij.1)) [::] Hm.
move: A1 B1; rewrite {}E {}A2 {}B2 /= => /(mulfI (sqrt2_neq0 R)) E1 /(mulfI (sqrt2_neq0 R)) E2; exact: ceq.
Qed.
Lemma wy_top (eta : 'M[C]_(2 + 0, 2)) : (top 1%:M wd eta *m lower_factor wd) ord_max ord0 = (eta : 'M[C]_2) ord_max ord0.
Proof.
have H : (2%:R)%:C * top 1%:M wd eta ord_max ord0 = (2%:R)%:C * (eta : 'M[C]_2) ord_max ord0.
  have := congr1 (fun A : 'M[C]_2 => A ord_max ord0) (stopE wy_hhr eta).
  by rewrite wL /wy adj_rdiag !rdiag_mul !mxE.
have H2 : (2%:R)%:C != 0 :> C by rewrite rc_eq0 pnatr_eq0.
by rewrite wL mul_mx_diag mxE (mulfI H2 H) !mxE mulr1.
Qed.
Lemma project_refuted : transport_coords (k := 0) CSF_PROJECTION CSF_HGZ 1%:M 1%:M 1%:M wd (obtain_intr CSF_HGZ 1%:M (1%:M : 'M[C]_2) we) <>
  obtain_intr CSF_HGZ 1%:M wd (transport_extr wy we).
Proof.
rewrite (fact_project_same CSF_HGZ 1%:M wd wx_full wx_hhr we_hor) /transport_extr we_proj /obtain_intr !(intr_hgzE wy_hhr).
move/(@hpack_entry 2 _ _ _ _ ord0 ord_max isT); rewrite !wy_top /wy rdiag_mul !mxE /wj /=.
move/(congr1 im); rewrite imM /= mul0r addr0 => /eqP; rewrite mulrN eqr_opp mulrA -natrM eq_sym.
move=> /eqP /(congr1 (fun z => z * 4%:R)); rewrite mulfVK ?pnatr_eq0 // mul1r => /eqP; by rewrite eqr_nat.
Qed.
Lemma transport_refuted : ~ (forall (x y : 'M[C]_(2 + 0, 2)) Qx rx Qy ry eta,
  cfull_rank x -> is_chhr x Qx rx -> cfull_rank y -> is_chhr y Qy ry -> horizontal x eta ->
  transport_coords CSF_PROJECTION CSF_HGZ Qx rx Qy ry (obtain_intr CSF_HGZ Qx rx eta) =
  obtain_intr CSF_HGZ Qy ry (transport_extr y eta)).
Proof.
move=> /(_ wx wy 1%:M 1%:M 1%:M wd we wx_full wx_hhr wy_full wy_hhr we_hor); exact: project_refuted.
Qed.
End square.

Lemma name_partial : printed_metric CSF_EUC = metric_name CSF_EUC.
Proof. by []. Qed.
Lemma name_refuted : forall s, printed_metric CSF_HGZ <> metric_name s.
Proof. by case. Qed.
Lemma param_sets m t : exists! i, (1 <= i <= 4)%N /\ param_set i = (m, t).
Proof.
by case: m; case: t; [exists 1%N | exists 3%N | exists 2%N | exists 4%N]; split=> // -[|[|[|[|[|i]]]]] [].
Qed.
