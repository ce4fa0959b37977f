(** Counterexamples for SymFRProps.v. *)
From mathcomp Require Import all_ssreflect all_algebra.
Require Import Ring Field.
From Verif Require Import MxTac StiefelModel StiefelSpec StiefelProofs StiefelPolar StiefelRetr StiefelIntr SPDSpec SPDProofs.
From Verif Require Import SPDModel SPDIntr SymFRModel SymFRSpec SymFRProofs SymFRHess SymFRIntr SymFRRetr SymFRFacts.
Import Order.TTheory GRing.Theory Num.Theory.
Set Implicit Arguments.
Unset Strict Implicit.
Local Open Scope ring_scope.

Section square.
Variable R : rcfType.
Add Field sfw_field : (rcf_field R).
(** The points I and diag(1, 2), and the exchange of the axes. *)
Definition wx : 'M[R]_(2 + 0, 2) := 1%:M.
Definition wy : 'M[R]_(2 + 0, 2) := diag_mx (\row_(i < 2) i.+1%:R).
Definition we : 'M[R]_(2 + 0, 2) := \matrix_(i < 2, j < 2) (i != j)%:R.
Definition wS : 'M[R]_2 := \matrix_(i, j) ((i != j)%:R * 3%:R / 4%:R).
Definition wW : 'M[R]_2 := \matrix_(i, j) ((i < j)%N%:R / 4%:R - (j < i)%N%:R / 4%:R).
Lemma square_hhr (r : 'M[R]_2) : upper r -> is_hhr (r : 'M[R]_(2 + 0, 2)) 1%:M r.
Proof.
move=> Hr; split=> //; rewrite ?/orthonormal trmx1 mul1mx //.
by apply/matrixP => i j; rewrite mxE; case: splitP => [i' E|[]//]; congr (r _ _); exact: val_inj.
Qed.
Lemma wx_hhr : is_hhr wx 1%:M (1%:M : 'M[R]_2).
Proof. by apply: square_hhr => i j Hij; rewrite mxE; case: eqP Hij => // ->; rewrite ltnn. Qed.
Lemma wy_hhr : is_hhr wy 1%:M (diag_mx (\row_(i < 2) i.+1%:R) : 'M[R]_2).
Proof. by apply: square_hhr => i j Hij; rewrite !mxE; case: eqP Hij => // ->; rewrite ltnn. Qed.
Lemma wx_full : full_rank wx.
Proof. by move=> v; rewrite mul1mx. Qed.
Lemma wy_full : full_rank wy.
Proof.
move=> v H; apply/matrixP => i j; have := congr1 (fun A : 'M[R]_(_, 1) => A i j) H.
rewrite mul_diag_mx !mxE => /eqP; rewrite mulf_eq0 pnatr_eq0 => /eqP ->; by [].
Qed.
Lemma we_hor : horizontal SF_HGZ wx we.
Proof.
apply/(horP wx_full); have -> : invmx (wx^T *m wx) *m wx^T *m we = we.
  by rewrite /wx trmx1 !mul1mx invmx1 !mul1mx.
by apply/matrixP => i j; rewrite !mxE eq_sym.
Qed.
Lemma we_split : we = wy *m (wS + wW).
Proof.
have : 4%:R * 4%:R^-1 = 1 :> R by rewrite mulfV // pnatr_eq0.
rewrite /we /wy /wS /wW; move: (4%:R^-1) => c Hc.
apply/matrixP => i j; rewrite mul_diag_mx !mxE.
case: i j => [[|[|//]] Hi] [[|[|//]] Hj]; rewrite -!val_eqE /= ?mulr1n ?mulr0n.
- rng R.
- apply: (eq_trans (esym Hc)); num R.
- apply: (eq_trans (esym Hc)); num R.
rng R.
Qed.
Lemma we_proj SYL : projection SYL SF_HGZ wy we = wy *m wS.
Proof.
symmetry; apply: (@split_unique _ _ _ wy wy_full SYL SF_HGZ) => //.
  apply/(horP wy_full); rewrite mulmxA Cixx0 ?mul1mx //; last exact: wy_full.
  by apply/matrixP => i j; rewrite !mxE eq_sym.
exists wW; split; last by rewrite we_split mulmxDr addrAC subrr add0r.
apply/matrixP => i j; rewrite !mxE; rng R.
Qed.
Lemma wL : lower_factor (diag_mx (\row_(i < 2) i.+1%:R) : 'M[R]_2) = diag_mx (\row_(i < 2) i.+1%:R).
Proof.
apply/matrixP => i j; rewrite !mxE eqxx mulr1n ltNge ler0n /=; case: ltnP => H.
  by case: eqP H => // ->; rewrite ltnn.
by case: (altP (j =P i)) => [->|Hn]; rewrite ?eqxx // eq_sym (negbTE Hn).
Qed.
Lemma project_refuted QRB SYL BL BLx BLy :
  let v := (obtain_intr QRB SF_HGZ BL 1%:M (1%:M : 'M[R]_2) we).1 in
  transport_coords (k := 0) QRB SF_PROJECTION SF_HGZ BLx BLy 1%:M 1%:M 1%:M (diag_mx (\row_(i < 2) i.+1%:R)) v <>
  Some (obtain_intr QRB SF_HGZ BLy 1%:M (diag_mx (\row_(i < 2) i.+1%:R)) (transport_extr SYL SF_HGZ wy we)).1.
Proof.
move=> v; have -> : v = (obtain_intr QRB SF_HGZ BLx 1%:M (1%:M : 'M[R]_2) we).1 by [].
rewrite /transport_extr we_proj /transport_coords /obtain_extr /obtain_intr.
rewrite (hgz_back wx_full wx_hhr we_hor); case; rewrite !(intr_hgzE wy_hhr).
move/eqP; rewrite eqseq_cat ?pack_size // => /andP [/eqP E _]; move: E.
rewrite /pack => /eqP; rewrite eqseq_cat ?size_map // => /andP [_ /eqP].
move/eq_in_map => /(_ (ord0, ord_max)); rewrite upper_mem => /(_ isT) /=.
move/(mulIf (sqrt2_neq0 R)).
have E eta : (wy^T *m eta *m diag_mx (\row_(i < 2) i.+1%:R)) ord_max ord0 = 2%:R * (top 1%:M (diag_mx (\row_i i.+1%:R)) eta *m diag_mx (\row_(i < 2) i.+1%:R)) ord_max ord0.
  by rewrite (topE wy_hhr) -mulmxA wL mul_diag_mx !mxE.
rewrite wL => /(congr1 (fun z => 2%:R * z)); rewrite -!E mulmxA /wy tr_diag_mx mulmx_diag !mul_mx_diag !mul_diag_mx !mxE.
rewrite -!val_eqE /= => /eqP; rewrite -subr_eq0.
have -> : 2%:R * 1 * 1 - 2%:R * 2%:R * (1 * 3%:R / 4%:R) * 1 = 2%:R - 3%:R * (4%:R / 4%:R) :> R.
  by move: (4%:R^-1) => c; num R.
rewrite mulfV ?pnatr_eq0 // mulr1 -opprB oppr_eq0 -natrB // pnatr_eq0; by [].
Qed.
Lemma we_sym : symmetric (we : 'M[R]_2).
Proof. by apply/matrixP => i j; rewrite !mxE eq_sym. Qed.
Lemma transport_refuted : ~ (forall QRB SYL (x y : 'M[R]_(2 + 0, 2)) Qx rx Qy ry BL BLy eta,
  full_rank x -> is_hhr x Qx rx -> full_rank y -> is_hhr y Qy ry -> horizontal SF_HGZ x eta ->
  transport_coords QRB SF_PROJECTION SF_HGZ BL BLy Qx rx Qy ry (obtain_intr QRB SF_HGZ BL Qx rx eta).1 =
  Some (obtain_intr QRB SF_HGZ BLy Qy ry (transport_extr SYL SF_HGZ y eta)).1).
Proof.
move=> /(_ (fun _ => (0, 0)) (fun _ _ _ => 0) wx wy 1%:M 1%:M 1%:M (diag_mx (\row_(i < 2) i.+1%:R)) None None we
  wx_full wx_hhr wy_full wy_hhr we_hor); exact: project_refuted.
Qed.
Lemma coords_refuted : ~ (forall (p k : nat) s (x : 'M[R]_(p + k, p)) Q r v,
  full_rank x -> is_hhr x Q r -> size v = intr_dim p k -> exists eta, obtain_extr s None Q r v = Some eta).
Proof.
move=> /(_ 2%N 0%N SF_QEUC wx 1%:M 1%:M (nseq (intr_dim 2 0) 0) wx_full wx_hhr (size_nseq _ _)) [eta]; by [].
Qed.
End square.

Lemma name_partial : printed_metric SF_EUC = metric_name SF_EUC /\ forall s, exists s', printed_metric s = metric_name s'.
Proof. by split=> // -[]; [exists SF_EUC | exists SF_QEUC | exists SF_HGZ]. Qed.
Lemma name_refuted : printed_metric SF_HGZ = metric_name SF_QEUC /\ printed_metric SF_QEUC = metric_name SF_HGZ /\
  metric_name SF_HGZ <> metric_name SF_QEUC.
Proof. by []. Qed.
Lemma param_sets m t : exists! i, (1 <= i <= 6)%N /\ param_set i = (m, t).
Proof.
by case: m; case: t; [exists 1%N | exists 4%N | exists 2%N | exists 5%N | exists 3%N | exists 6%N];
  split=> // -[|[|[|[|[|[|[|i]]]]]]] [].
Qed.
