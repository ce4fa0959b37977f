(** Coq's real numbers as a real closed field of Mathematical Components: the theorems about
    matrices over an [rcfType] apply to them.  No part of the model. *)
From Coq Require Import Reals Epsilon FunctionalExtensionality.
From mathcomp Require Import all_ssreflect all_algebra.
Import Order.TTheory GRing.Theory Num.Theory.
Set Implicit Arguments.
Unset Strict Implicit.
Delimit Scope R_scope with Re.
Local Notation R := Rdefinitions.R.

Section eqtype.
Local Open Scope R_scope.
Definition eqr (r1 r2 : R) : bool := if Req_EM_T r1 r2 is left _ then true else false.
Lemma eqrP : Equality.axiom eqr.
Proof. by move=> r1 r2; rewrite /eqr; case: Req_EM_T => H; constructor. Qed.
End eqtype.
Canonical R_eqMixin := EqMixin eqrP.
Canonical R_eqType := Eval hnf in EqType R R_eqMixin.

Fact inhR : inhabited R.
Proof. exact: inhabits 0%Re. Qed.
Definition pickR (P : pred R) (n : nat) :=
  let x := epsilon inhR (fun x => P x) in if P x then Some x else None.
Fact pickR_some P n x : pickR P n = Some x -> P x.
Proof. by rewrite /pickR; case: (boolP (P _)) => // Px [<-]. Qed.
Fact pickR_ex (P : pred R) : (exists x : R, P x) -> exists n, pickR P n.
Proof.
move=> Hex; exists 0%N; rewrite /pickR.
by have -> : P (epsilon inhR (fun x => P x)) by exact: (epsilon_spec inhR (fun x => P x) Hex).
Qed.
Fact pickR_ext (P Q : pred R) : P =1 Q -> pickR P =1 pickR Q.
Proof. by move=> PEQ n; have -> : P = Q by apply: functional_extensionality. Qed.
Definition R_choiceMixin : choiceMixin R := Choice.Mixin pickR_some pickR_ex pickR_ext.
Canonical R_choiceType := Eval hnf in ChoiceType R R_choiceMixin.

Fact RplusA : associative Rplus.
Proof. by move=> *; rewrite Rplus_assoc. Qed.
Definition R_zmodMixin := ZmodMixin RplusA Rplus_comm Rplus_0_l Rplus_opp_l.
Canonical R_zmodType := Eval hnf in ZmodType R R_zmodMixin.
Fact RmultA : associative Rmult.
Proof. by move=> *; rewrite Rmult_assoc. Qed.
Fact R1_neq_0 : R1 != R0.
Proof. by apply/eqP/R1_neq_R0. Qed.
Definition R_ringMixin := RingMixin RmultA Rmult_1_l Rmult_1_r
  Rmult_plus_distr_r Rmult_plus_distr_l R1_neq_0.
Canonical R_ringType := Eval hnf in RingType R R_ringMixin.
Canonical R_comRingType := Eval hnf in ComRingType R Rmult_comm.

Definition Rinvx (r : R) := if r != 0%Re then Rinv r else r.
Definition unit_R (r : R) := r != 0%Re.
Lemma RmultRinvx : {in unit_R, left_inverse 1%Re Rinvx Rmult}.
Proof.
move=> r; rewrite -topredE /unit_R /Rinvx => /= rNZ /=.
by rewrite rNZ Rinv_l //; apply/eqP.
Qed.
Lemma RinvxRmult : {in unit_R, right_inverse 1%Re Rinvx Rmult}.
Proof.
move=> r; rewrite -topredE /unit_R /Rinvx => /= rNZ /=.
by rewrite rNZ Rinv_r //; apply/eqP.
Qed.
Lemma intro_unit_R x y : (Rmult y x = R1 /\ Rmult x y = R1) -> unit_R x.
Proof.
move=> [yxE1 xyE1]; apply/eqP => xZ; case/eqP: R1_neq_0.
by rewrite -yxE1 xZ Rmult_0_r.
Qed.
Lemma Rinvx_out : {in predC unit_R, Rinvx =1 id}.
Proof. by move=> x; rewrite inE /= /Rinvx -if_neg => ->. Qed.
Definition R_unitRingMixin := UnitRingMixin RmultRinvx RinvxRmult intro_unit_R Rinvx_out.
Canonical R_unitRing := Eval hnf in UnitRingType R R_unitRingMixin.
Canonical R_comUnitRingType := Eval hnf in [comUnitRingType of R].
Lemma R_idomainMixin (x y : R) : Rmult x y = R0 -> (x == R0) || (y == R0).
Proof.
by move/Rmult_integral => [->|->]; rewrite eqxx ?orbT.
Qed.
Canonical R_idomainType := Eval hnf in IdomainType R R_idomainMixin.
Lemma R_field_mixin : GRing.Field.mixin_of [unitRingType of R].
Proof. by move=> x; rewrite -topredE. Qed.
Definition R_fieldIdomainMixin := FieldIdomainMixin R_field_mixin.
Canonical R_field := FieldType R R_field_mixin.

Definition Rleb (x y : R) : bool := if Rle_dec x y is left _ then true else false.
Definition Rltb (x y : R) : bool := if Rlt_dec x y is left _ then true else false.
Lemma RlebP x y : reflect (x <= y)%Re (Rleb x y).
Proof. by rewrite /Rleb; case: Rle_dec => H; constructor. Qed.
Lemma RltbP x y : reflect (x < y)%Re (Rltb x y).
Proof. by rewrite /Rltb; case: Rlt_dec => H; constructor. Qed.

Section ssreal.
Local Open Scope R_scope.
Lemma Rleb_norm_add x y : Rleb (Rabs (x + y)) (Rabs x + Rabs y).
Proof. by apply/RlebP/Rabs_triang. Qed.
Lemma addr_Rgtb0 x y : Rltb 0 x -> Rltb 0 y -> Rltb 0 (x + y).
Proof. by move/RltbP => Hx /RltbP Hy; apply/RltbP/Rplus_lt_0_compat. Qed.
Lemma Rnorm0_eq0 x : Rabs x = 0 -> x = 0.
Proof. by move=> H; case: (Req_EM_T x 0) => // Hx; case: (Rabs_no_R0 x Hx). Qed.
Lemma Rleb_leVge x y : Rleb 0 x -> Rleb 0 y -> (Rleb x y) || (Rleb y x).
Proof.
move=> _ _; case: (Rle_or_lt x y) => H; first by apply/orP; left; apply/RlebP.
by apply/orP; right; apply/RlebP; apply: Rlt_le.
Qed.
Lemma RnormM : {morph Rabs : x y / x * y}.
Proof. exact: Rabs_mult. Qed.
Lemma Rleb_def x y : (Rleb x y) = (Rabs (y - x) == y - x).
Proof.
apply/(sameP (RlebP x y))/(iffP idP) => [/eqP H | H].
  apply: Rminus_le; rewrite -Ropp_minus_distr; apply/Rge_le/Ropp_0_le_ge_contravar.
  by rewrite -H; apply: Rabs_pos.
apply/eqP/Rabs_pos_eq; apply: Rge_le; apply: Rge_minus; exact: Rle_ge.
Qed.
Lemma Rltb_def x y : (Rltb x y) = (y != x) && (Rleb x y).
Proof.
apply/(sameP (RltbP x y))/(iffP idP).
  case/andP => /eqP H /RlebP /Rle_not_gt H2.
  by case: (Rtotal_order x y) => // [[E|/H2//]]; case: H.
by move=> H; apply/andP; split; [apply/eqP => E; apply: (Rlt_irrefl x); rewrite -{2}E | apply/RlebP/Rlt_le].
Qed.
End ssreal.
Definition R_numMixin := NumMixin Rleb_norm_add addr_Rgtb0 Rnorm0_eq0 Rleb_leVge RnormM Rleb_def Rltb_def.
Canonical R_porderType := POrderType ring_display R R_numMixin.
Canonical R_numDomainType := NumDomainType R R_numMixin.
Canonical R_normedZmodType := NormedZmodType R R R_numMixin.
Canonical R_numFieldType := [numFieldType of R].
Lemma RleP x y : reflect (Rle x y) (x <= y)%O.
Proof. exact: RlebP. Qed.
Lemma RltP x y : reflect (Rlt x y) (x < y)%O.
Proof. exact: RltbP. Qed.
Lemma Rreal_axiom (x : R) : (0 <= x)%R || (x <= 0)%R.
Proof.
case: (Rle_dec 0 x) => H; first by rewrite (introT (RleP _ _) H).
by apply/orP; right; apply/RleP/Rlt_le/Rnot_le_lt.
Qed.
Lemma R_total : totalPOrderMixin R_porderType.
Proof.
move=> x y; case: (Rle_dec x y) => [/RleP -> //|/Rnot_le_lt /Rlt_le /RleP ->].
by rewrite orbT.
Qed.
Canonical R_latticeType := LatticeType R R_total.
Canonical R_distrLatticeType := DistrLatticeType R R_total.
Canonical R_orderType := OrderType R R_total.
Canonical R_realDomainType := [realDomainType of R].
Canonical R_realFieldType := [realFieldType of R].

Lemma horner_cont (p : {poly R}) : Ranalysis1.continuity (fun x => p.[x])%R.
Proof.
elim/poly_ind: p => [|p c IH].
  have -> : (fun x => (0 : {poly R}).[x])%R = Ranalysis1.fct_cte R0 by apply: functional_extensionality => x; rewrite horner0.
  exact: Ranalysis1.continuity_const.
have -> : (fun x => (p * 'X + c%:P).[x])%R = Ranalysis1.plus_fct (Ranalysis1.mult_fct (fun x => p.[x])%R Ranalysis1.id) (Ranalysis1.fct_cte c).
  by apply: functional_extensionality => x; rewrite !hornerE.
apply: Ranalysis1.continuity_plus; last exact: Ranalysis1.continuity_const.
apply: Ranalysis1.continuity_mult => //.
exact: derivable_continuous derivable_id.
Qed.
Lemma Rreal_closed_axiom : Num.real_closed_axiom R_numDomainType.
Proof.
move=> p a b /RleP Hab /andP [/RleP H1 /RleP H2].
case: (IVT_cor _ a b (horner_cont p) Hab) => [|z [[Ha Hb] Hz]].
  rewrite Rmult_comm -(Rmult_0_r p.[b]%R); apply: Rmult_le_compat_l => //.
by exists z; [apply/andP; split; apply/RleP | apply/eqP].
Qed.
Canonical R_rcfType := RcfType R Rreal_closed_axiom.
