(** Proofs about the complex Stiefel manifold's projection, gradients and Hessian. *)
From mathcomp Require Import all_ssreflect all_algebra.
From mathcomp.real_closed Require Import complex.
Require Import Ring Field.
From Verif Require Import MxTac StiefelModel CStieSpec CStieModel CMx.
Import Order.TTheory GRing.Theory Num.Theory.
Set Implicit Arguments.
Unset Strict Implicit.
Local Open Scope ring_scope.
Local Open Scope complex_scope.

Section projections.
Variable R : rcfType.
Local Notation C := R[i].
Add Field cproj_field : (rcf_field R).
Add Ring cproj_ring : (kring R).
Variables p k : nat.
Local Notation ext := 'M[C]_(p + k, p).
Implicit Types x y v w eta xi g : ext.

Lemma cprojE x eta : cprojection x eta = eta - x *m herm_part (adj x *m eta).
Proof. by rewrite /cprojection /cgemm /cgemm0 !scale1r scaleN1r addrC. Qed.
Lemma cproj_tangent x eta : unitary x -> ctangent x (cprojection x eta).
Proof.
by move=> Hx; rewrite /ctangent cprojE mulmxBr mulmxA Hx mul1mx; apply: herm_part_anti.
Qed.
Lemma cproj_id x v : ctangent x v -> cprojection x v = v.
Proof. by move=> H; rewrite cprojE herm_part_skew // mulmx0 subr0. Qed.
Lemma cproj_orth x eta v : ctangent x v -> cinner (eta - cprojection x eta) v = 0.
Proof.
move=> Hv; rewrite cprojE opprB addrC subrK cinner_mull; apply: herm_skew => //.
exact: herm_partH.
Qed.
Lemma cproj_normal x eta : cnormal x (eta - cprojection x eta).
Proof. by exists (herm_part (adj x *m eta)); split; [exact: herm_partH | rewrite cprojE opprB addrC subrK]. Qed.
Lemma cproj_inner x eta v : ctangent x v -> cinner (cprojection x eta) v = cinner eta v.
Proof. by move=> Hv; rewrite -[in RHS](subrK (cprojection x eta) eta) cinnerDl cproj_orth // add0r. Qed.
Lemma cproj_idem x eta : unitary x -> cprojection x (cprojection x eta) = cprojection x eta.
Proof. by move=> Hx; apply/cproj_id/cproj_tangent. Qed.
Lemma ctangentB x v w : ctangent x v -> ctangent x w -> ctangent x (v - w).
Proof. by move=> H1 H2; rewrite /ctangent mulmxBr; apply: skewD => //; apply: skewN. Qed.
Lemma cproj_nearest x eta v : unitary x -> ctangent x v ->
  cinner (eta - cprojection x eta) (eta - cprojection x eta) <= cinner (eta - v) (eta - v).
Proof.
move=> Hx Hv; set P := cprojection x eta.
have HP : ctangent x (P - v) by apply: ctangentB => //; apply: cproj_tangent.
have -> : eta - v = (eta - P) + (P - v) by rewrite addrA subrK.
by apply: cinner_pyth; apply: cproj_orth.
Qed.
Lemma cprojD x a b : cprojection x (a + b) = cprojection x a + cprojection x b.
Proof. by rewrite !cprojE mulmxDr herm_partD mulmxDr opprD addrACA. Qed.
Lemma cprojN x a : cprojection x (- a) = - cprojection x a.
Proof. by rewrite !cprojE mulmxN herm_partN mulmxN opprB addrC opprK. Qed.
Lemma cprojZ x (a : R) b : cprojection x (a%:C *: b) = a%:C *: cprojection x b.
Proof. by rewrite !cprojE kmulZr herm_partZ kmulZr scalerBr. Qed.
(** A contraction. *)
Lemma cproj_contract x eta : unitary x -> cinner (cprojection x eta) (cprojection x eta) <= cinner eta eta.
Proof.
move=> Hx; have := cinner_pyth (A := cprojection x eta) (B := eta - cprojection x eta).
rewrite [cprojection x eta + _]addrC subrK; apply; rewrite cinnerC; apply: cproj_orth.
exact: cproj_tangent.
Qed.

(** Gradients. *)
Lemma cmetric_eucE eta xi : cmetric_euclidean eta xi = cinner eta xi.
Proof. exact: cdotE. Qed.
Lemma cmetric_canE x eta xi :
  cmetric_canonical x eta xi = cinner eta xi - half R * cinner (adj eta *m x) (adj xi *m x).
Proof. by rewrite /cmetric_canonical !cdotE /cgemm0 !scale1r. Qed.
Lemma cgradcE x g : cgrad_canonical x g = g - x *m (adj g *m x).
Proof. by rewrite /cgrad_canonical /cgemm /cgemm0 !scale1r scaleN1r addrC. Qed.
Lemma cgrad_euc_ok x g v : unitary x -> ctangent x v ->
  ctangent x (cgrad_euclidean x g) /\ cmetric_euclidean (cgrad_euclidean x g) v = cinner g v.
Proof. by move=> Hx Hv; split; [apply: cproj_tangent | rewrite cmetric_eucE; apply: cproj_inner]. Qed.
Lemma ctangent_adj x v : ctangent x v -> adj v *m x = - (adj x *m v).
Proof. by move=> <-; rewrite adjM adjK. Qed.
Lemma cgrad_can_ok x g v : unitary x -> ctangent x v ->
  ctangent x (cgrad_canonical x g) /\ cmetric_canonical x (cgrad_canonical x g) v = cinner g v.
Proof.
move=> Hx Hv; rewrite cgradcE.
have Eg : adj x *m (g - x *m (adj g *m x)) = adj x *m g - adj g *m x.
  by rewrite mulmxBr [adj x *m (x *m _)]mulmxA Hx mul1mx.
have T : skew_hermitian (adj x *m g - adj g *m x).
  by rewrite /skew_hermitian adjB !adjM !adjK opprB.
split; first by rewrite /ctangent Eg.
rewrite cmetric_canE.
have -> : adj (g - x *m (adj g *m x)) *m x = - (adj x *m g - adj g *m x).
  by rewrite -T -Eg adjM adjK.
rewrite (ctangent_adj Hv) cinnerNl cinnerNr opprK cinnerBl cinner_mull.
set W := adj x *m v; set A := adj g *m x.
have -> : cinner (adj x *m g - A) W = - (cinner A W *+ 2).
  rewrite cinnerBl; have -> : cinner (adj x *m g) W = - cinner A W.
    by rewrite -cinner_adj (Hv : adj W = _) cinnerNr adjM adjK.
  by rng R.
by rewrite /half; fld R.
Qed.

(** The Hessian. *)
Lemma chess_eucE x eta e G : chess_euclidean x eta e G =
  cprojection x (e - eta *m herm_part (adj x *m G)).
Proof. by rewrite /chess_euclidean /cgemm /cgemm0 !scale1r scaleN1r [in LHS]addrC. Qed.
Lemma cproj_xS x (S : 'M[C]_p) : unitary x -> hermitian S -> cprojection x (x *m S) = 0.
Proof. by move=> Hx HS; rewrite cprojE mulmxA Hx mul1mx herm_part_id // subrr. Qed.
Lemma chess_euc_sym x eta xi e f G : ctangent x eta -> ctangent x xi ->
  cinner e xi = cinner eta f ->
  cinner (chess_euclidean x eta e G) xi = cinner eta (chess_euclidean x xi f G).
Proof.
move=> He Hi H; rewrite !chess_eucE cproj_inner // [in RHS]cinnerC cproj_inner //.
rewrite cinnerBl [in RHS]cinnerBl H [cinner f eta]cinnerC; congr (_ - _).
by rewrite [LHS]cinner_mulr [in RHS]cinnerC (herm_partH _ : adj _ = _).
Qed.
Lemma chess_euc_derivative x eta G dG : unitary x -> exists D E F,
  (forall t : R, cgrad_euclidean (x + rscale t eta) (G + rscale t dG) =
     cgrad_euclidean x G + rscale t D + rscale (t ^+ 2) E + rscale (t ^+ 3) F) /\
  cprojection x D = chess_euclidean x eta dG G.
Proof.
move=> Hx; rewrite /cgrad_euclidean /rscale.
pose S0 := herm_part (adj x *m G).
pose S1 := herm_part (adj eta *m G + adj x *m dG).
pose S2 := herm_part (adj eta *m dG).
exists (dG - eta *m S0 - x *m S1), (- (eta *m S1) - x *m S2), (- (eta *m S2)); split.
  move=> t; rewrite !cprojE -/S0.
  have -> : herm_part (adj (x + t%:C *: eta) *m (G + t%:C *: dG)) = S0 + t%:C *: S1 + (t ^+ 2)%:C *: S2.
    rewrite -!herm_partZ -!herm_partD; congr herm_part.
    by rewrite adjD adjR !mulmxDl !mulmxDr !kmulZl !kmulZr scalerA rcX expr2 scalerDr -!addrA; congr (_ + _); rewrite addrCA.
  rewrite rcX rcX; move: S0 S1 S2 (t%:C) => S0 S1 S2 c.
  rewrite !mulmxDl !mulmxDr !kmulZl !kmulZr; mxlin R.
  by rewrite !exprS expr0; krng R.
rewrite chess_eucE -/S0 [in LHS]cprojD [X in _ + X = _]cprojN cproj_xS ?subr0 //.
exact: herm_partH.
Qed.
End projections.
