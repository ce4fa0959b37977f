(** Proofs about the Cayley retraction and vector transport. *)
From mathcomp Require Import all_ssreflect all_algebra.
Require Import Ring Field.
From Verif Require Import MxTac StiefelModel StiefelSpec StiefelProofs StiefelRetr.
Import Order.TTheory GRing.Theory Num.Theory.
Set Implicit Arguments.
Unset Strict Implicit.
Local Open Scope ring_scope.

(** The Cayley transform of a skew matrix given in factored form. *)
Section transform.
Variable R : rcfType.
Add Field transform_field : (rcf_field R).
Local Notation half := (half R).
Variables n q : nat.
Implicit Type W : 'M[R]_n.

Lemma skew_quad W m (A : 'M[R]_(n, m)) : skew W -> inner A (W *m A) = 0.
Proof.
move=> HW; have E : inner A (W *m A) = - inner A (W *m A).
  rewrite -[in LHS](trmxK W) -inner_mull innerC.
  by rewrite HW mulNmx innerNr.
have : inner A (W *m A) *+ 2 = 0 by rewrite mulr2n {1}E addNr.
by move/eqP; rewrite mulrn_eq0 => /eqP.
Qed.
(** I - s W does not shorten. *)
Lemma skew_expand W s m (A : 'M[R]_(n, m)) : skew W ->
  inner A A <= inner (A - s *: (W *m A)) (A - s *: (W *m A)).
Proof.
move=> HW; have H0 := skew_quad A HW.
rewrite innerBl !innerBr !innerZl !innerZr [inner (W *m A) A]innerC H0 !mulr0 subr0 sub0r opprK mulrA.
by rewrite ler_addl mulr_ge0 ?inner_ge0 // -expr2 sqr_ge0.
Qed.
Lemma skew_fixed W m (A : 'M[R]_(n, m)) s : skew W -> A = s *: (W *m A) -> A = 0.
Proof.
move=> HW E; apply: inner_eq0; apply/eqP; rewrite eq_le inner_ge0 andbT.
by apply: le_trans (skew_expand s A HW) _; rewrite -E subrr inner0l.
Qed.
Definition cayley_of W s m (A B : 'M[R]_(n, m)) := B - A = s *: (W *m (A + B)).
Lemma cayley_inner W s m1 m2 (A B : 'M[R]_(n, m1)) (C D : 'M[R]_(n, m2)) : skew W ->
  cayley_of W s A B -> cayley_of W s C D -> B^T *m D = A^T *m C.
Proof.
move=> HW E1 E2; apply/eqP; rewrite -subr_eq0; apply/eqP.
have -> : B^T *m D - A^T *m C = half *: ((B - A)^T *m (C + D) + (A + B)^T *m (D - C)).
  by rewrite !(trD, trN) !mulmxDl !mulmxDr !mulNmx !mulmxN; mxlin R; rewrite /half; fld R.
rewrite E1 E2 trZ mulZl mulZr -scalerDr trM HW mulmxN mulNmx -[(A + B)^T *m W *m _]mulmxA addNr.
by rewrite !scaler0.
Qed.
Lemma cayley_unique W s m (A B B' : 'M[R]_(n, m)) : skew W ->
  cayley_of W s A B -> cayley_of W s A B' -> B = B'.
Proof.
rewrite /cayley_of => HW E1 E2; apply/eqP; rewrite -subr_eq0; apply/eqP; apply: (skew_fixed (s := s) HW).
transitivity ((B - A) - (B' - A)); first by mxlin R; rng R.
rewrite E1 E2 -scalerBr -mulmxBr; congr (_ *: (_ *m _)).
by mxlin R; rng R.
Qed.

Variables U V : 'M[R]_(n, q).
Hypothesis HW : skew (U *m V^T).
Lemma lup_unit s : 1%:M - s *: (V^T *m U) \in unitmx.
Proof.
apply: unit_cols => u; rewrite mulmxBl mul1mx mulZl => /eqP; rewrite subr_eq0 => /eqP Hu.
have H : U *m u = 0.
  by apply: (skew_fixed (s := s) HW); rewrite {1}Hu mulZr !mulmxA.
by rewrite Hu -mulmxA H mulmx0 scaler0.
Qed.
Lemma factored m (A : 'M[R]_(n, m)) :
  cayley_of (U *m V^T) half A (U *m (invmx (1%:M - half *: (V^T *m U)) *m (V^T *m A)) + A).
Proof.
set z := invmx _ *m _.
have Hz : z = V^T *m A + half *: (V^T *m U *m z).
  have := mulKVmx (lup_unit half) (V^T *m A); rewrite -/z mulmxBl mul1mx mulZl => /eqP.
  by rewrite subr_eq => /eqP.
rewrite /cayley_of addrK {1}Hz.
have -> : A + (U *m z + A) = A + A + U *m z by rewrite [U *m z + A]addrC addrA.
rewrite !mulmxDr !mulZr !mulmxA !scalerDr -scalerDl half2 scale1r.
by [].
Qed.
End transform.

Section cayley.
Variable R : rcfType.
Add Field cayley_field : (rcf_field R).
Variables p k : nat.
Local Notation half := (half R).
Local Notation ext := 'M[R]_(p + k, p).
Implicit Types x y v w eta xi : ext.

(** The skew matrix of a direction. *)
Definition cayW x eta : 'M[R]_(p + k) := cayU x eta *m (cayV x eta)^T.
Lemma cayU_E x eta : cayU x eta = row_mx (eta - x *m Mk211 x eta) x.
Proof. by rewrite /cayU /gemm scaleN1r scale1r addrC. Qed.
Lemma cayV_E x eta : cayV x eta = row_mx x (- (eta - x *m Mk211 x eta)).
Proof. by rewrite /cayV cayU_E row_mxKl row_mxKr. Qed.
Lemma cayW_E x eta : cayW x eta = (eta - x *m Mk211 x eta) *m x^T - x *m (eta - x *m Mk211 x eta)^T.
Proof. by rewrite /cayW cayU_E cayV_E tr_row_mx mul_row_col trN mulmxN. Qed.
Lemma cayW_skew x eta : skew (cayW x eta).
Proof. by rewrite cayW_E; set G := eta - _; move: G => G; rewrite /skew trD trN !trM !trmxK opprB. Qed.
Lemma Mk211_skew x eta : tangent x eta -> (Mk211 x eta)^T = - Mk211 x eta.
Proof. by move=> H; rewrite /Mk211 /gemm0 trZ (H : (x^T *m eta)^T = _) scalerN. Qed.
Lemma cayW_x x eta : orthonormal x -> tangent x eta -> cayW x eta *m x = eta.
Proof.
move=> Hx He; have HM := Mk211_skew He.
have EM : x^T *m eta = Mk211 x eta + Mk211 x eta.
  by rewrite /Mk211 /gemm0 -scalerDl half2 scale1r.
have HT : x *m eta^T *m x = - (x *m Mk211 x eta) - x *m Mk211 x eta.
  by rewrite -mulmxA (tangent_tr He) EM opprD mulmxDr mulmxN.
rewrite cayW_E; set M := Mk211 x eta in HM HT *; move: M HM HT => M HM HT.
rewrite !(trD, trN, trM) HM; mxz; rewrite HT ?(ortho_r _ Hx).
by mxlin R; rng R.
Qed.
Lemma Mk2_E x eta : orthonormal x -> tangent x eta -> Mk2 x eta = (cayV x eta)^T *m cayU x eta.
Proof.
move=> Hx He; have HM := Mk211_skew He; have HT := tangent_tr He.
have EM : x^T *m eta = Mk211 x eta + Mk211 x eta.
  by rewrite /Mk211 /gemm0 -scalerDl half2 scale1r.
rewrite /Mk2 cayU_E cayV_E tr_row_mx mul_col_row trN; congr block_mx.
- by rewrite mulmxBr mulmxA Hx mul1mx EM addrK.
- by rewrite Hx.
- rewrite /Mk221 /gemm /gemm0; set M := Mk211 x eta in HM EM *; clearbody M.
  rewrite trD trN trM HM; mxz; rewrite HT EM; mxz; rewrite ?(ortho_r _ Hx).
  rewrite -[M *m x^T *m eta]mulmxA EM; mxz.
  have -> : 3%:R = 1 + 1 + 1 :> R by rewrite -addrA !mulrS mulr0n addr0.
  by mxlin R; rng R.
- have -> : Mk222 x eta = - (Mk211 x eta)^T by apply/matrixP => i j; rewrite !mxE.
  set M := Mk211 x eta in HM EM *; clearbody M.
  rewrite mulNmx trD trN trM HM; mxz; rewrite HT ?(ortho_r _ Hx) EM.
  by mxlin R; rng R.
Qed.
Lemma Mk1_E x eta : orthonormal x -> tangent x eta -> Mk1 x eta = (cayV x eta)^T *m x.
Proof.
move=> Hx He; rewrite /Mk1 Mk2_E // {2}/cayV.
have -> : (cayV x eta)^T *m cayU x eta = (cayV x eta)^T *m row_mx (eta - x *m Mk211 x eta) x by rewrite cayU_E.
by rewrite mul_mx_row row_mxKr.
Qed.
Lemma LUP_E x eta : orthonormal x -> tangent x eta ->
  LUP x eta = 1%:M - half *: ((cayV x eta)^T *m cayU x eta).
Proof. by move=> Hx He; rewrite /LUP Mk2_E. Qed.
Lemma LUP_unit x eta : orthonormal x -> tangent x eta -> LUP x eta \in unitmx.
Proof. by move=> Hx He; rewrite LUP_E //; apply: lup_unit; apply: cayW_skew. Qed.
Lemma cayley_eq x eta : orthonormal x -> tangent x eta ->
  cayley_of (cayW x eta) half x (cayley_retraction x eta).
Proof.
move=> Hx He; rewrite /cayley_retraction /gemm !scale1r /Mk3 LUP_E // Mk1_E //.
by apply: factored; apply: cayW_skew.
Qed.
Lemma cayley_orth x eta : orthonormal x -> tangent x eta -> orthonormal (cayley_retraction x eta).
Proof.
move=> Hx He; have E := cayley_eq Hx He.
by rewrite /orthonormal (cayley_inner (cayW_skew x eta) E E).
Qed.
Lemma cayW0 x : cayW x 0 = 0.
Proof. by rewrite cayW_E /Mk211 /gemm0 mulmx0 scaler0 mulmx0 subr0 mul0mx trmx0 mulmx0 subr0. Qed.
Lemma tangent0 x : tangent x (0 : ext).
Proof. by rewrite /tangent /skew mulmx0 trmx0 oppr0. Qed.
Lemma cayley_zero x : orthonormal x -> cayley_retraction x 0 = x.
Proof.
move=> Hx; have := cayley_eq Hx (tangent0 x); rewrite /cayley_of cayW0 mul0mx scaler0 => /eqP.
by rewrite subr_eq0 => /eqP.
Qed.
Lemma cayWZ x eta s : cayW x (s *: eta) = s *: cayW x eta.
Proof.
have EM : Mk211 x (s *: eta) = s *: Mk211 x eta by rewrite /Mk211 /gemm0 mulZr !scalerA mulrC.
by rewrite !cayW_E EM mulZr -scalerBr trZ mulZl mulZr -scalerBr.
Qed.
Lemma tangentZ x s eta : tangent x eta -> tangent x (s *: eta).
Proof. by rewrite /tangent /skew mulZr trZ => ->; rewrite scalerN. Qed.
Lemma cayley_eq_s x eta s : orthonormal x -> tangent x eta ->
  cayley_of (cayW x eta) (half * s) x (cayley_retraction x (s *: eta)).
Proof.
move=> Hx He; have := cayley_eq Hx (tangentZ s He).
by rewrite /cayley_of cayWZ mulZl scalerA.
Qed.
(** To first order the retraction is x + t eta. *)
Lemma cayley_rigid x eta : orthonormal x -> tangent x eta -> exists C, forall t,
  inner (cayley_retraction x (t *: eta) - (x + t *: eta)) (cayley_retraction x (t *: eta) - (x + t *: eta)) <= C * t ^+ 4.
Proof.
move=> Hx He; exists (half ^+ 2 * inner (cayW x eta *m eta) (cayW x eta *m eta)) => t.
have HW := cayW_skew x eta; have E := cayley_eq_s t Hx He; have Ex := cayW_x Hx He.
set y := cayley_retraction _ _ in E *; set W := cayW x eta in HW E Ex *; clearbody y W.
apply: le_trans (skew_expand (half * t) _ HW) _.
have -> : y - (x + t *: eta) - half * t *: (W *m (y - (x + t *: eta))) = (half * t ^+ 2) *: (W *m eta).
  move: E; rewrite /cayley_of => /eqP; rewrite subr_eq => /eqP E.
  have EW : W *m (y - (x + t *: eta)) = W *m (x + y) - 2%:R *: eta - t *: (W *m eta).
    rewrite !mulmxDr mulmxN mulmxDr mulZr Ex.
    by mxlin R; rng R.
  rewrite EW {1}E; move: (W *m (x + y)) (W *m eta) => A B.
  by mxlin R; rewrite /half; fld R.
rewrite innerZl innerZr; set c := inner _ _; rewrite le_eqVlt; apply/orP; left; apply/eqP.
have -> : t ^+ 4 = t * t * (t * t) by rewrite -!expr2 -exprM.
by rng R.
Qed.

(** The transport is the same transform, applied to a tangent vector. *)
Lemma transport_eq x eta v : orthonormal x -> tangent x eta ->
  cayley_of (cayW x eta) half v (cayley_transport x eta v).
Proof.
move=> Hx He; rewrite /cayley_transport /gemm !scale1r LUP_E //.
by apply: factored; apply: cayW_skew.
Qed.
Lemma transport_inner x eta v w : orthonormal x -> tangent x eta ->
  (cayley_transport x eta v)^T *m cayley_transport x eta w = v^T *m w.
Proof.
move=> Hx He; exact: (cayley_inner (cayW_skew x eta) (transport_eq v Hx He) (transport_eq w Hx He)).
Qed.
Lemma transport_point x eta v : orthonormal x -> tangent x eta ->
  (cayley_retraction x eta)^T *m cayley_transport x eta v = x^T *m v.
Proof.
move=> Hx He; exact: (cayley_inner (cayW_skew x eta) (cayley_eq Hx He) (transport_eq v Hx He)).
Qed.
Lemma transport_tangent x eta v : orthonormal x -> tangent x eta -> tangent x v ->
  tangent (cayley_retraction x eta) (cayley_transport x eta v).
Proof. by move=> Hx He Hv; rewrite /tangent transport_point. Qed.
Lemma inverse_eq x eta w : orthonormal x -> tangent x eta ->
  cayley_of (- cayW x eta) half w (cayley_inverse_transport x eta w).
Proof.
move=> Hx He; rewrite /cayley_inverse_transport /gemm !scale1r LUP_E // trD trN trmx1 trZ trM trmxK.
have -> : - cayW x eta = cayV x eta *m (cayU x eta)^T.
  by rewrite -(cayW_skew x eta : (cayW x eta)^T = _) trM trmxK.
apply: factored.
have -> : cayV x eta *m (cayU x eta)^T = (cayW x eta)^T by rewrite trM trmxK.
by rewrite /skew trmxK (cayW_skew x eta : (cayW x eta)^T = _) opprK.
Qed.
Lemma cayley_of_sym n (W : 'M[R]_n) s m (A B : 'M[R]_(n, m)) : cayley_of W s A B -> cayley_of (- W) s B A.
Proof. by rewrite /cayley_of mulNmx scalerN [B + A]addrC => <-; rewrite opprB. Qed.
Lemma transport_inverse x eta v : orthonormal x -> tangent x eta ->
  cayley_inverse_transport x eta (cayley_transport x eta v) = v.
Proof.
move=> Hx He; apply: (cayley_unique (W := - cayW x eta) (s := half)); first 2 last.
- exact/cayley_of_sym/transport_eq.
- by rewrite /skew trN (cayW_skew x eta : (cayW x eta)^T = _).
exact: inverse_eq.
Qed.
Lemma inverse_transport x eta w : orthonormal x -> tangent x eta ->
  cayley_transport x eta (cayley_inverse_transport x eta w) = w.
Proof.
move=> Hx He; apply: (cayley_unique (cayW_skew x eta) (transport_eq _ Hx He)).
by rewrite -[cayW x eta]opprK; apply/cayley_of_sym/inverse_eq.
Qed.
Lemma inverse_tangent x eta w : orthonormal x -> tangent x eta ->
  tangent (cayley_retraction x eta) w -> tangent x (cayley_inverse_transport x eta w).
Proof.
by move=> Hx He; rewrite -{1}(inverse_transport w Hx He) /tangent transport_point.
Qed.

(** DiffCayleyRetraction along eta. *)
Lemma diff_cayley_eq alpha x eta : orthonormal x -> tangent x eta ->
  let y := cayley_retraction x eta in let d := diff_cayley 1 x eta in
  diff_cayley alpha x eta = alpha *: d /\ d - half *: (cayW x eta *m d) = half *: (cayW x eta *m (x + y)).
Proof.
move=> Hx He y d; split; first by rewrite /d /diff_cayley scale1r.
have HU := LUP_unit Hx He.
have E3 : Mk1 x eta + half *: (Mk2 x eta *m Mk3 x eta) = Mk3 x eta.
  have : LUP x eta *m Mk3 x eta = Mk1 x eta by rewrite /Mk3 mulKVmx.
  by rewrite {1}/LUP mulmxBl mul1mx mulZl => <-; rewrite subrK.
have Ed : d = cayU x eta *m (invmx (LUP x eta) *m Mk3 x eta).
  rewrite /d /diff_cayley scale1r E3; congr (_ *m _).
  have -> : Mk3 x eta + half *: (invmx (LUP x eta) *m (Mk2 x eta *m Mk3 x eta)) =
     invmx (LUP x eta) *m (LUP x eta *m Mk3 x eta + half *: (Mk2 x eta *m Mk3 x eta)).
    by rewrite mulmxDr mulKmx // mulZr.
  by congr (_ *m _); rewrite {1}/LUP mulmxBl mul1mx mulZl subrK.
rewrite -(cayley_eq Hx He) -/y.
have -> : y - x = cayU x eta *m Mk3 x eta by rewrite /y /cayley_retraction /gemm !scale1r addrK.
have EW : d - half *: (cayW x eta *m d) = cayU x eta *m (LUP x eta *m (invmx (LUP x eta) *m Mk3 x eta)).
  rewrite Ed; move: (invmx _ *m _) => z; rewrite LUP_E // mulmxBl mul1mx mulmxBr mulZl mulZr /cayW.
  by rewrite !mulmxA.
by rewrite EW mulKVmx.
Qed.
(** It is the derivative of s |-> cayley_retraction x (s eta) at s = 1. *)
Lemma diff_cayley_ok alpha x eta : orthonormal x -> tangent x eta -> exists C, forall t,
  inner (cayley_retraction x (eta + t *: (alpha *: eta)) - (cayley_retraction x eta + t *: diff_cayley alpha x eta))
        (cayley_retraction x (eta + t *: (alpha *: eta)) - (cayley_retraction x eta + t *: diff_cayley alpha x eta))
  <= C * t ^+ 4.
Proof.
move=> Hx He; have [-> Ed] := diff_cayley_eq alpha Hx He.
set d := diff_cayley 1 x eta in Ed *; clearbody d.
set y := cayley_retraction x eta in Ed *.
have HW := cayW_skew x eta; set W := cayW x eta in Ed HW *.
exists ((half * alpha ^+ 2) ^+ 2 * inner (W *m d) (W *m d)) => t.
have -> : eta + t *: (alpha *: eta) = (1 + t * alpha) *: eta by rewrite scalerDl scale1r scalerA.
set s := t * alpha; have E := cayley_eq_s (1 + s) Hx He; have Ey := cayley_eq Hx He.
rewrite -/W -/y in E Ey; clearbody y W; set z := cayley_retraction _ _ in E *; clearbody z.
apply: le_trans (skew_expand (half * (1 + s)) _ HW) _.
have -> : z - (y + t *: (alpha *: d)) - half * (1 + s) *: (W *m (z - (y + t *: (alpha *: d)))) =
   (half * s ^+ 2) *: (W *m d).
  move: E Ey Ed; rewrite /cayley_of scalerA -/s ?(mulmxDr, mulmxN, mulZr).
  move: (W *m x) (W *m y) (W *m z) (W *m d) => wx wy wz wd E Ey Ed.
  have -> : z = x + half * (1 + s) *: (wx + wz) by rewrite -E addrC subrK.
  have -> : y = x + half *: (wx + wy) by rewrite -Ey addrC subrK.
  have -> : d = half *: wd + half *: (wx + wy) by rewrite -Ed addrC subrK.
  by mxlin R; rewrite /half; fld R.
rewrite innerZl innerZr; set c := inner _ _; rewrite le_eqVlt; apply/orP; left; apply/eqP.
have -> : t ^+ 4 = t * t * (t * t) by rewrite -!expr2 -exprM.
by rewrite /s; rng R.
Qed.
End cayley.
