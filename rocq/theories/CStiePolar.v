(** Proofs about the polar retraction of the complex Stiefel manifold and its derivative, and about
    the first order behaviour of both retractions. *)
From mathcomp Require Import all_ssreflect all_algebra.
From mathcomp.real_closed Require Import complex.
Require Import Ring Field.
From Verif Require Import MxTac StiefelModel CStieSpec CStieModel CMx CStieProofs CStieRetr.
Import Order.TTheory GRing.Theory Num.Theory.
Set Implicit Arguments.
Unset Strict Implicit.
Local Open Scope ring_scope.
Local Open Scope complex_scope.

Section psd.
Variable R : rcfType.
Local Notation C := R[i].
Local Notation re := (@complex.Re R).
Local Notation im := (@complex.Im R).
Add Field cpsd_field : (rcf_field R).
Add Ring cpsd_ring : (kring R).
Lemma quadE n (A : 'M[C]_n) (v : 'cV[C]_n) : re ((adj v *m A *m v) 0 0) = cinner v (A *m v).
Proof. by rewrite /cinner mulmxA /mxtrace big_ord1. Qed.
Definition cpsd n (A : 'M[C]_n) := hermitian A /\ forall v : 'cV[C]_n, 0 <= cinner v (A *m v).
Lemma cposdef_psd n (A : 'M[C]_n) : cposdef A -> cpsd A.
Proof.
move=> [H1 H2]; split=> // v; case: (altP (v =P 0)) => [->|Hv]; first by rewrite cinner0l.
by have := H2 v Hv; rewrite quadE => /ltW.
Qed.
Lemma cinner_cols m n (A : 'M[C]_m) (D : 'M[C]_(m, n)) :
  cinner D (A *m D) = \sum_j cinner (col j D) (A *m col j D).
Proof.
rewrite -cdotE /cdot exchange_big /=; apply: eq_bigr => j _; rewrite -cdotE /cdot; apply: eq_bigr => i _.
have E : A *m col j D = col j (A *m D) by rewrite !colE mulmxA.
by rewrite big_ord1 E [col j D i 0]mxE [col j _ i 0]mxE.
Qed.
Lemma cpsd_inner m n (A : 'M[C]_m) (D : 'M[C]_(m, n)) : cpsd A -> 0 <= cinner D (A *m D).
Proof. by move=> [_ H]; rewrite cinner_cols; apply: sumr_ge0 => j _; apply: H. Qed.
Lemma cpd_inner m n (A : 'M[C]_m) (D : 'M[C]_(m, n)) : cposdef A -> cinner D (A *m D) = 0 -> D = 0.
Proof.
move=> HA; rewrite cinner_cols => /eqP; rewrite psumr_eq0 => [/allP H|j _]; last by case: (cposdef_psd HA).
apply/matrixP => i j; rewrite [RHS]mxE.
have := H j; rewrite mem_index_enum => /(_ isT) /= E.
case: (altP (col j D =P 0)) => [E'|Hn].
  by have := congr1 (fun B : 'cV_m => B i 0) E'; rewrite !mxE.
by case: HA => _ /(_ _ Hn); rewrite quadE (eqP E) ltxx.
Qed.
Lemma csylvester0 n (P Q D : 'M[C]_n) : cposdef P -> cpsd Q -> P *m D + D *m Q = 0 -> D = 0.
Proof.
move=> HP HQ E; apply: (cpd_inner HP).
have : cinner D (P *m D + D *m Q) = 0 by rewrite E cinner0r.
rewrite cinnerDr; have -> : cinner D (D *m Q) = cinner (adj D) (Q *m adj D).
  by rewrite -cinner_adj adjM; case: HQ => ->.
have H1 := cpsd_inner (adj D) HQ; have H2 := cpsd_inner D (cposdef_psd HP).
move=> E2; apply/eqP; rewrite eq_le H2 andbT.
by rewrite -(ler_add2r (cinner (adj D) (Q *m adj D))) E2 add0r.
Qed.
Lemma csqrt_unique n (P Q : 'M[C]_n) : cposdef P -> cpsd Q -> P *m P = Q *m Q -> P = Q.
Proof.
move=> HP HQ E; apply/eqP; rewrite -subr_eq0; apply/eqP; apply: (csylvester0 HP HQ).
by rewrite mulmxBr mulmxBl E addrC addrA subrK subrr.
Qed.
Lemma cposdef_unit n (P : 'M[C]_n) : cposdef P -> P \in unitmx.
Proof.
move=> HP; apply: cunit_cols => u Hu; apply: (cpd_inner HP).
by rewrite Hu cinner0r.
Qed.
Lemma cposdef1 n : cposdef (1%:M : 'M[C]_n).
Proof.
split=> [|v Hv]; first exact: adj1.
rewrite quadE mul1mx lt_neqAle cinner_ge0 andbT eq_sym; apply/eqP => /cinner_eq0 E.
by rewrite E eqxx in Hv.
Qed.
(** A positive semidefinite invertible matrix is positive definite. *)
Lemma cpsd_unit_posdef n (P : 'M[C]_n) : cpsd P -> P \in unitmx -> cposdef P.
Proof.
move=> [HP H] HU; split=> // v Hv; rewrite quadE lt_neqAle H andbT eq_sym; apply/eqP => E0.
pose w := P *m v; pose a := cinner w w; pose b := cinner w (P *m w).
have Hw : w != 0.
  by apply/eqP => Ew; move/eqP: Hv; apply; rewrite -[v]mul1mx -(mulVmx HU) -mulmxA -/w Ew mulmx0.
have Ha : 0 < a by rewrite lt_neqAle cinner_ge0 andbT eq_sym; apply/eqP => /cinner_eq0 E; rewrite E eqxx in Hw.
have Q t : 0 <= - (t *+ 2 * a) + t ^+ 2 * b.
  have := H (v - t%:C *: w).
  have -> : cinner (v - t%:C *: w) (P *m (v - t%:C *: w)) = - (t *+ 2 * a) + t ^+ 2 * b.
    rewrite mulmxBr kmulZr -/w cinnerBl !cinnerBr !cinnerZl !cinnerZr E0 -/a -/b.
    have -> : cinner v (P *m w) = a by rewrite -[P *m w]/(P *m w) -{1}(HP : adj P = P) -cinner_mull.
    by rng R.
  by [].
have Hb : 0 <= b by exact: H.
have Hb1 : 0 < b + 1 by rewrite ltr_spaddr ?ltr01.
have Hb0 : b + 1 != 0 by rewrite gt_eqF.
have := Q (a / (b + 1)); rewrite leNgt => /negP; apply.
have -> : - (a / (b + 1) *+ 2 * a) + (a / (b + 1)) ^+ 2 * b = - ((a / (b + 1)) ^+ 2 * (b + 1 + 1)).
  by toR R; field; apply/eqP.
by rewrite oppr_lt0 mulr_gt0 ?exprn_gt0 ?divr_gt0 // addr_gt0 // ltr01.
Qed.
End psd.

Section polar.
Variable R : rcfType.
Local Notation C := R[i].
Local Notation re := (@complex.Re R).
Local Notation im := (@complex.Im R).
Add Field cpolar_field : (rcf_field R).
Add Ring cpolar_ring : (kring R).
Variables p k : nat.
Local Notation ext := 'M[C]_(p + k, p).
Implicit Types x y v w z eta xi Y U : ext.
Implicit Types P Vt : 'M[C]_p.

Lemma unitary_adj n (V : 'M[C]_n) : unitary (adj V) -> V *m adj V = 1%:M /\ adj V *m V = 1%:M.
Proof. by rewrite /unitary adjK => H; split=> //; apply: mulmx1C. Qed.
Lemma rdiag_entry n (S : 'rV[R]_n) i j : rdiag S i j = (S 0 i *+ (i == j))%:C.
Proof. by rewrite !mxE; case: eqP => [->|_]; rewrite ?mulr1n ?mulr0n. Qed.
Lemma rdiag_mul n m (S : 'rV[R]_n) (A : 'M[C]_(n, m)) i j : (rdiag S *m A) i j = (S 0 i)%:C * A i j.
Proof. by rewrite /rdiag mul_diag_mx !mxE. Qed.
Lemma csvd_polar (A U : ext) S Vt : is_csvd A U S Vt ->
  A = (U *m Vt) *m (adj Vt *m rdiag S *m Vt) /\ unitary (U *m Vt) /\ cpsd (adj Vt *m rdiag S *m Vt).
Proof.
case=> HA HU HV HS; have [HVV HV'] := unitary_adj HV.
split; first by rewrite HA -!mulmxA [Vt *m (adj Vt *m _)]mulmxA HVV mul1mx.
split; first by rewrite /unitary adjM mulmxA -[adj Vt *m adj U *m U]mulmxA HU mulmx1.
split; first by rewrite /hermitian !adjM adj_rdiag adjK mulmxA.
move=> v; rewrite -!mulmxA -{1}[adj Vt]/(adj Vt) -cinner_mull -cdotE /cdot.
apply: sumr_ge0 => i _; apply: sumr_ge0 => j _; rewrite rdiag_mul.
move: ((Vt *m v) i j) => c; rewrite reM imM /= !mul0r subr0 addr0 !mulrA ![_ * S 0 i]mulrC -!mulrA -mulrDr.
by rewrite mulr_ge0 // sq2_ge0.
Qed.
Lemma cpolar_gram (A Y : ext) P : A = Y *m P -> unitary Y -> hermitian P -> adj A *m A = P *m P.
Proof. by move=> -> HY HP; rewrite adjM mulmxA -[_ *m adj Y *m Y]mulmxA HY mulmx1 HP. Qed.
Lemma cpolar_unique (A Y Y' : ext) P P' : A = Y *m P -> A = Y' *m P' -> unitary Y -> unitary Y' ->
  cposdef P -> cpsd P' -> Y = Y' /\ P = P'.
Proof.
move=> E E' HY HY' HP HP'.
have EP : P = P'.
  apply: csqrt_unique => //.
  by rewrite -(cpolar_gram E HY) ?(cpolar_gram E' HY') //; [case: HP' | case: HP].
split=> //; have HU := cposdef_unit HP.
have E2 : Y' *m P = A by rewrite EP -E'.
by rewrite -[Y](mulmxK HU) -[Y'](mulmxK HU) -E E2.
Qed.

Section oracle.
Variable SVD : ext -> ext * 'rV[R]_p * 'M[C]_p.
Lemma cpolarE x eta : cpolar_retraction SVD x eta = (SVD (x + eta)).1.1 *m (SVD (x + eta)).2.
Proof. by rewrite /cpolar_retraction addrC; case: (SVD _) => [[U S] Vt]. Qed.
Lemma cpolar_unitary x eta : csvd_at SVD (x + eta) -> unitary (cpolar_retraction SVD x eta).
Proof. by move=> SVD_ok; rewrite cpolarE; have [_ []] := csvd_polar SVD_ok. Qed.
Lemma cpolar_ok x eta : csvd_at SVD (x + eta) -> unitary x -> ctangent x eta -> exists P,
  cposdef P /\ x + eta = cpolar_retraction SVD x eta *m P /\ P *m P = 1%:M + adj eta *m eta /\
  P = adj (SVD (x + eta)).2 *m rdiag (SVD (x + eta)).1.2 *m (SVD (x + eta)).2.
Proof.
move=> SVD_ok Hx He; rewrite cpolarE; have [E [HY HP]] := csvd_polar SVD_ok.
set P := adj _ *m _ *m _ in E HP.
have EP : P *m P = 1%:M + adj eta *m eta.
  rewrite -(cpolar_gram E HY); last by case: HP.
  exact: ctangent_gram.
exists P; split; last by [].
apply: cpsd_unit_posdef => //; apply: (cgram_unit (eta := eta)).
by case: HP => -> _.
Qed.
Lemma cpolar_zero x : csvd_at SVD x -> unitary x -> cpolar_retraction SVD x 0 = x.
Proof.
move=> SVD_ok Hx; rewrite cpolarE addr0; have [E [HY HP]] := csvd_polar SVD_ok.
have Ex : x = x *m 1%:M by rewrite mulmx1.
by have [<-] := cpolar_unique Ex E Hx HY (cposdef1 _ _) HP.
Qed.
Lemma cpolar_nearest x eta z : csvd_at SVD (x + eta) -> unitary z ->
  cinner (x + eta - cpolar_retraction SVD x eta) (x + eta - cpolar_retraction SVD x eta) <=
  cinner (x + eta - z) (x + eta - z).
Proof.
move=> SVD_ok Hz; have Hy := cpolar_unitary SVD_ok.
have [E [_ HP]] := csvd_polar SVD_ok; rewrite -cpolarE in E.
set y := cpolar_retraction SVD x eta in E Hy *; set P := adj _ *m _ *m _ in E HP.
rewrite E; have X w : unitary w -> cinner (y *m P - w) (y *m P - w) =
    cinner (y *m P) (y *m P) - cinner w (y *m P) *+ 2 + re (\tr (1%:M : 'M[C]_p)).
  move=> Hw; have E1 : cinner w w = re (\tr (1%:M : 'M[C]_p)) by rewrite /cinner Hw.
  by rewrite cinnerBl !cinnerBr [cinner (y *m P) w]cinnerC E1; rng R.
rewrite !X // ler_add2r ler_add2l ler_opp2 ler_wmuln2r //.
have PE w : cinner w (y *m P) = cinner (adj w) (P *m adj y).
  by rewrite -cinner_adj adjM; case: HP => -> _.
have H : 0 <= cinner (adj (y - z)) (P *m adj (y - z)) by apply: cpsd_inner.
move: H; rewrite adjB mulmxBr cinnerBl !cinnerBr -!PE.
have Q w : unitary w -> cinner (adj w) (P *m adj w) = cinner y (y *m P).
  move=> Hw; rewrite -[in LHS]cinner_adj adjM !adjK; case: HP => -> _.
  by rewrite cinnerC cinner_mull Hw cinnerC [RHS]cinnerC cinner_mull Hy cinnerC.
have S : cinner (adj y) (P *m adj z) = cinner z (y *m P).
  rewrite PE cinnerC cinner_mull; case: (HP) => -> _.
  by rewrite cinnerC.
rewrite S [cinner (adj z) (P *m adj z)]Q //.
move: (cinner y _) (cinner z _) => a b.
have -> : a - b - (b - a) = (a - b) *+ 2 by rng R.
by rewrite pmulrn_lge0 // subr_ge0.
Qed.

(** The derivative along the step itself. *)
Lemma cdiff_polar_ok (alpha : R) x eta : csvd_at SVD (x + eta) -> unitary x -> ctangent x eta ->
  let y := cpolar_retraction SVD x eta in
  let d := cdiff_polar (SVD (x + eta)).1.2 (SVD (x + eta)).2 alpha y eta in
  ctangent y d /\ exists P dP, cposdef P /\ x + eta = y *m P /\ hermitian dP /\ d *m P + y *m dP = rscale alpha eta.
Proof.
move=> SVD_ok Hx He y d; have [P [HP [EP [EPP ES]]]] := cpolar_ok SVD_ok Hx He; rewrite -/y in EP.
have Hy : unitary y by exact: cpolar_unitary.
have HU := cposdef_unit HP; case: (HP) => HPs _.
have HIs : adj (invmx P) = invmx P by have [_ <-] := adj_unit HU; rewrite HPs.
have Ed : d = alpha%:C *: (eta *m invmx P - y *m (invmx P *m adj eta *m eta *m invmx P)).
  rewrite /d /cdiff_polar /cgemm /cgemm0 !scale1r.
  set S := (SVD (x + eta)).1.2; set Vt := (SVD (x + eta)).2.
  have -> : eta *m adj Vt *m rdiag (\row_i (1 / S 0 i)) *m Vt = eta *m invmx P.
    rewrite -!mulmxA; congr (_ *m _); rewrite mulmxA; symmetry.
    have HV : unitary (adj Vt) by case: SVD_ok.
    have [HVV HV'] := unitary_adj HV.
    have HD : rdiag S *m rdiag (\row_i (1 / S 0 i)) = 1%:M.
      have HDu : rdiag S \in unitmx.
        by move: HU; rewrite ES -/S -/Vt !unitmx_mul => /andP [/andP [_ H] _].
      have Hup : cupper (rdiag S).
        by move=> a b Hab; rewrite rdiag_entry; case: eqP => // E; move: Hab; rewrite E ltnn.
      apply/matrixP => i j; rewrite rdiag_mul rdiag_entry !mxE.
      have := cupper_unit_diag Hup HDu i; rewrite rdiag_entry eqxx mulr1n => H.
      case: eqP => _; last by rewrite !mulr0n mulr0.
      rewrite !mulr1n -rcM mul1r divff //.
      by apply: contra_neq H => ->.
    have EE : P *m (adj Vt *m rdiag (\row_i (1 / S 0 i)) *m Vt) = 1%:M.
      rewrite ES -/S -/Vt !mulmxA -[_ *m Vt *m adj Vt]mulmxA HVV mulmx1 -[_ *m rdiag _ *m rdiag _]mulmxA HD.
      by rewrite mulmx1.
    by rewrite -[LHS]mulmx1 -EE mulKmx.
  rewrite adjM HIs !mulmxA scalerBr addrC scaleNr; congr (_ - _).
have EYP : P *m adj y = adj x + adj eta by rewrite -adjD EP adjM HPs.
set N := invmx P *m adj eta *m eta *m invmx P in Ed.
have HN : adj N = N by rewrite /N !adjM adjK HIs !mulmxA.
split.
  have K : adj y *m eta *m invmx P + invmx P *m adj eta *m y = N + N.
    have -> : adj y *m eta = invmx P *m (adj x + adj eta) *m eta by rewrite -EYP mulKmx.
    rewrite -[invmx P *m adj eta *m y]mulmxA.
    have -> : adj eta *m y = adj eta *m (x + eta) *m invmx P by rewrite EP mulmxA mulmxK.
    have T := ctangent_adj He.
    rewrite !mulmxDr !mulmxDl !mulmxDr -/N T mulNmx mulmxN !mulmxA.
    by rewrite addrACA subrr add0r.
  rewrite /ctangent Ed; apply/ctangentZ; rewrite /ctangent.
  rewrite mulmxBr [adj y *m (y *m _)]mulmxA Hy mul1mx.
  rewrite /skew_hermitian adjB HN; apply/eqP; rewrite -addr_eq0; apply/eqP.
  have E1 : adj (adj y *m (eta *m invmx P)) = invmx P *m adj eta *m y by rewrite !adjM adjK HIs.
  rewrite E1 addrACA [_ + adj y *m _]addrC mulmxA K.
  by rewrite addrACA subrr addr0.
exists P, (alpha%:C *: (invmx P *m adj eta *m eta)); split=> //; split=> //; split.
  apply: hermitianR; have E1 : adj eta *m eta = P *m P - 1%:M by rewrite EPP addrAC subrr add0r.
  have -> : invmx P *m adj eta *m eta = P - invmx P.
    by rewrite -mulmxA E1 mulmxBr mulKmx // mulmx1.
  by rewrite /hermitian adjB HIs HPs.
rewrite /rscale Ed kmulZl kmulZr -scalerDr; congr (_ *: _).
by rewrite mulmxBl mulmxKV // -[y *m N *m P]mulmxA /N mulmxKV // subrK.
Qed.
Lemma cdiff_polar_unique y P V1 V2 s1 s2 xi : unitary y -> cposdef P ->
  ctangent y V1 -> ctangent y V2 -> hermitian s1 -> hermitian s2 ->
  V1 *m P + y *m s1 = xi -> V2 *m P + y *m s2 = xi -> V1 = V2 /\ s1 = s2.
Proof.
move=> Hy HP T1 T2 S1 S2 E1 E2; have HU := cposdef_unit HP; case: (HP) => HPs _.
pose V := V1 - V2; pose s := s1 - s2.
have E : V *m P + y *m s = 0.
  rewrite /V /s mulmxBl mulmxBr; move: E1; rewrite -E2 => /eqP; rewrite -subr_eq0 => /eqP <-.
  by rewrite opprD !addrA; congr (_ + _); rewrite addrAC.
have Ss : adj s = s by rewrite /s adjB S1 S2.
have TV : skew_hermitian (adj y *m V) by apply: ctangentB.
set W := adj y *m V in TV.
have EW : W *m P = - s.
  have := congr1 (mulmx (adj y)) E; rewrite mulmxDr !mulmxA Hy mul1mx mulmx0 -/W => /eqP.
  by rewrite addr_eq0 => /eqP.
have W0 : W = 0.
  apply: (csylvester0 HP (cposdef_psd HP)).
  have : adj (W *m P) = - s by rewrite EW adjN Ss.
  by rewrite adjM HPs TV mulmxN -EW => <-; rewrite addrN.
have s0 : s = 0 by apply: oppr_inj; rewrite -EW W0 mul0mx oppr0.
have V0 : V = 0.
  by rewrite -[V](mulmxK HU); move: E; rewrite s0 mulmx0 addr0 => ->; rewrite mul0mx.
by split; apply/eqP; rewrite -subr_eq0; [rewrite -/V V0 | rewrite -/s s0].
Qed.
End oracle.

(** First order. *)
Lemma ct4 (t c : R) : c * (t ^+ 2) ^+ 2 = c * t ^+ 4.
Proof. by rewrite -exprM. Qed.
Lemma cunitary_defect y (M : 'M[C]_p) : unitary y ->
  cinner (y - y *m M) (y - y *m M) = cinner (1%:M - M) (1%:M - M).
Proof.
move=> Hy; have -> : y - y *m M = y *m (1%:M - M) by rewrite mulmxBr mulmx1.
by rewrite cinner_mull mulmxA Hy mul1mx.
Qed.
Lemma gramR (t : R) eta : adj (t%:C *: eta) *m (t%:C *: eta) = (t ^+ 2)%:C *: (adj eta *m eta).
Proof. by rewrite adjR kmulZl kmulZr scalerA rcX expr2. Qed.
Lemma cpolar_rigid SVD x eta : (forall t : R, csvd_at SVD (x + rscale t eta)) -> unitary x -> ctangent x eta ->
  exists K, forall t : R,
  cinner (cpolar_retraction SVD x (rscale t eta) - (x + rscale t eta)) (cpolar_retraction SVD x (rscale t eta) - (x + rscale t eta)) <= K * t ^+ 4.
Proof.
move=> HS Hx He; exists (cinner (adj eta *m eta) (adj eta *m eta)) => t.
have [P [HP [EP [EPP _]]]] := cpolar_ok (HS t) Hx (ctangentZ t He).
have Hy := cpolar_unitary (HS t); set y := cpolar_retraction SVD x (rscale t eta) in EP Hy *.
rewrite EP cunitary_defect //; set D := 1%:M - P.
have ED : D + D *m P = (- t ^+ 2)%:C *: (adj eta *m eta).
  have -> : D + D *m P = 1%:M - P *m P by rewrite /D mulmxBl mul1mx addrA subrK.
  by rewrite EPP gramR opprD addrA subrr add0r rcN scaleNr.
clearbody D; have H : cinner D D <= cinner (D + D *m P) (D + D *m P).
  rewrite cinnerDl !cinnerDr [cinner (D *m P) D]cinnerC.
  have H0 : 0 <= cinner D (D *m P).
    have := cpsd_inner (adj D) (cposdef_psd HP); rewrite -cinner_adj adjM !adjK; case: HP => -> _.
    by [].
  rewrite -addrA ler_addl addr_ge0 // addr_ge0 // cinner_ge0 //.
apply: le_trans H _; rewrite ED cinnerZl cinnerZr le_eqVlt; apply/orP; left; apply/eqP.
by rewrite -ct4; move: (cinner _ _) => c; rng R.
Qed.
Lemma ccholesky_near (r E : 'M[C]_p) eta (s : R) : cupper r -> real_diag r -> (forall i, 0 < re (r i i)) ->
  E = adj eta *m eta -> 0 <= s -> adj r *m r = 1%:M + s%:C *: E ->
  cinner (1%:M - r) (1%:M - r) <= s ^+ 2 * cinner E E.
Proof.
move=> Hu Hre Hd HE Hs Er.
have Hr : r \in unitmx.
  apply: (cgram_unit (eta := (Num.sqrt s)%:C *: eta)).
  by rewrite Er HE gramR sqr_sqrtr.
set K := invmx (1%:M + s%:C *: E).
set L := adj (invmx r).
have HEs : adj E = E by rewrite HE adjM adjK.
have HGs : adj (1%:M + s%:C *: E) = 1%:M + s%:C *: E by rewrite adjD adj1 adjR HEs.
have [Hra Era] := adj_unit Hr.
have HGu : 1%:M + s%:C *: E \in unitmx by rewrite -Er unitmx_mul Hra.
have HKs : adj K = K by rewrite /K; have [_ <-] := adj_unit HGu; rewrite HGs.
have EK : adj L *m L = K.
  have E1 : (1%:M + s%:C *: E) *m (adj L *m L) = 1%:M.
    by rewrite -Er /L adjK mulmxA mulmxK // -adjM mulVmx // adj1.
  by rewrite -[RHS]mulmx1 -E1 /K mulKmx.
have EN : r - L = s%:C *: (L *m E).
  have : L *m (adj r *m r) = r by rewrite /L -Era mulKmx.
  by rewrite Er mulmxDr mulmx1 kmulZr => <-; rewrite addrAC subrr add0r.
have H1 : cinner (L *m E) (L *m E) <= cinner E E.
  have E1 : cinner (L *m E) (L *m E) = cinner E (K *m E) by rewrite cinner_mull mulmxA EK.
  have K2 : 1%:M - K = s%:C *: (E *m K).
    have E2 : (1%:M + s%:C *: E) *m K = 1%:M by rewrite mulmxV.
    by rewrite -E2 mulmxDl mul1mx kmulZl addrAC subrr add0r.
  have K3 : E *m K = K *m E *m K + s%:C *: (K *m E *m E *m K).
    have E2 : K *m (1%:M + s%:C *: E) = 1%:M by rewrite mulVmx.
    by rewrite -[LHS]mul1mx -E2 mulmxDr mulmx1 mulmxDl kmulZr kmulZl !mulmxA.
  have EE : cinner E E - cinner E (K *m E) = s * (cinner (eta *m K *m E) (eta *m K *m E) + s * cinner (E *m K *m E) (E *m K *m E)).
    rewrite -cinnerBr -{2}[E]mul1mx -mulmxBl K2 kmulZl cinnerZr; congr (_ * _).
    rewrite [in LHS]K3 mulmxDl kmulZl cinnerDr cinnerZr; congr (_ + _ * _).
      rewrite [RHS]cinner_mull adjM HKs; congr (cinner _ _); rewrite !mulmxA; congr (_ *m _ *m _).
      by rewrite {1}HE !mulmxA.
    by rewrite [RHS]cinner_mull adjM HKs HEs; congr (cinner _ _); rewrite !mulmxA.
  rewrite E1 -subr_ge0 EE mulr_ge0 // addr_ge0 ?cinner_ge0 // mulr_ge0 // cinner_ge0 //.
have H2 : cinner (r - L) (r - L) <= s ^+ 2 * cinner E E.
  by rewrite EN cinnerZl cinnerZr mulrA -expr2; apply: ler_wpmul2l => //; exact: sqr_ge0.
apply: le_trans H2; rewrite -!cdotE /cdot; apply: ler_sum => i _; apply: ler_sum => j _.
have Hi := cupper_inv Hu Hr.
case: (ltngtP i j) => Hij.
- have Eij : (i == j) = false by apply/eqP => E1; rewrite E1 ltnn in Hij.
  rewrite !mxE Eij (Hi j i Hij) conjc0 mulr0n subr0 sub0r reN imN !mulrNN.
  exact: lexx.
- have Eij : (i == j) = false by apply/eqP => E1; rewrite E1 ltnn in Hij.
  have -> : (1%:M - r) i j = 0 by rewrite !mxE Eij (Hu i j Hij) subr0.
  rewrite /= !mulr0 addr0.
  exact: sq2_ge0.
move/val_inj: Hij => <-; rewrite !mxE eqxx mulr1n !(reD, reN, imD, imN, reJ, imJ) Hre (real_inv Hu Hre Hr) /=.
rewrite !(oppr0, opprK, subr0, addr0, mulr0) -!expr2.
have Ed := congr1 re (cinv_diag i Hu Hr); rewrite reM Hre mul0r subr0 /= in Ed.
move: (re (r i i)) (Hd i) Ed => c Hc Ed.
have Hc0 : c != 0 by rewrite lt0r_neq0.
have -> : re (invmx r i i) = c^-1 by apply: (mulfI Hc0); rewrite Ed mulfV.
have -> : (c - c^-1) ^+ 2 = (1 - c) ^+ 2 * (1 + c^-1) ^+ 2 by toR R; field; apply/eqP.
rewrite ler_pemulr ?sqr_ge0 // expr_ge1 // ?addr_ge0 ?invr_ge0 ?ler01 ?(ltW Hc) //.
by rewrite ler_addl invr_ge0 ltW.
Qed.
Lemma cqf_rigid QR x eta : (forall t : R, cqr_at QR (x + rscale t eta)) -> unitary x -> ctangent x eta ->
  exists K, forall t : R,
  cinner (cqf_retraction QR x (rscale t eta) - (x + rscale t eta)) (cqf_retraction QR x (rscale t eta) - (x + rscale t eta)) <= K * t ^+ 4.
Proof.
move=> HQ Hx He; exists (cinner (adj eta *m eta) (adj eta *m eta)) => t.
have [r [Hr Hd]] := cqf_ok (HQ t) Hx (ctangentZ t He).
have Hy := cqf_unitary (HQ t); case: (Hr) => E _ Hu Hre; rewrite E cunitary_defect //.
have EG : adj r *m r = 1%:M + (t ^+ 2)%:C *: (adj eta *m eta).
  by rewrite -(cqr_gram Hr) (ctangent_gram Hx (ctangentZ t He)) gramR.
by rewrite -ct4 mulrC; apply: (ccholesky_near Hu Hre Hd (erefl _) (sqr_ge0 t) EG).
Qed.
End polar.
