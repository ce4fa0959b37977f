(** Proofs about the polar retraction, its inverse and its derivative. *)
From mathcomp Require Import all_ssreflect all_algebra.
Require Import Ring Field.
From Verif Require Import MxTac StiefelModel StiefelSpec StiefelProofs StiefelRetr.
Import Order.TTheory GRing.Theory Num.Theory.
Set Implicit Arguments.
Unset Strict Implicit.
Local Open Scope ring_scope.

Section psd.
Variable R : rcfType.
Add Field psd_field : (rcf_field R).
Definition psd n (A : 'M[R]_n) := symmetric A /\ forall v : 'cV[R]_n, 0 <= (v^T *m A *m v) 0 0.
Lemma posdef_psd n (A : 'M[R]_n) : posdef A -> psd A.
Proof.
move=> [H1 H2]; split=> // v; case: (altP (v =P 0)) => [->|Hv]; last exact/ltW/H2.
by rewrite mulmx0 mxE.
Qed.
Lemma quad_cols m n (A : 'M[R]_m) (D : 'M[R]_(m, n)) :
  \tr (D^T *m A *m D) = \sum_j ((col j D)^T *m A *m col j D) 0 0.
Proof.
apply: eq_bigr => j _; rewrite tr_col -row_mul mxE [in RHS]mxE; apply: eq_bigr => i _.
by rewrite [in RHS]mxE; congr (_ * _); rewrite [in RHS]mxE.
Qed.
Lemma psd_trace m n (A : 'M[R]_m) (D : 'M[R]_(m, n)) : psd A -> 0 <= \tr (D^T *m A *m D).
Proof. by move=> [_ H]; rewrite quad_cols; apply: sumr_ge0 => j _; apply: H. Qed.
Lemma pd_trace m n (A : 'M[R]_m) (D : 'M[R]_(m, n)) : posdef A -> \tr (D^T *m A *m D) = 0 -> D = 0.
Proof.
move=> HA; rewrite quad_cols => /eqP; rewrite psumr_eq0 => [/allP H|j _]; last by case: (posdef_psd HA).
apply/matrixP => i j; rewrite [RHS]mxE.
have := H j; rewrite mem_index_enum => /(_ isT) /= E.
case: (altP (col j D =P 0)) => [E'|Hn].
  by have := congr1 (fun B : 'cV_m => B i 0) E'; rewrite !mxE.
by case: HA => _ /(_ _ Hn); rewrite (eqP E) ltxx.
Qed.
(** Only the symmetric part counts. *)
Lemma quad_sym m n (A : 'M[R]_m) (D : 'M[R]_(m, n)) : \tr (D^T *m A^T *m D) = \tr (D^T *m A *m D).
Proof. by rewrite -mxtrace_tr; congr (\tr _); mxz. Qed.
(** A Sylvester equation with a positive definite coefficient has one solution. *)
Lemma sylvester0 n (P Q D : 'M[R]_n) : posdef P -> psd Q -> P *m D + D *m Q = 0 -> D = 0.
Proof.
move=> HP HQ E; apply: (pd_trace HP).
have : \tr (D^T *m (P *m D + D *m Q)) = 0 by rewrite E mulmx0 mxtrace0.
rewrite mulmxDr mxtraceD [\tr (D^T *m (D *m Q))]mxtrace_mulC.
have -> : D *m Q *m D^T = (D^T)^T *m Q *m D^T by rewrite trmxK.
rewrite mulmxA => E2; have := psd_trace D (posdef_psd HP); have := psd_trace D^T HQ.
move=> H1 H2; apply/eqP; rewrite eq_le H2 andbT.
by rewrite -(ler_add2r (\tr (D^T^T *m Q *m D^T))) E2 add0r.
Qed.
(** The square root of a positive definite matrix is unique. *)
Lemma sqrt_unique n (P Q : 'M[R]_n) : posdef P -> psd Q -> P *m P = Q *m Q -> P = Q.
Proof.
move=> HP HQ E; apply/eqP; rewrite -subr_eq0; apply/eqP; apply: (sylvester0 HP HQ).
by rewrite mulmxBr mulmxBl E; mxlin R; rng R.
Qed.
Lemma posdef_unit n (P : 'M[R]_n) : posdef P -> P \in unitmx.
Proof.
move=> [_ H]; apply: unit_cols => u Hu; case: (altP (u =P 0)) => // /H.
by rewrite -mulmxA Hu mulmx0 mxE ltxx.
Qed.
Lemma posdef1 n : posdef (1%:M : 'M[R]_n).
Proof.
split=> [|v Hv]; first exact: trmx1.
rewrite mulmx1 lt_neqAle; apply/andP; split; last by have := norm_ge0 (1%:M : 'M[R]_n) v; rewrite trmx1 !mulmx1.
by apply/eqP => E; move/eqP: Hv; apply; apply: sq_norm.
Qed.
End psd.

Section polar.
Variable R : rcfType.
Add Field polar_field : (rcf_field R).
Variables p k : nat.
Local Notation ext := 'M[R]_(p + k, p).
Implicit Types x y v w eta xi Y : ext.
Implicit Types P : 'M[R]_p.

Lemma orth_tr n (V : 'M[R]_n) : orthonormal V^T -> orthonormal V.
Proof. by rewrite /orthonormal trmxK => /mulmx1C. Qed.
Lemma svd_polar (A U : ext) S Vt : is_svd A U S Vt ->
  A = (U *m Vt) *m (Vt^T *m diag_mx S *m Vt) /\ orthonormal (U *m Vt) /\ psd (Vt^T *m diag_mx S *m Vt).
Proof.
case=> HA HU HV HS; have HV' := orth_tr HV.
have HVV : Vt *m Vt^T = 1%:M by have := HV; rewrite /orthonormal trmxK.
split; first by rewrite HA -!mulmxA [Vt *m (Vt^T *m _)]mulmxA HVV mul1mx.
split; first by rewrite /orthonormal; mxz; rewrite -[Vt^T *m U^T *m U]mulmxA HU mulmx1.
split; first by rewrite /symmetric; mxz; rewrite tr_diag_mx.
move=> v; have -> : v^T *m (Vt^T *m diag_mx S *m Vt) *m v = (Vt *m v)^T *m diag_mx S *m (Vt *m v) by mxz.
rewrite mul_mx_diag mxE; apply: sumr_ge0 => i _; rewrite !mxE mulrAC mulr_ge0 // -expr2; exact: sqr_ge0.
Qed.
(** Polar factors: A = Y P with Y orthonormal and P positive semidefinite. *)
Lemma polar_gram (A Y : ext) P : A = Y *m P -> orthonormal Y -> symmetric P -> A^T *m A = P *m P.
Proof. by move=> -> HY HP; mxz; rewrite HP -[P *m Y^T *m Y]mulmxA HY mulmx1. Qed.
Lemma polar_unique (A Y Y' : ext) P P' : A = Y *m P -> A = Y' *m P' -> orthonormal Y -> orthonormal Y' ->
  posdef P -> psd P' -> Y = Y' /\ P = P'.
Proof.
move=> E E' HY HY' HP HP'.
have EP : P = P'.
  apply: sqrt_unique => //.
  by rewrite -(polar_gram E HY) ?(polar_gram E' HY') //; [case: HP' | case: HP].
split=> //; have HU := posdef_unit HP.
have E2 : Y' *m P = A by rewrite EP -E'.
by rewrite -[Y](mulmxK HU) -[Y'](mulmxK HU) -E E2.
Qed.
Lemma psd_gram_posdef m (eta : 'M[R]_(m, p)) P : psd P -> P *m P = 1%:M + eta^T *m eta -> posdef P.
Proof.
move=> [HP H] E; split=> // v Hv; rewrite lt_neqAle H andbT eq_sym; apply/eqP => E0.
(* P v = 0, by the discriminant along v + t P v *)
have HU : P \in unitmx by apply: (gram_unit (eta := eta)); rewrite HP.
pose w := P *m v; pose a := (w^T *m w) 0 0; pose b := (w^T *m P *m w) 0 0.
have Hw : w != 0.
  by apply/eqP => Ew; move/eqP: Hv; apply; rewrite -[v]mul1mx -(mulVmx HU) -mulmxA -/w Ew mulmx0.
have Ha : 0 < a.
  rewrite lt_neqAle; apply/andP; split; last by have := inner_ge0 w; rewrite /inner /mxtrace big_ord1.
  by apply/eqP => E1; move/eqP: Hw; apply; apply: sq_norm.
have Q t : 0 <= - (t *+ 2 * a) + t ^+ 2 * b.
  have := H (v - t *: w).
  have -> : (v - t *: w)^T *m P *m (v - t *: w) =
    v^T *m P *m v - (t *+ 2) *: (w^T *m w) + t ^+ 2 *: (w^T *m P *m w).
    have E1 : v^T *m P = w^T by rewrite /w trM HP.
    have E2 : w^T *m P *m v = w^T *m w by rewrite -mulmxA.
    rewrite !(trD, trN, trZ) !mulmxDl !mulmxDr !mulNmx !mulmxN !mulZl !mulZr E2 E1.
    by mxlin R; rng R.
  have X (A B C : 'M[R]_1) (s u : R) : (A - s *: B + u *: C) 0 0 = A 0 0 - s * B 0 0 + u * C 0 0 by rewrite !mxE.
  by rewrite X E0 sub0r.
have Hb : 0 <= b by exact: H.
have Hb1 : 0 < b + 1 by rewrite ltr_spaddr ?ltr01.
have Hb0 : b + 1 != 0 by rewrite gt_eqF.
have := Q (a / (b + 1)); rewrite leNgt => /negP; apply.
have -> : - (a / (b + 1) *+ 2 * a) + (a / (b + 1)) ^+ 2 * b = - ((a / (b + 1)) ^+ 2 * (b + 1 + 1)).
  by toR R; field; apply/eqP.
by rewrite oppr_lt0 mulr_gt0 ?exprn_gt0 ?divr_gt0 // addr_gt0 // ltr01.
Qed.

Section oracle.
Variable SVD : ext -> ext * 'rV[R]_p * 'M[R]_p.

Lemma polarE x eta : polar_retraction SVD x eta = (SVD (x + eta)).1.1 *m (SVD (x + eta)).2.
Proof. by rewrite /polar_retraction addrC; case: (SVD _) => [[U S] Vt]. Qed.
Lemma polar_orth x eta : svd_at SVD (x + eta) -> orthonormal (polar_retraction SVD x eta).
Proof. by move=> SVD_ok; rewrite polarE; have [_ []] := svd_polar SVD_ok. Qed.
Lemma polar_ok x eta : svd_at SVD (x + eta) -> orthonormal x -> tangent x eta -> exists P,
  posdef P /\ x + eta = polar_retraction SVD x eta *m P /\ P *m P = 1%:M + eta^T *m eta /\
  P = (SVD (x + eta)).2^T *m diag_mx (SVD (x + eta)).1.2 *m (SVD (x + eta)).2.
Proof.
move=> SVD_ok Hx He; rewrite polarE; have [E [HY HP]] := svd_polar SVD_ok.
eexists; split; last (split; first exact: E); last first.
  split=> //; rewrite -(polar_gram E HY); last by case: HP.
  exact: tangent_gram.
apply: (psd_gram_posdef (eta := eta)) => //; rewrite -(polar_gram E HY); last by case: HP.
exact: tangent_gram.
Qed.
Lemma polar_zero x : svd_at SVD x -> orthonormal x -> polar_retraction SVD x 0 = x.
Proof.
move=> SVD_ok Hx; rewrite polarE addr0; have [E [HY HP]] := svd_polar SVD_ok.
have Ex : x = x *m 1%:M by rewrite mulmx1.
by have [<-] := polar_unique Ex E Hx HY (posdef1 _ _) HP.
Qed.
(** Nearest point of the manifold. *)
Lemma polar_nearest x eta z : svd_at SVD (x + eta) -> orthonormal z ->
  inner (x + eta - polar_retraction SVD x eta) (x + eta - polar_retraction SVD x eta) <=
  inner (x + eta - z) (x + eta - z).
Proof.
move=> SVD_ok Hz; have Hy := polar_orth SVD_ok; move: SVD_ok; rewrite /svd_at; set A := x + eta; set y := polar_retraction SVD x eta in Hy * => Hs.
have X w : orthonormal w -> inner (A - w) (A - w) = inner A A - inner w A *+ 2 + \tr (1%:M : 'M[R]_p).
  move=> Hw; have E : inner w w = \tr (1%:M : 'M[R]_p) by rewrite /inner Hw.
  rewrite innerBl !innerBr [inner A w]innerC E.
  by rng R.
rewrite !X // ler_add2r ler_add2l ler_opp2 ler_wmuln2r //.
clear X; rewrite /y polarE -/A.
move: (SVD A) Hs => [[U S] Vt] /= [EA HU HV HS].
have HV' := orth_tr HV; have HVV : Vt *m Vt^T = 1%:M by have := HV; rewrite /orthonormal trmxK.
have F w : inner w A = \sum_i ((w *m Vt^T)^T *m U) i i * S 0 i.
  rewrite EA /inner mulmxA mxtrace_mulC !mulmxA -[Vt *m w^T *m U *m diag_mx S]/(_).
  by rewrite mul_mx_diag /mxtrace trM trmxK; apply: eq_bigr => i _; rewrite mxE.
have G w i : orthonormal w -> ((w *m Vt^T)^T *m U) i i <= 1.
  move=> Hw; set B := w *m Vt^T.
  have HB : B^T *m B = 1%:M by rewrite /B; mxz; rewrite -[_ *m w^T *m w]mulmxA Hw mulmx1.
  clearbody B; have : 0 <= ((B - U)^T *m (B - U)) i i by rewrite mxE; apply: sumr_ge0 => l _; rewrite !mxE -expr2 sqr_ge0.
  have -> : (B - U)^T *m (B - U) = 1%:M + 1%:M - B^T *m U - (B^T *m U)^T.
    by rewrite trM trmxK; mxz; rewrite HB (HU : U^T *m U = _); mxlin R; rng R.
  rewrite !mxE eqxx /= -addrA -opprD -!mulr2n subr_ge0.
  by rewrite ler_pmuln2r.
rewrite !F; apply: ler_sum => i _; apply: ler_wpmul2r => //.
have -> : ((U *m Vt *m Vt^T)^T *m U) i i = 1 by rewrite -mulmxA HVV mulmx1 HU mxE eqxx.
exact: G.
Qed.

(** DiffPolarRetraction: the first-order equations of y P = x + eta. *)
Lemma diff_polar_ok alpha x eta : svd_at SVD (x + eta) -> orthonormal x -> tangent x eta ->
  let y := polar_retraction SVD x eta in
  let d := diff_polar (SVD (x + eta)).1.2 (SVD (x + eta)).2 alpha y eta in
  tangent y d /\ exists P dP, posdef P /\ x + eta = y *m P /\ symmetric dP /\ d *m P + y *m dP = alpha *: eta.
Proof.
move=> SVD_ok Hx He y d; have [P [HP [EP [EPP ES]]]] := polar_ok SVD_ok Hx He; rewrite -/y in EP.
have Hy : orthonormal y by exact: polar_orth.
have HU := posdef_unit HP; case: (HP) => HPs _.
have HIs : (invmx P)^T = invmx P by rewrite trmx_inv HPs.
have Ed : d = alpha *: (eta *m invmx P - y *m (invmx P *m eta^T *m eta *m invmx P)).
  rewrite /d /diff_polar /gemm /gemm0 !scale1r.
  set S := (SVD (x + eta)).1.2; set Vt := (SVD (x + eta)).2.
  have -> : eta *m Vt^T *m diag_mx (\row_i (1 / S 0 i)) *m Vt = eta *m invmx P.
    rewrite -!mulmxA; congr (_ *m _); rewrite mulmxA; symmetry.
    have HV : orthonormal Vt^T by case: SVD_ok.
    have HVV : Vt *m Vt^T = 1%:M by have := HV; rewrite /orthonormal trmxK.
    have HV' := orth_tr HV.
    have HD : diag_mx S *m diag_mx (\row_i (1 / S 0 i)) = 1%:M.
      have HDu : diag_mx S \in unitmx.
        move: HU; rewrite ES -/S -/Vt !unitmx_mul => /andP [/andP [_ H] _] //.
      rewrite mulmx_diag; apply/matrixP => i j; rewrite !mxE; case: eqP => // ->.
      rewrite mulr1n mul1r divff //.
      have Hup : upper (diag_mx S) by move=> a b Hab; rewrite mxE; case: eqP => // E; move: Hab; rewrite E ltnn.
      by have := upper_unit_diag Hup HDu j; rewrite mxE eqxx.
    have EE : P *m (Vt^T *m diag_mx (\row_i (1 / S 0 i)) *m Vt) = 1%:M.
      rewrite ES -/S -/Vt !mulmxA -[_ *m Vt *m Vt^T]mulmxA HVV mulmx1 -[_ *m diag_mx _ *m diag_mx _]mulmxA HD.
      by rewrite mulmx1.
    by rewrite -[LHS]mulmx1 -EE mulKmx.
  rewrite trM HIs; mxz; rewrite scalerBr addrC scaleNr; congr (_ - _).
have EYP : P *m y^T = x^T + eta^T by rewrite -trD EP trM HPs.
split.
  rewrite /tangent /skew Ed; apply/eqP; rewrite -addr_eq0; apply/eqP.
  have K : y^T *m eta *m invmx P + invmx P *m eta^T *m y =
      (invmx P *m eta^T *m eta *m invmx P) *+ 2.
    have -> : y^T *m eta = invmx P *m (x^T + eta^T) *m eta by rewrite -EYP mulKmx.
    rewrite -[invmx P *m eta^T *m y]mulmxA.
    have -> : eta^T *m y = eta^T *m (x + eta) *m invmx P by rewrite EP mulmxA mulmxK.
    have T := tangent_tr He.
    mxz.
    have T2 : invmx P *m eta^T *m x = - (invmx P *m x^T *m eta) by rewrite -mulmxA T mulmxN mulmxA.
    by rewrite T2 mulNmx; mxlin R; rng R.
  have -> : (y^T *m (alpha *: (eta *m invmx P - y *m (invmx P *m eta^T *m eta *m invmx P))))^T +
     y^T *m (alpha *: (eta *m invmx P - y *m (invmx P *m eta^T *m eta *m invmx P))) =
     alpha *: (y^T *m eta *m invmx P + invmx P *m eta^T *m y - (invmx P *m eta^T *m eta *m invmx P) *+ 2).
    mxz; rewrite HIs; mxz; rewrite Hy mul1mx !(ortho_r _ Hy).
    by mxlin R; rng R.
  by rewrite K subrr scaler0.
exists P, (alpha *: (invmx P *m eta^T *m eta)); split=> //; split=> //; split.
  apply: symmetricZ; have E1 : eta^T *m eta = P *m P - 1%:M by rewrite EPP addrAC subrr add0r.
  have -> : invmx P *m eta^T *m eta = P - invmx P.
    by rewrite -mulmxA E1 mulmxBr mulKmx // mulmx1.
  by rewrite /symmetric trD trN HIs HPs.
rewrite Ed mulZl mulZr -scalerDr; congr (_ *: _).
by rewrite mulmxBl mulmxKV // -!mulmxA mulVmx // mulmx1 !mulmxA subrK.
Qed.
(** These equations have one solution. *)
Lemma diff_polar_unique y P V1 V2 s1 s2 xi : orthonormal y -> posdef P ->
  tangent y V1 -> tangent y V2 -> symmetric s1 -> symmetric s2 ->
  V1 *m P + y *m s1 = xi -> V2 *m P + y *m s2 = xi -> V1 = V2 /\ s1 = s2.
Proof.
move=> Hy HP T1 T2 S1 S2 E1 E2; have HU := posdef_unit HP; case: (HP) => HPs _.
pose V := V1 - V2; pose s := s1 - s2.
have E : V *m P + y *m s = 0.
  rewrite /V /s mulmxBl mulmxBr; move: E1; rewrite -E2 => /eqP; rewrite -subr_eq0 => /eqP <-.
  by mxlin R; rng R.
have Ss : s^T = s by rewrite /s trD trN S1 S2.
have TV : skew (y^T *m V).
  rewrite /V /skew mulmxBr trD trN (T1 : (y^T *m V1)^T = _) (T2 : (y^T *m V2)^T = _).
  by rewrite opprB opprK addrC.
set W := y^T *m V in TV.
have EW : W *m P = - s.
  have := congr1 (mulmx y^T) E; rewrite mulmxDr !mulmxA Hy mul1mx mulmx0 -/W => /eqP.
  by rewrite addr_eq0 => /eqP.
have W0 : W = 0.
  apply: (sylvester0 HP (posdef_psd HP)).
  have : (W *m P)^T = - s by rewrite EW trN Ss.
  by rewrite trM HPs TV mulmxN -EW => <-; rewrite addrN.
have s0 : s = 0 by apply: oppr_inj; rewrite -EW W0 mul0mx oppr0.
have V0 : V = 0.
  by rewrite -[V](mulmxK HU); move: E; rewrite s0 mulmx0 addr0 => ->; rewrite mul0mx.
by split; apply/eqP; rewrite -subr_eq0; [rewrite -/V V0 | rewrite -/s s0].
Qed.

(** InvPolarRetraction. *)
Section inverse.
Variable SYL : 'M[R]_p -> 'M[R]_p -> 'M[R]_p -> 'M[R]_p.
Lemma inv_polarE x y : inv_polar SYL x y = y *m SYL (x^T *m y) (x^T *m y)^T (2%:R *: 1%:M) - x.
Proof. by rewrite /inv_polar /gemm /gemm0 !scale1r scaleN1r. Qed.
Lemma inv_polar_right x y P : svd_at SVD (x + inv_polar SYL x y) -> orthonormal x -> orthonormal y ->
  P = SYL (x^T *m y) (x^T *m y)^T (2%:R *: 1%:M) -> posdef P ->
  x^T *m y *m P + P *m (x^T *m y)^T = 2%:R *: 1%:M ->
  tangent x (inv_polar SYL x y) /\ polar_retraction SVD x (inv_polar SYL x y) = y.
Proof.
move=> SVD_ok Hx Hy EP HP ES; move: SVD_ok; rewrite inv_polarE -EP => SVD_ok; case: (HP) => HPs _; split.
  rewrite /tangent /skew; apply/eqP; rewrite -addr_eq0; apply/eqP.
  rewrite !mulmxBr Hx trD trN trmx1 mulmxA trM HPs.
  have -> : P *m (x^T *m y)^T - 1%:M + (x^T *m y *m P - 1%:M) =
     (x^T *m y *m P + P *m (x^T *m y)^T) - (1%:M + 1%:M) by mxlin R; rng R.
  by rewrite ES; mxlin R; rng R.
move: SVD_ok; rewrite polarE addrC subrK => SVD_ok; have [E [HY HPP]] := svd_polar SVD_ok.
by have [<-] := polar_unique (erefl (y *m P)) E Hy HY HP HPP.
Qed.
(** It undoes the retraction. *)
Lemma polar_sylvester x eta y P : orthonormal x -> tangent x eta -> orthonormal y -> posdef P -> x + eta = y *m P ->
  x^T *m y *m P + P *m (x^T *m y)^T = 2%:R *: 1%:M.
Proof.
move=> Hx He Hy [HPs _] E.
have -> : P *m (x^T *m y)^T = (x^T *m y *m P)^T by rewrite [RHS]trM HPs.
rewrite -mulmxA -E mulmxDr Hx trD trmx1 (He : (x^T *m eta)^T = _).
by mxlin R; rng R.
Qed.
Lemma inv_sqrt (A : ext) U S Vt P : is_svd A U S Vt -> P = Vt^T *m diag_mx S *m Vt -> P \in unitmx ->
  exists K : 'M[R]_p, K^T = K /\ K *m K = invmx P /\ K \in unitmx.
Proof.
move=> [_ _ HV HS] EP HU.
have HVV : Vt *m Vt^T = 1%:M by have := HV; rewrite /orthonormal trmxK.
have HV' := orth_tr HV.
have HD i : S 0 i != 0.
  have HDu : diag_mx S \in unitmx.
    by move: HU; rewrite EP !unitmx_mul => /andP [/andP [_ H] _].
  have Hup : upper (diag_mx S) by move=> a b Hab; rewrite mxE; case: eqP => // E; move: Hab; rewrite E ltnn.
  by have := upper_unit_diag Hup HDu i; rewrite mxE eqxx.
pose D := diag_mx (\row_i (Num.sqrt (S 0 i))^-1).
exists (Vt^T *m D *m Vt).
have E2 : (Vt^T *m D *m Vt) *m (Vt^T *m D *m Vt) = invmx P.
  have EE : P *m ((Vt^T *m D *m Vt) *m (Vt^T *m D *m Vt)) = 1%:M.
    rewrite EP !mulmxA -[_ *m Vt *m Vt^T]mulmxA HVV mulmx1 -[_ *m Vt *m Vt^T]mulmxA HVV mulmx1.
    rewrite -[_ *m D *m D]mulmxA -[_ *m diag_mx S *m (D *m D)]mulmxA.
    have -> : diag_mx S *m (D *m D) = 1%:M.
      rewrite /D !mulmx_diag; apply/matrixP => i j; rewrite !mxE; case: eqP => // ->.
      by rewrite mulr1n -invfM -expr2 sqr_sqrtr // divff.
    by rewrite mulmx1.
  by rewrite -[RHS]mulmx1 -EE mulKmx.
split; first by rewrite !trM tr_diag_mx trmxK mulmxA.
split=> //; have : invmx P \in unitmx by rewrite unitmx_inv.
by rewrite -E2 unitmx_mul => /andP [].
Qed.
Lemma sylvester_unique (A P K D : 'M[R]_p) : posdef P -> K^T = K -> K *m K = invmx P -> K \in unitmx ->
  A *m P + P *m A^T = 2%:R *: 1%:M -> A *m D + D *m A^T = 0 -> D = 0.
Proof.
move=> HP HK EK HKu E0 ED; have HU := posdef_unit HP; set N := invmx P in EK.
case: (HP) => HPs _; have HNs : N^T = N by rewrite /N trmx_inv HPs.
have EN : N *m A + A^T *m N = 2%:R *: (N *m N).
  have := congr1 (fun X => N *m X *m N) E0; rewrite mulmxDr mulmxDl !mulmxA.
  rewrite -[N *m A *m P *m N]mulmxA mulmxV // mulmx1 mulVmx // mul1mx => ->.
  by rewrite mulZr mulmx1 mulZl.
have EN' : (N *m A)^T = A^T *m N by rewrite trM HNs.
have Hq (m : nat) (G : 'M[R]_(p, m)) : \tr (G^T *m (N *m A) *m G) = \tr (G^T *m (N *m N) *m G).
  apply: (mulfI (x := 2%:R)); first by rewrite pnatr_eq0.
  have -> : 2%:R * \tr (G^T *m (N *m N) *m G) = \tr (G^T *m (2%:R *: (N *m N)) *m G).
    by rewrite mulZr mulZl mxtraceZ.
  rewrite -EN mulmxDr mulmxDl mxtraceD -EN' quad_sym.
  by rng R.
have Hn (m : nat) (G : 'M[R]_(p, m)) : \tr (G^T *m (N *m N) *m G) = inner (N *m G) (N *m G).
  by rewrite /inner; congr (\tr _); rewrite trM HNs !mulmxA.
have : \tr (N *m D^T *m N *m (A *m D + D *m A^T)) = 0 by rewrite ED mulmx0 mxtrace0.
have -> : \tr (N *m D^T *m N *m (A *m D + D *m A^T)) =
  inner (N *m (D *m K)) (N *m (D *m K)) + inner (N *m (D^T *m K)) (N *m (D^T *m K)).
  rewrite -!Hn mulmxDr mxtraceD; congr (_ + _).
    rewrite -Hq trM HK -{1}EK -!mulmxA mxtrace_mulC !mulmxA.
    by [].
  rewrite -Hq -quad_sym trM trmxK HK EN'.
  have -> : \tr (K *m D *m (A^T *m N) *m (D^T *m K)) = \tr (N *m D *m A^T *m (N *m D^T)).
    by rewrite mulmxA mxtrace_mulC !mulmxA EK.
  by rewrite -[N *m D^T *m N *m _]mulmxA mxtrace_mulC !mulmxA.
move=> Hs; have H1 := inner_ge0 (N *m (D *m K)); have H2 := inner_ge0 (N *m (D^T *m K)).
have : inner (N *m (D *m K)) (N *m (D *m K)) = 0.
  apply/eqP; rewrite eq_le H1 andbT.
  by rewrite -(ler_add2r (inner (N *m (D^T *m K)) (N *m (D^T *m K)))) Hs add0r.
move/inner_eq0 => Z.
have : D *m K = 0 by rewrite -[D *m K]mul1mx -(mulmxV HU) -mulmxA Z mulmx0.
by move=> Z2; rewrite -[D](mulmxK HKu) Z2 mul0mx.
Qed.
Lemma inv_polar_left x eta : svd_at SVD (x + eta) -> orthonormal x -> tangent x eta ->
  (let A := x^T *m polar_retraction SVD x eta in
   A *m SYL A A^T (2%:R *: 1%:M) + SYL A A^T (2%:R *: 1%:M) *m A^T = 2%:R *: 1%:M) ->
  inv_polar SYL x (polar_retraction SVD x eta) = eta.
Proof.
move=> SVD_ok Hx He E1; have [P [HP [EP [EPP ES]]]] := polar_ok SVD_ok Hx He.
set y := polar_retraction SVD x eta in EP E1 *; have Hy : orthonormal y by exact: polar_orth.
have E0 := polar_sylvester Hx He Hy HP EP.
rewrite inv_polarE; set X := SYL _ _ _ in E1 *.
have [K [K1 [K2 K3]]] := inv_sqrt SVD_ok ES (posdef_unit HP).
have : X - P = 0.
  apply: (sylvester_unique HP K1 K2 K3 E0).
  rewrite mulmxBr mulmxBl; transitivity ((x^T *m y *m X + X *m (x^T *m y)^T) - (x^T *m y *m P + P *m (x^T *m y)^T)).
    by mxlin R; rng R.
  by rewrite E0 E1 subrr.
by move/eqP; rewrite subr_eq0 => /eqP ->; rewrite -EP addrC addKr.
Qed.
End inverse.
End oracle.
End polar.
