(** To first order the QR and polar retractions are x + t eta. *)
From mathcomp Require Import all_ssreflect all_algebra.
Require Import Ring Field.
From Verif Require Import MxTac StiefelModel StiefelSpec StiefelProofs StiefelRetr StiefelDiff StiefelPolar StiefelCayley.
Import Order.TTheory GRing.Theory Num.Theory.
Set Implicit Arguments.
Unset Strict Implicit.
Local Open Scope ring_scope.

Section rigid.
Variable R : rcfType.
Add Field rigid_field : (rcf_field R).
Variables p k : nat.
Local Notation ext := 'M[R]_(p + k, p).
Implicit Types x y eta : ext.

Lemma mxtraceN_ n (A : 'M[R]_n) : \tr (- A) = - \tr A.
Proof. by rewrite /mxtrace -sumrN; apply: eq_bigr => i _; rewrite mxE. Qed.
Lemma t4 (t c : R) : c * (t ^+ 2) ^+ 2 = c * t ^+ 4.
Proof. by rewrite -exprM. Qed.
(** Y (I - M) has the norm of I - M. *)
Lemma orth_defect y (M : 'M[R]_p) : orthonormal y ->
  inner (y - y *m M) (y - y *m M) = inner (1%:M - M) (1%:M - M).
Proof.
move=> Hy; have -> : y - y *m M = y *m (1%:M - M) by rewrite mulmxBr mulmx1.
by rewrite inner_mull mulmxA Hy mul1mx.
Qed.
Lemma polar_rigid SVD x eta : (forall t, svd_at SVD (x + t *: eta)) -> orthonormal x -> tangent x eta ->
  exists C, forall t,
  inner (polar_retraction SVD x (t *: eta) - (x + t *: eta)) (polar_retraction SVD x (t *: eta) - (x + t *: eta)) <= C * t ^+ 4.
Proof.
move=> HS Hx He; exists (inner (eta^T *m eta) (eta^T *m eta)) => t.
have [P [HP [EP [EPP _]]]] := polar_ok (HS t) Hx (tangentZ t He).
have Hy := polar_orth (HS t); set y := polar_retraction SVD x (t *: eta) in EP Hy *.
rewrite EP orth_defect //; set D := 1%:M - P.
have ED : D + D *m P = (- t ^+ 2) *: (eta^T *m eta).
  have -> : D + D *m P = 1%:M - P *m P by rewrite /D mulmxBl mul1mx addrA subrK.
  rewrite EPP trZ mulZl mulZr scalerA -expr2 opprD addrA subrr add0r.
  by rewrite scaleNr.
clearbody D; have H : inner D D <= inner (D + D *m P) (D + D *m P).
  rewrite innerDl !innerDr [inner (D *m P) D]innerC.
  have H0 : 0 <= inner D (D *m P).
    have := psd_trace D^T (posdef_psd HP); rewrite trmxK /inner mulmxA [\tr (D^T *m D *m P)]mxtrace_mulC.
    by rewrite [\tr (P *m _)]mxtrace_mulC mxtrace_mulC -!mulmxA mxtrace_mulC -!mulmxA mxtrace_mulC -!mulmxA.
  rewrite -addrA ler_addl addr_ge0 // addr_ge0 // inner_ge0 //.
apply: le_trans H _; rewrite ED innerZl innerZr le_eqVlt; apply/orP; left; apply/eqP.
by rewrite -t4; move: (inner _ _) => c; rng R.
Qed.

(** A triangular factor of I + t^2 E is near I. *)
Lemma cholesky_near (r E : 'M[R]_p) (eta : 'M[R]_(p + k, p)) s : upper r -> (forall i, 0 < r i i) ->
  E = eta^T *m eta -> 0 <= s -> r^T *m r = 1%:M + s *: E ->
  inner (1%:M - r) (1%:M - r) <= s ^+ 2 * inner E E.
Proof.
move=> Hu Hd HE Hs Er.
have Hr : r \in unitmx.
  apply: (gram_unit (eta := Num.sqrt s *: eta)).
  by rewrite Er HE trZ mulZl mulZr scalerA -expr2 sqr_sqrtr.
set K := invmx (1%:M + s *: E).
set L := (invmx r)^T.
have HEs : E^T = E by rewrite HE trM trmxK.
have HGu : 1%:M + s *: E \in unitmx by rewrite -Er unitmx_mul unitmx_tr Hr.
have HKs : K^T = K by rewrite /K trmx_inv trD trmx1 trZ HEs.
have EK : L^T *m L = K.
  have E1 : (1%:M + s *: E) *m (L^T *m L) = 1%:M.
    by rewrite -Er /L trmxK mulmxA mulmxK // -trM mulVmx // trmx1.
  by rewrite -[RHS]mulmx1 -E1 /K mulKmx.
have EN : r - L = s *: (L *m E).
  have : L *m (r^T *m r) = r by rewrite /L trmx_inv mulKmx ?unitmx_tr.
  by rewrite Er mulmxDr mulmx1 mulZr => <-; rewrite addrAC subrr add0r.
have H1 : inner (L *m E) (L *m E) <= inner E E.
  have -> : inner (L *m E) (L *m E) = \tr (E *m K *m E).
    by rewrite /inner trM HEs mulmxA -[E *m L^T *m L]mulmxA EK.
  have EE : inner E E - \tr (E *m K *m E) = s * (inner (eta *m K *m E) (eta *m K *m E) + s * inner (E *m K *m E) (E *m K *m E)).
    have K2 : 1%:M - K = s *: (E *m K).
      have E1 : (1%:M + s *: E) *m K = 1%:M by rewrite mulmxV.
      by rewrite -E1 mulmxDl mul1mx mulZl addrAC subrr add0r.
    have K3 : E *m K = K *m E *m K + s *: (K *m E *m E *m K).
      have E1 : K *m (1%:M + s *: E) = 1%:M by rewrite mulVmx.
      by rewrite -[LHS]mul1mx -E1 mulmxDr mulmx1 mulmxDl mulZr mulZl !mulmxA.
    have E0 : inner E E - \tr (E *m K *m E) = \tr (E *m (1%:M - K) *m E).
      by rewrite mulmxBr mulmxBl mulmx1 mxtraceD mxtraceN_ /inner HEs.
    rewrite E0 K2 mulZr mulZl mxtraceZ; congr (_ * _).
    rewrite mulmxA; have -> : E *m E *m K = E *m (E *m K) by rewrite mulmxA.
    rewrite {1}K3 mulmxDr mulmxDl mxtraceD mulZr mulZl mxtraceZ; congr (_ + _ * _).
      by rewrite /inner !trM HEs HKs !mulmxA; congr (\tr _); rewrite HE !mulmxA.
    by rewrite /inner !trM HEs HKs !mulmxA.
  rewrite -subr_ge0 EE mulr_ge0 // addr_ge0 ?inner_ge0 // mulr_ge0 // inner_ge0 //.
have H2 : inner (r - L) (r - L) <= s ^+ 2 * inner E E.
  by rewrite EN innerZl innerZr mulrA -expr2; apply: ler_wpmul2l => //; exact: sqr_ge0.
apply: le_trans H2; rewrite -!dotE /dot; apply: ler_sum => i _; apply: ler_sum => j _.
rewrite -!expr2 !mxE; have Hi := upper_inv Hu Hr.
case: (ltngtP i j) => Hij.
- have -> : (i == j) = false by apply/eqP => E1; rewrite E1 ltnn in Hij.
  by rewrite (Hi j i Hij) subr0 sub0r sqrrN.
- have -> : (i == j) = false by apply/eqP => E1; rewrite E1 ltnn in Hij.
  by rewrite (Hu i j Hij) subr0 expr0n /= sqr_ge0.
move/val_inj: Hij => <-; rewrite eqxx mulr1n.
have Ed : invmx r i i = (r i i)^-1.
  have := congr1 (fun B : 'M_p => B i i) (mulmxV Hr); rewrite !mxE eqxx (bigD1 i) //= big1 ?addr0.
    move=> E1; apply: (mulfI (lt0r_neq0 (Hd i))); rewrite E1 mulfV ?lt0r_neq0 //.
  move=> l Hl; case: (ltnP l i) => Hli; first by rewrite Hu ?mul0r.
  by rewrite Hi ?mulr0 // ltn_neqAle Hli eq_sym andbT.
rewrite Ed; move: (r i i) (Hd i) => c Hc.
have Hc0 : c != 0 by rewrite lt0r_neq0.
have -> : (c - c^-1) ^+ 2 = (1 - c) ^+ 2 * (1 + c^-1) ^+ 2 by toR R; field; apply/eqP.
rewrite ler_pemulr ?sqr_ge0 // expr_ge1 // ?addr_ge0 ?invr_ge0 ?ler01 ?(ltW Hc) //.
by rewrite ler_addl invr_ge0 ltW.
Qed.
Lemma qf_rigid QR x eta : (forall t, qr_at QR (x + t *: eta)) -> orthonormal x -> tangent x eta ->
  exists C, forall t,
  inner (qf_retraction QR x (t *: eta) - (x + t *: eta)) (qf_retraction QR x (t *: eta) - (x + t *: eta)) <= C * t ^+ 4.
Proof.
move=> HQ Hx He; exists (inner (eta^T *m eta) (eta^T *m eta)) => t.
have [r [Hr Hd]] := qf_ok (HQ t) Hx (tangentZ t He).
have Hy := qf_orth (HQ t); case: (Hr) => E _ Hu; rewrite E orth_defect //.
have EG : r^T *m r = 1%:M + t ^+ 2 *: (eta^T *m eta).
  by rewrite -(qr_gram Hr) (tangent_gram Hx (tangentZ t He)) trZ mulZl mulZr scalerA -expr2.
by rewrite -t4 mulrC; apply: (cholesky_near Hu Hd (erefl _) (sqr_ge0 t) EG).
Qed.
End rigid.
