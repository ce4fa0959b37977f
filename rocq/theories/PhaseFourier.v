(** Proofs about the Fourier transform of the phase retrieval problem. *)
From mathcomp Require Import all_ssreflect all_algebra.
From mathcomp.real_closed Require Import complex.
Require Import Ring Field.
From Verif Require Import MxTac StiefelModel CStieSpec CStieModel CMx CSymFRSpec PhaseModel PhaseSpec PhaseProofs.
Import Order.TTheory GRing.Theory Num.Theory.
Set Implicit Arguments.
Unset Strict Implicit.
Local Open Scope ring_scope.
Local Open Scope complex_scope.

Section fourier.
Variables (R : rcfType) (n1 n2 : nat).
Local Notation C := R[i].
Local Notation re := (@complex.Re R).
Local Notation im := (@complex.Im R).
Local Notation n := (n1 * n2)%N.
Variables (w1 w2 : C).
Add Field fourier_field : (rcf_field R).
Add Ring fourier_ring : (kring R).
Lemma sum_roots m (w : C) (a c : 'I_m) : unit_root m w ->
  \sum_(i < m) conjc w ^+ (a * i) * w ^+ (i * c) = if a == c then m%:R else 0.
Proof.
move=> [Hp Hu].
have Hm : (0 < m)%N by case: m a c Hp => [[]|].
pose z := conjc w ^+ a * w ^+ c.
have -> : \sum_(i < m) conjc w ^+ (a * i) * w ^+ (i * c) = \sum_(i < m) z ^+ i.
  by apply: eq_bigr => i _; rewrite /z exprMn -!exprM (mulnC i).
have Hz : z = 1 -> a = c.
  move=> E; have : w ^+ c = w ^+ a.
    by rewrite -[RHS]mulr1 -E /z mulrA -exprMn (mulrC w) Hu expr1n mul1r.
  move/eqP; rewrite (eq_prim_root_expr Hp) !modn_small // => /eqP E'.
  by apply: val_inj.
case: eqP => [E|E].
  have -> : z = 1 by rewrite /z E -exprMn Hu expr1n.
  by rewrite (eq_bigr (fun _ => 1)) ?sumr_const ?card_ord // => i _; rewrite expr1n.
have E1 : z ^+ m - 1 = 0.
  rewrite /z exprMn -!exprM !(mulnC _ m) !exprM (prim_expr_order Hp).
  have -> : conjc w ^+ m = 1 by rewrite -rmorphX (prim_expr_order Hp) rmorph1.
  by rewrite !expr1n mulr1 subrr.
move/eqP: E1; rewrite subrX1 mulf_eq0 subr_eq0 => /orP [/eqP /Hz //|/eqP ->//].
Qed.
Hypotheses (H1 : unit_root n1 w1) (H2 : unit_root n2 w2).
(** The inverse transform. *)
Lemma fft_inverse (A : 'M[C]_(n1, n2)) : fft2d w1 w2 BACKWARD (fft2d w1 w2 FORWARD A) = n%:R *: A.
Proof.
apply/matrixP => a b; rewrite !mxE /=.
have -> : \sum_(c < n1) \sum_(e < n2) fft2d w1 w2 FORWARD A c e * conjc w1 ^+ (a * c) * conjc w2 ^+ (b * e) =
  \sum_(c' < n1) \sum_(e' < n2) A c' e' * ((\sum_(c < n1) conjc w1 ^+ (a * c) * w1 ^+ (c * c')) * (\sum_(e < n2) conjc w2 ^+ (b * e) * w2 ^+ (e * e'))).
  transitivity (\sum_(c < n1) \sum_(e < n2) \sum_(c' < n1) \sum_(e' < n2)
    A c' e' * ((conjc w1 ^+ (a * c) * w1 ^+ (c * c')) * (conjc w2 ^+ (b * e) * w2 ^+ (e * e')))).
    apply: eq_bigr => c _; apply: eq_bigr => e _; rewrite mxE /= !mulr_suml; apply: eq_bigr => c' _.
    by rewrite !mulr_suml; apply: eq_bigr => e' _; krng R.
  transitivity (\sum_(c' < n1) \sum_(e' < n2) \sum_(c < n1) \sum_(e < n2)
    A c' e' * ((conjc w1 ^+ (a * c) * w1 ^+ (c * c')) * (conjc w2 ^+ (b * e) * w2 ^+ (e * e')))).
    rewrite (eq_bigr (fun c : 'I_n1 => \sum_(c' < n1) \sum_(e < n2) \sum_(e' < n2)
      A c' e' * ((conjc w1 ^+ (a * c) * w1 ^+ (c * c')) * (conjc w2 ^+ (b * e) * w2 ^+ (e * e'))))); last by move=> c _; rewrite exchange_big.
    rewrite exchange_big; apply: eq_bigr => c' _ /=.
    rewrite (eq_bigr (fun c : 'I_n1 => \sum_(e' < n2) \sum_(e < n2)
      A c' e' * ((conjc w1 ^+ (a * c) * w1 ^+ (c * c')) * (conjc w2 ^+ (b * e) * w2 ^+ (e * e'))))); last by move=> c _; rewrite exchange_big.
    by rewrite exchange_big.
  apply: eq_bigr => c' _; apply: eq_bigr => e' _.
  rewrite mulr_suml mulr_sumr; apply: eq_bigr => c _.
  by rewrite mulr_sumr mulr_sumr.
rewrite (bigD1 a) //= [X in _ + X]big1; last first.
  move=> c Hc; rewrite big1 // => e _; rewrite sum_roots // eq_sym (negbTE Hc) mul0r mulr0 //.
rewrite addr0 (bigD1 b) //= [X in _ + X]big1; last first.
  by move=> e He; rewrite [X in _ * (_ * X)]sum_roots // eq_sym (negbTE He) !mulr0.
by rewrite addr0 !sum_roots // !eqxx -natrM mulrC.
Qed.
(** The transforms are adjoint to one another, for any numbers w1 and w2. *)
Lemma fft_adjoint (u1 u2 : C) (A B : 'M[C]_(n1, n2)) :
  cinner (fft2d u1 u2 FORWARD A) B = cinner A (fft2d u1 u2 BACKWARD B).
Proof.
have G (X Y : 'M[C]_(n1, n2)) : cinner X Y = re (\sum_i \sum_j conjc (X i j) * Y i j).
  by rewrite -cdotE /cdot re_sum; apply: eq_bigr => i _; rewrite re_sum; apply: eq_bigr => j _; rewrite reM reJ imJ; rng R.
rewrite !G; congr (re _).
transitivity (\sum_(a < n1) \sum_(b < n2) \sum_(c < n1) \sum_(e < n2)
  conjc (A c e) * conjc u1 ^+ (a * c) * conjc u2 ^+ (b * e) * B a b).
  apply: eq_bigr => a _; apply: eq_bigr => b _; rewrite mxE cj_sum mulr_suml; apply: eq_bigr => c _.
  by rewrite cj_sum mulr_suml; apply: eq_bigr => e _; rewrite /= !cjM !rmorphX.
transitivity (\sum_(c < n1) \sum_(e < n2) \sum_(a < n1) \sum_(b < n2)
  conjc (A c e) * conjc u1 ^+ (a * c) * conjc u2 ^+ (b * e) * B a b); last first.
  apply: eq_bigr => c _; apply: eq_bigr => e _; rewrite mxE mulr_sumr; apply: eq_bigr => a _.
  rewrite mulr_sumr; apply: eq_bigr => b _ /=; rewrite (mulnC c) (mulnC e).
  by krng R.
rewrite (eq_bigr (fun a : 'I_n1 => \sum_(c < n1) \sum_(b < n2) \sum_(e < n2)
  conjc (A c e) * conjc u1 ^+ (a * c) * conjc u2 ^+ (b * e) * B a b)); last by move=> a _; rewrite exchange_big.
rewrite exchange_big; apply: eq_bigr => c _ /=.
rewrite (eq_bigr (fun a : 'I_n1 => \sum_(e < n2) \sum_(b < n2)
  conjc (A c e) * conjc u1 ^+ (a * c) * conjc u2 ^+ (b * e) * B a b)); last by move=> a _; rewrite exchange_big.
by rewrite exchange_big.
Qed.
Lemma rc_nat m : (m%:R : R)%:C = m%:R :> C.
Proof. by rewrite rmorph_nat. Qed.
Lemma fft_energy (A : 'M[C]_(n1, n2)) : cinner (fft2d w1 w2 FORWARD A) (fft2d w1 w2 FORWARD A) = n%:R * cinner A A.
Proof. by rewrite fft_adjoint fft_inverse -rc_nat cinnerZr. Qed.
(** Energy of the samples of one image. *)
Section samples.
Variables (l r : nat) (masks : 'I_l -> 'cV[C]_n).
Lemma norm_pixels (v : 'cV[C]_n) : cinner (reshape v) (reshape v) = \sum_k (re (v k 0) ^+ 2 + im (v k 0) ^+ 2).
Proof.
rewrite -cdotE sum_pixels; apply: eq_bigr => a _; apply: eq_bigr => b _.
by rewrite mxE -!expr2.
Qed.
Lemma norm_unshape (A : 'M[C]_(n1, n2)) : \sum_k (re (unshape A k 0) ^+ 2 + im (unshape A k 0) ^+ 2) = cinner A A.
Proof.
rewrite -cdotE sum_pixels; apply: eq_bigr => a _; apply: eq_bigr => b _; rewrite mxE.
have -> : Ordinal (row_lt (Ordinal (idx_lt a b))) = a by apply: val_inj; rewrite /= idx_row.
have -> : Ordinal (col_lt (Ordinal (idx_lt a b))) = b by apply: val_inj; rewrite /= idx_col.
by rewrite -!expr2.
Qed.
Lemma sample_energy (x : 'M[C]_(n, r)) i :
  cinner (sample w1 w2 masks x i) (sample w1 w2 masks x i) =
  \sum_k \sum_j (re (masks i k 0) ^+ 2 + im (masks i k 0) ^+ 2) * (re (x k j) ^+ 2 + im (x k j) ^+ 2).
Proof.
rewrite -cdotE /cdot exchange_big [RHS]exchange_big; apply: eq_bigr => j _ /=.
rewrite (eq_bigr (fun k => re (unshape (fft2d w1 w2 FORWARD (reshape (masked masks i x j))) k 0) ^+ 2
  + im (unshape (fft2d w1 w2 FORWARD (reshape (masked masks i x j))) k 0) ^+ 2)); last by move=> k _; rewrite mxE -!expr2.
rewrite norm_unshape fft_energy norm_pixels mulr_sumr; apply: eq_bigr => k _.
have Hn : (n%:R : R) != 0 by rewrite pnatr_eq0; case: (n) k => [[]|].
have Hs : sqn R n1 n2 ^+ 2 = n%:R by rewrite /sqn sqr_sqrtr ?ler0n.
have Hs0 : sqn R n1 n2 != 0 by apply/eqP => E; move: Hn; rewrite -Hs E expr0n eqxx.
rewrite maskedE rcV; move: (masks i k 0) (x k j) => m y.
rewrite -Hs !expr2 !(reM, imM) /= !(mulr0, subr0, addr0, add0r).
move: (sqn R n1 n2) Hs0 => s /eqP Hs0.
by toR R; field.
Qed.
End samples.
End fourier.
