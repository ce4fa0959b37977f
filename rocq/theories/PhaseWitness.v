(** A concrete case of the theorems about phase retrieval: images of 2 x 2 pixels, one mask. *)
From mathcomp Require Import all_ssreflect all_algebra.
From mathcomp.real_closed Require Import complex.
From Verif Require Import CStieSpec CMx CSymFRSpec PhaseModel PhaseSpec PhaseProofs PhaseFourier.
Import Order.TTheory GRing.Theory Num.Theory.
Set Implicit Arguments.
Unset Strict Implicit.
Local Open Scope ring_scope.
Local Open Scope complex_scope.

Section witness.
Variable R : rcfType.
Local Notation C := R[i].
Definition wmask (i : 'I_1) : 'cV[C]_(2 * 2) := \col_k (if k == 0 then 'i else 1).
Definition wb (i : 'I_1) : 'cV[R]_(2 * 2) := \col_k k%:R.
Lemma wroot : unit_root 2 (-1 : C).
Proof.
split; last by rewrite rmorphN rmorph1 mulrNN mulr1.
apply/andP; split=> //; apply/forallP => -[[|[|m]] Hm] //=.
  rewrite unity_rootE expr1 eqbF_neg.
  by apply/eqP => /(f_equal (@complex.Re R)) /= /eqP; rewrite eq_sym -addr_eq0 -[1 + 1]/(2%:R) pnatr_eq0.
by rewrite unity_rootE expr2 mulrNN mulr1 eqxx.
Qed.
Lemma wb_energy : 0 < energy wb.
Proof.
rewrite /energy big_ord_recl big_ord0 addr0 (bigD1 (@Ordinal 4 1 isT)) //=.
rewrite mxE /= expr1n; apply: (@lt_le_trans _ _ 1); first exact: ltr01.
by rewrite ler_addl sumr_ge0 // => i _; rewrite sqr_ge0.
Qed.
Lemma wmask_unit i k : complex.Re (wmask i k 0) ^+ 2 + complex.Im (wmask i k 0) ^+ 2 = 1.
Proof. by rewrite mxE; case: eqP => _ /=; rewrite expr1n expr0n /= ?add0r ?addr0. Qed.
End witness.
(** The statements of the theorems, collected. *)
Section facts.
Variables (R : rcfType) (n1 n2 l r : nat) (w1 w2 : R[i]) (masks : 'I_l -> 'cV[R[i]]_(n1 * n2)).
Variables (b : 'I_l -> 'cV[R]_(n1 * n2)) (kappa : R).
Lemma fact_cost (x : 'M[R[i]]_(n1 * n2, r)) : 0 < energy b ->
  cost w1 w2 masks b kappa x = misfit w1 w2 masks b kappa (gram x) /\
  (0 <= kappa -> 0 <= cost w1 w2 masks b kappa x) /\
  (kappa = 0 -> cost w1 w2 masks b kappa x = 0 <-> forall i k, intensity w1 w2 (masks i) (gram x) k = b i k 0).
Proof. by move=> H; split; [exact: cost_misfit | split; [exact: cost_ge0 | move=> Hk; exact: cost_eq0]]. Qed.
Lemma fact_gradient (x eta : 'M[R[i]]_(n1 * n2, r)) : 0 < energy b ->
  exists c2 c3 c4 : R, forall t, cost w1 w2 masks b kappa (x + rscale t eta) =
  cost w1 w2 masks b kappa x + t * cinner (egrad w1 w2 masks b kappa x) eta + t ^+ 2 * c2 + t ^+ 3 * c3 + t ^+ 4 * c4.
Proof.
move=> _; have [c3 [c4 H]] := @cost_line R n1 n2 l r w1 w2 masks b kappa x eta.
by exists (2%:R^-1 * cinner (ehess w1 w2 masks b kappa x eta) eta), c3, c4 => t; rewrite H !mulrA.
Qed.
Lemma fact_hessian (x eta : 'M[R[i]]_(n1 * n2, r)) : 0 < energy b ->
  (exists c3 c4 : R, forall t, cost w1 w2 masks b kappa (x + rscale t eta) =
     cost w1 w2 masks b kappa x + t * cinner (egrad w1 w2 masks b kappa x) eta
     + t ^+ 2 / 2%:R * cinner (ehess w1 w2 masks b kappa x eta) eta + t ^+ 3 * c3 + t ^+ 4 * c4) /\
  (exists G2 G3, forall t, egrad w1 w2 masks b kappa (x + rscale t eta) =
     egrad w1 w2 masks b kappa x + rscale t (ehess w1 w2 masks b kappa x eta) + rscale (t ^+ 2) G2 + rscale (t ^+ 3) G3) /\
  (forall xi, cinner (ehess w1 w2 masks b kappa x eta) xi = cinner eta (ehess w1 w2 masks b kappa x xi)).
Proof. by move=> _; split; [exact: cost_line | split; [exact: grad_line | exact: hess_sym]]. Qed.
Lemma fact_orbit (x eta : 'M[R[i]]_(n1 * n2, r)) : 0 < energy b ->
  invariant_at x (egrad w1 w2 masks b kappa x) /\
  (forall O : 'M[R[i]]_r, O *m adj O = 1%:M ->
    [/\ cost w1 w2 masks b kappa (x *m O) = cost w1 w2 masks b kappa x,
        egrad w1 w2 masks b kappa (x *m O) = egrad w1 w2 masks b kappa x *m O &
        ehess w1 w2 masks b kappa (x *m O) (eta *m O) = ehess w1 w2 masks b kappa x eta *m O]).
Proof.
move=> _; split; first exact: egrad_invariant.
move=> O H; have U : unitary (adj O) by rewrite /unitary adjK.
split; [|exact: egrad_unitary|exact: ehess_unitary].
by rewrite !cost_misfit /gram adjM mulmxA -(mulmxA x) H mulmx1.
Qed.
Lemma fact_samples (x : 'M[R[i]]_(n1 * n2, r)) : unit_root n1 w1 -> unit_root n2 w2 ->
  (forall i k, complex.Re (masks i k 0) ^+ 2 + complex.Im (masks i k 0) ^+ 2 = 1) ->
  forall i, \sum_k intensity w1 w2 (masks i) (gram x) k = cinner x x.
Proof.
move=> H1 H2 H i; transitivity (cinner (sample w1 w2 masks x i) (sample w1 w2 masks x i)).
  rewrite sampleE /cinner mxtrace_mulC /mxtrace re_sum; apply: eq_bigr => k _.
  by rewrite /intensity /gram adjM !mulmxA.
rewrite sample_energy // -cdotE; apply: eq_bigr => k _; apply: eq_bigr => j _.
by rewrite H mul1r -!expr2.
Qed.
End facts.
