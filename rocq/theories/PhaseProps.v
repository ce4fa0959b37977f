(** The phase retrieval problem, C161-C165: theorems only.  The statements use PhaseSpec.v. *)
From mathcomp Require Import all_ssreflect all_algebra.
From mathcomp.real_closed Require Import complex.
From Verif Require Import CStieSpec CSymFRSpec PhaseModel PhaseSpec PhaseProofs PhaseFourier PhaseWitness.
Import GRing.Theory Num.Theory.
Set Implicit Arguments.
Unset Strict Implicit.
Local Open Scope ring_scope.
Local Open Scope complex_scope.

(** C161: the cost is the relative squared misfit of the intensities plus kappa times the trace, a
    function of x x^H; it is nonnegative, and without regularisation it vanishes exactly at the
    matrices that explain the data. *)
Theorem C161_phase_cost (R : rcfType) (n1 n2 l r : nat) (w1 w2 : R[i]) (masks : 'I_l -> 'cV[R[i]]_(n1 * n2))
  (b : 'I_l -> 'cV[R]_(n1 * n2)) (kappa : R) (x : 'M[R[i]]_(n1 * n2, r)) : 0 < energy b ->
  cost w1 w2 masks b kappa x = misfit w1 w2 masks b kappa (gram x) /\
  (0 <= kappa -> 0 <= cost w1 w2 masks b kappa x) /\
  (kappa = 0 -> cost w1 w2 masks b kappa x = 0 <-> forall i k, intensity w1 w2 (masks i) (gram x) k = b i k 0).
Proof. exact (@fact_cost R n1 n2 l r w1 w2 masks b kappa x). Qed.
Print Assumptions C161_phase_cost.
Example C161_example (R : rcfType) : 0 < energy (wb R).
Proof. exact (wb_energy R). Qed.

(** C162: along every line the cost is a polynomial of degree four whose slope at 0 is the gradient. *)
Theorem C162_phase_gradient (R : rcfType) (n1 n2 l r : nat) (w1 w2 : R[i]) (masks : 'I_l -> 'cV[R[i]]_(n1 * n2))
  (b : 'I_l -> 'cV[R]_(n1 * n2)) (kappa : R) (x eta : 'M[R[i]]_(n1 * n2, r)) : 0 < energy b ->
  exists c2 c3 c4 : R, forall t, cost w1 w2 masks b kappa (x + rscale t eta) =
  cost w1 w2 masks b kappa x + t * cinner (egrad w1 w2 masks b kappa x) eta + t ^+ 2 * c2 + t ^+ 3 * c3 + t ^+ 4 * c4.
Proof. exact (@fact_gradient R n1 n2 l r w1 w2 masks b kappa x eta). Qed.
Print Assumptions C162_phase_gradient.
Example C162_example (R : rcfType) : 0 < energy (wb R).
Proof. exact (wb_energy R). Qed.

(** C163: its second derivative is the Hessian, which is also the derivative of the gradient and is
    self-adjoint. *)
Theorem C163_phase_hessian (R : rcfType) (n1 n2 l r : nat) (w1 w2 : R[i]) (masks : 'I_l -> 'cV[R[i]]_(n1 * n2))
  (b : 'I_l -> 'cV[R]_(n1 * n2)) (kappa : R) (x eta : 'M[R[i]]_(n1 * n2, r)) : 0 < energy b ->
  (exists c3 c4 : R, forall t, cost w1 w2 masks b kappa (x + rscale t eta) =
     cost w1 w2 masks b kappa x + t * cinner (egrad w1 w2 masks b kappa x) eta
     + t ^+ 2 / 2%:R * cinner (ehess w1 w2 masks b kappa x eta) eta + t ^+ 3 * c3 + t ^+ 4 * c4) /\
  (exists G2 G3, forall t, egrad w1 w2 masks b kappa (x + rscale t eta) =
     egrad w1 w2 masks b kappa x + rscale t (ehess w1 w2 masks b kappa x eta) + rscale (t ^+ 2) G2 + rscale (t ^+ 3) G3) /\
  (forall xi, cinner (ehess w1 w2 masks b kappa x eta) xi = cinner eta (ehess w1 w2 masks b kappa x xi)).
Proof. exact (@fact_hessian R n1 n2 l r w1 w2 masks b kappa x eta). Qed.
Print Assumptions C163_phase_hessian.
Example C163_example (R : rcfType) : 0 < energy (wb R).
Proof. exact (wb_energy R). Qed.

(** C164: the problem is well defined on the quotient.  The gradient has no component along the
    orbit of x, and cost, gradient and Hessian are compatible with the unitary matrices. *)
Theorem C164_phase_quotient (R : rcfType) (n1 n2 l r : nat) (w1 w2 : R[i]) (masks : 'I_l -> 'cV[R[i]]_(n1 * n2))
  (b : 'I_l -> 'cV[R]_(n1 * n2)) (kappa : R) (x eta : 'M[R[i]]_(n1 * n2, r)) : 0 < energy b ->
  invariant_at x (egrad w1 w2 masks b kappa x) /\
  (forall O : 'M[R[i]]_r, O *m adj O = 1%:M ->
    [/\ cost w1 w2 masks b kappa (x *m O) = cost w1 w2 masks b kappa x,
        egrad w1 w2 masks b kappa (x *m O) = egrad w1 w2 masks b kappa x *m O &
        ehess w1 w2 masks b kappa (x *m O) (eta *m O) = ehess w1 w2 masks b kappa x eta *m O]).
Proof. exact (@fact_orbit R n1 n2 l r w1 w2 masks b kappa x eta). Qed.
Print Assumptions C164_phase_quotient.
Example C164_example (R : rcfType) : 0 < energy (wb R).
Proof. exact (wb_energy R). Qed.

(** C165: FFT2D.  The backward transform is the adjoint of the forward one and inverts it up to the
    number of pixels. *)
Theorem C165_fourier (R : rcfType) (n1 n2 : nat) (w1 w2 : R[i]) : unit_root n1 w1 -> unit_root n2 w2 ->
  (forall A : 'M[R[i]]_(n1, n2), fft2d w1 w2 BACKWARD (fft2d w1 w2 FORWARD A) = (n1 * n2)%:R *: A) /\
  (forall A B : 'M[R[i]]_(n1, n2), cinner (fft2d w1 w2 FORWARD A) B = cinner A (fft2d w1 w2 BACKWARD B)).
Proof. exact (fun H1 H2 => conj (@fft_inverse R n1 n2 w1 w2 H1 H2) (@fft_adjoint R n1 n2 w1 w2)). Qed.
Print Assumptions C165_fourier.
(** With masks of modulus one, the intensities that each mask predicts add up to the squared norm
    of x. *)
Theorem C165_intensities (R : rcfType) (n1 n2 l r : nat) (w1 w2 : R[i]) (masks : 'I_l -> 'cV[R[i]]_(n1 * n2))
  (x : 'M[R[i]]_(n1 * n2, r)) : unit_root n1 w1 -> unit_root n2 w2 ->
  (forall i k, complex.Re (masks i k 0) ^+ 2 + complex.Im (masks i k 0) ^+ 2 = 1) ->
  forall i, \sum_k intensity w1 w2 (masks i) (gram x) k = cinner x x.
Proof. exact (@fact_samples R n1 n2 l r w1 w2 masks x). Qed.
Print Assumptions C165_intensities.
Example C165_example (R : rcfType) : unit_root 2 (-1 : R[i]) /\
  forall i k, complex.Re (wmask R i k 0) ^+ 2 + complex.Im (wmask R i k 0) ^+ 2 = 1.
Proof. exact (conj (wroot R) (@wmask_unit R)). Qed.
