(** The blind deconvolution problem, C166-C168: theorems only.  The statements use BlindSpec.v. *)
From mathcomp Require Import all_ssreflect all_algebra.
From mathcomp.real_closed Require Import complex.
From Verif Require Import CStieSpec BlindModel BlindSpec BlindProofs BlindWitness.
Import GRing.Theory Num.Theory.
Set Implicit Arguments.
Unset Strict Implicit.
Local Open Scope ring_scope.
Local Open Scope complex_scope.

(** C166: the cost is the objective of the header file, the squared misfit of the measurements of
    X = h m^* plus the incoherence penalty; it does not change when the factors are rescaled without
    changing X, and it is nonnegative. *)
Theorem C166_blind_cost (R : rcfType) (n1 n2 N : nat) (w1 w2 : R[i]) (ihaar : 'M[R[i]]_(n1 * n2)) (B : 'M[R[i]]_(n1 * n2, N))
  (Cm : 'M[R[i]]_(n1 * n2)) (y : 'cV[R[i]]_(n1 * n2)) (rho d mu : R) (h : 'cV[R[i]]_N) (m : 'cV[R[i]]_(n1 * n2)) :
  d != 0 -> mu != 0 ->
  cost w1 w2 ihaar B Cm y rho d mu h m = misfit w1 w2 ihaar B Cm y (h *m adj m) + penalty w1 w2 B rho d mu h m /\
  (forall a : R[i], a != 0 -> cost w1 w2 ihaar B Cm y rho d mu (a *: h) ((conjc a)^-1 *: m) = cost w1 w2 ihaar B Cm y rho d mu h m) /\
  (0 <= rho -> 0 <= cost w1 w2 ihaar B Cm y rho d mu h m).
Proof. exact (@fact_cost_all R n1 n2 N w1 w2 ihaar B Cm y rho d mu h m). Qed.
Print Assumptions C166_blind_cost.
Example C166_example (R : rcfType) : (2%:R : R) != 0 /\ (0 : R) <= 3%:R.
Proof. exact (blind_numbers R). Qed.

(** C167: in every direction the slope of the cost, penalty included, is the inner product with the
    gradient. *)
Theorem C167_blind_gradient (R : rcfType) (n1 n2 N : nat) (w1 w2 : R[i]) (haar ihaar : 'M[R[i]]_(n1 * n2)) (B : 'M[R[i]]_(n1 * n2, N))
  (Cm : 'M[R[i]]_(n1 * n2)) (y : 'cV[R[i]]_(n1 * n2)) (rho d mu : R) (U dU : 'cV[R[i]]_N) (V dV : 'cV[R[i]]_(n1 * n2)) :
  wavelet haar ihaar ->
  slope (fun t => cost w1 w2 ihaar B Cm y rho d mu (U + rscale t dU) (V + rscale t dV))
    (inner2 (egrad w1 w2 haar ihaar B Cm y rho d mu U V) (dU, dV)).
Proof. exact (@fact_gradient R n1 n2 N w1 w2 haar ihaar B Cm y rho d mu U V dU dV). Qed.
Print Assumptions C167_blind_gradient.
Example C167_example (R : rcfType) : wavelet (wh R) (wh R).
Proof. exact (wh_wavelet R). Qed.

(** C168: without the penalty the cost is a polynomial of degree four along every line, and its second
    derivative is the Hessian, which is self-adjoint. *)
Theorem C168_blind_hessian (R : rcfType) (n1 n2 N : nat) (w1 w2 : R[i]) (haar ihaar : 'M[R[i]]_(n1 * n2)) (B : 'M[R[i]]_(n1 * n2, N))
  (Cm : 'M[R[i]]_(n1 * n2)) (y : 'cV[R[i]]_(n1 * n2)) (rho d mu : R) (U dU : 'cV[R[i]]_N) (V dV : 'cV[R[i]]_(n1 * n2)) :
  wavelet haar ihaar -> rho = 0 ->
  (exists c3 c4 : R, forall t : R, cost w1 w2 ihaar B Cm y rho d mu (U + rscale t dU) (V + rscale t dV) =
    cost w1 w2 ihaar B Cm y rho d mu U V + t * inner2 (egrad w1 w2 haar ihaar B Cm y rho d mu U V) (dU, dV)
    + t ^+ 2 / 2%:R * inner2 (ehess w1 w2 haar ihaar B Cm y U V dU dV) (dU, dV) + t ^+ 3 * c3 + t ^+ 4 * c4) /\
  (forall eU eV, inner2 (ehess w1 w2 haar ihaar B Cm y U V dU dV) (eU, eV) =
    inner2 (dU, dV) (ehess w1 w2 haar ihaar B Cm y U V eU eV)).
Proof. exact (@fact_polynomial R n1 n2 N w1 w2 haar ihaar B Cm y rho d mu U V dU dV). Qed.
Print Assumptions C168_blind_hessian.
Example C168_example (R : rcfType) : wavelet (wh R) (wh R).
Proof. exact (wh_wavelet R). Qed.
