(** Theorems about the objective functions that come with the library. *)
From mathcomp Require Import all_ssreflect all_algebra.
From Verif Require Import StiefelModel StiefelSpec ObjectiveModel ObjectiveSpec ObjectiveProofs ObjectiveFacts ObjectiveWitness.
Import GRing.Theory Num.Theory.
Set Implicit Arguments.
Unset Strict Implicit.
Local Open Scope ring_scope.

(** C96.  f is the documented function, EucGrad its gradient and EucHessianEta the derivative of
    EucGrad, for data as documented. *)
(** x^T A x / 2. *)
Theorem C96_quadratic (R : rcfType) (d : nat) (A : 'M[R]_d) : symmetric A ->
  (forall x, value (euc_quadratic A) x = half R * \tr (x^T *m A *m x)) /\
  derivatives_of (@inner R d 1) (euc_quadratic A) (value (euc_quadratic A)).
Proof. exact (@quadratic_ok R d A). Qed.
Print Assumptions C96_quadratic.
(** Symmetry cannot be dispensed with: if EucGrad is the gradient everywhere, A is symmetric. *)
Theorem C96_quadratic_needs_symmetry (R : rcfType) (d : nat) (A : 'M[R]_d) :
  (forall x, is_gradient (@inner R d 1) (value (euc_quadratic A)) x (egrad (euc_quadratic A) x)) -> symmetric A.
Proof. exact (@quadratic_needs_symmetry R d A). Qed.
Print Assumptions C96_quadratic_needs_symmetry.
Example C96_quadratic_example (R : rcfType) : symmetric (wsym R) /\ wsym R 0 1 = 1 /\ ~ symmetric (wskew R).
Proof. exact (conj (proj1 (wsym_sym R)) (conj (proj2 (wsym_sym R)) (@wskew_not R))). Qed.

(** tr(X^T B X D). *)
Theorem C96_brockett (R : rcfType) (n p : nat) (B : 'M[R]_n) (D : 'rV[R]_p) : symmetric B ->
  (forall x, value (stie_brockett B D) x = \tr (x^T *m B *m x *m diag_mx D)) /\
  derivatives_of (@inner R n p) (stie_brockett B D) (value (stie_brockett B D)).
Proof. exact (@brockett_ok R n p B D). Qed.
Print Assumptions C96_brockett.
(** tr(X^T B X) / 2. *)
Theorem C96_rayleigh (R : rcfType) (n p : nat) (B : 'M[R]_n) : symmetric B ->
  (forall x, value (grass_rq p B) x = half R * \tr (x^T *m B *m x)) /\
  derivatives_of (@inner R n p) (grass_rq p B) (value (grass_rq p B)).
Proof. exact (@rq_ok R n p B). Qed.
Print Assumptions C96_rayleigh.
(** The sum of three Brockett functions on a product. *)
Theorem C96_product_brockett (R : rcfType) (n p m q : nat) (B1 B2 : 'M[R]_n) (B3 : 'M[R]_m)
    (D1 D2 : 'rV[R]_p) (D3 : 'rV[R]_q) : symmetric B1 -> symmetric B2 -> symmetric B3 ->
  (forall x, value (prod_brockett B1 B2 B3 D1 D2 D3) x = \tr (x.1.1^T *m B1 *m x.1.1 *m diag_mx D1) +
     \tr (x.1.2^T *m B2 *m x.1.2 *m diag_mx D2) + \tr (x.2^T *m B3 *m x.2 *m diag_mx D3)) /\
  derivatives_of (@inner3 R n p n p m q) (prod_brockett B1 B2 B3 D1 D2 D3) (value (prod_brockett B1 B2 B3 D1 D2 D3)).
Proof. exact (@prod_brockett_ok R n p m q B1 B2 B3 D1 D2 D3). Qed.
Print Assumptions C96_product_brockett.
(** vec(X - A)^T W vec(X - A). *)
Theorem C96_weighted_approximation (R : rcfType) (m n : nat) (A : 'M[R]_(m, n)) (W : 'M[R]_(n * m)) : symmetric W ->
  (forall x, value (weight_approx A W) x = ((to_column (x - A))^T *m W *m to_column (x - A)) 0 0) /\
  derivatives_of (@inner R m n) (weight_approx A W) (value (weight_approx A W)).
Proof. exact (@weight_ok R m n A W). Qed.
Print Assumptions C96_weighted_approximation.
(** tr(X A X M) - tr(X C C^T) at X = Y Y^T. *)
Theorem C96_lyapunov (R : rcfType) (n p c : nat) (A M : 'M[R]_n) (C : 'M[R]_(n, c)) : symmetric A -> symmetric M ->
  (forall x, value (lyapunov p A M C) x = \tr (x *m x^T *m A *m x *m x^T *m M) - \tr (x *m x^T *m C *m C^T)) /\
  derivatives_of (@inner R n p) (lyapunov p A M C) (value (lyapunov p A M C)).
Proof. exact (@lyapunov_ok R n p c A M C). Qed.
Print Assumptions C96_lyapunov.
(** Half the squared misfit at the sampled entries of G H^T; entries may be sampled twice. *)
Theorem C96_matrix_completion (R : rcfType) (m n r nz : nat) (ir : 'I_nz -> 'I_m) (jc : 'I_nz -> 'I_n) (vals : 'rV[R]_nz) :
  (forall x, value (mat_completion r ir jc vals) x = half R * \sum_t ((x.1 *m x.2^T) (ir t) (jc t) - vals 0 t) ^+ 2) /\
  derivatives_of (@inner2 R m r n r) (mat_completion r ir jc vals) (value (mat_completion r ir jc vals)).
Proof. exact (@completion_ok R m n r nz ir jc vals). Qed.
Print Assumptions C96_matrix_completion.
(** The squared length, in the metric of a self-adjoint operator, of the convex combination with the
    squares of the entries of x. *)
Theorem C96_convex_hull (R : rcfType) (d l : nat) (W : 'I_l -> 'cV[R]_d) (Hv : option ('cV[R]_d -> 'cV[R]_d)) :
  (forall h, Hv = Some h -> (forall k u v, h (k *: u + v) = k *: h u + h v) /\ (forall u v, inner (h u) v = inner u (h v))) ->
  (forall x : 'cV[R]_l, let w := \sum_i (x i 0) ^+ 2 *: W i in
     value (convex_hull W Hv) x = inner w (if Hv is Some h then h w else w)) /\
  derivatives_of (@inner R l 1) (convex_hull W Hv) (value (convex_hull W Hv)).
Proof. exact (@hull_ok R d l W Hv). Qed.
Print Assumptions C96_convex_hull.
Example C96_convex_hull_example (R : rcfType) : let h : 'cV[R]_2 -> 'cV[R]_2 := mulmx (wsym R) in
  (forall k u v, h (k *: u + v) = k *: h u + h v) /\ (forall u v, inner (h u) v = inner u (h v)).
Proof. exact (whv_ok R). Qed.
(** The quotient of another problem's Hessian in its tangent space, or its negative. *)
Theorem C96_tangent_rayleigh (R : rcfType) (V : lmodType R) (metric : V -> V -> R) (Hess : V -> V) (ismin : bool) :
  bilinear metric -> (forall k u v, Hess (k *: u + v) = k *: Hess u + Hess v) ->
  (forall u v, metric (Hess u) v = metric u (Hess v)) ->
  (forall x, value (tx_rq metric Hess ismin) x = (if ismin then 1 else -1) * metric (Hess x) x) /\
  derivatives_of metric (tx_rq metric Hess ismin) (value (tx_rq metric Hess ismin)).
Proof. exact (@tx_ok R V metric Hess ismin). Qed.
Print Assumptions C96_tangent_rayleigh.
Example C96_tangent_rayleigh_example (R : rcfType) : bilinear (@inner R 2 1) /\
  let h : 'cV[R]_2 -> 'cV[R]_2 := mulmx (wsym R) in
  (forall k u v, h (k *: u + v) = k *: h u + h v) /\ (forall u v, inner (h u) v = inner u (h v)).
Proof. exact (conj (inner_bilinear R 2 1) (whv_ok R)). Qed.

(** C97.  The objectives of the proximal gradient methods: f is a smooth function plus lambda times
    the 1-norm, EucGrad and EucHessianEta are the derivatives of the smooth part, and L bounds how
    far it is from its linearization. *)
Theorem C97_sparse_approximation (R : rcfType) (m n : nat) (lambda : R) (A : 'M[R]_(m, n)) :
  (forall x, value (sparse_approx lambda A) x = inner (x - A) (x - A) + lambda * norm1 x) /\
  derivatives_of (@inner R m n) (sparse_approx lambda A) (fun x => inner (x - A) (x - A)) /\
  lipschitz_bound (@inner R m n) (fun x => inner (x - A) (x - A)) (egrad (sparse_approx lambda A)) (sparse_L R).
Proof. exact (@sparse_ok R m n lambda A). Qed.
Print Assumptions C97_sparse_approximation.
(** U diag(S) Vt is a singular value decomposition of B and s0 the largest singular value. *)
Theorem C97_sparse_pca (R : rcfType) (m n p r : nat) (lambda : R) (B : 'M[R]_(m, n)) (U : 'M[R]_(m, r))
    (S : 'rV[R]_r) (Vt : 'M[R]_(r, n)) (s0 : R) :
  B = U *m diag_mx S *m Vt -> orthonormal U -> Vt *m Vt^T = 1%:M -> (forall i, 0 <= S 0 i <= s0) ->
  let smooth (x : 'M[R]_(n, p)) := - \tr (x^T *m B^T *m B *m x) in
  (forall x, value (stie_spca p lambda B) x = smooth x + lambda * norm1 x) /\
  derivatives_of (@inner R n p) (stie_spca p lambda B) smooth /\
  lipschitz_bound (@inner R n p) smooth (egrad (stie_spca p lambda B)) (spca_L s0).
Proof. exact (@spca_full R m n p r lambda B U S Vt s0). Qed.
Print Assumptions C97_sparse_pca.
Example C97_sparse_pca_example (R : rcfType) : let B : 'M[R]_2 := diag_mx (wS R) in
  B = 1%:M *m diag_mx (wS R) *m 1%:M /\ orthonormal (1%:M : 'M[R]_2) /\
  (1%:M : 'M[R]_2) *m 1%:M^T = 1%:M /\ (forall i, 0 <= wS R 0 i <= 2%:R).
Proof. exact (wS_ok R). Qed.

(** C98.  The sparsest vector problem: f is the 1-norm of Q x, EucGrad is a subgradient everywhere
    and the gradient wherever f is differentiable in every term. *)
Theorem C98_sparsest_gradient_partial (R : rcfType) (m n : nat) (Q : 'M[R]_(m, n)) :
  (forall x, value (sparsest Q) x = norm1 (Q *m x)) /\
  (forall x y, value (sparsest Q) x + inner (egrad (sparsest Q) x) (y - x) <= value (sparsest Q) y) /\
  (forall x, (forall i, (Q *m x) i 0 != 0) -> is_gradient (@inner R n 1) (value (sparsest Q)) x (egrad (sparsest Q) x)).
Proof. exact (@sparsest_ok R m n Q). Qed.
Print Assumptions C98_sparsest_gradient_partial.
(** EucHessianEta returns eta, which is the derivative of EucGrad at no such point, in no direction. *)
Theorem C98_sparsest_hessian_refuted (R : rcfType) (m n : nat) (Q : 'M[R]_(m, n)) (x eta : 'cV[R]_n) :
  (forall i, (Q *m x) i 0 != 0) -> eta <> 0 ->
  ~ is_derivative (@inner R n 1) (egrad (sparsest Q)) x eta (ehess (sparsest Q) x eta).
Proof. exact (@sparsest_hessian_wrong R m n Q x eta). Qed.
Print Assumptions C98_sparsest_hessian_refuted.
Example C98_sparsest_example (R : rcfType) : (forall i, (wQ R *m wone R) i 0 != 0) /\ wone R <> 0.
Proof. exact (wQ_ok R). Qed.
