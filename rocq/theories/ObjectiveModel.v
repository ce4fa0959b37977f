(** Model of the objective functions that come with the library, Problems/*.cpp: the value, what f
    stores in the fields of its argument, and the Euclidean gradient and Hessian that are computed
    from the stored fields.

    Matrices over an arbitrary real closed field: rounding is left out.  Elements are their main
    data; the fields that f adds to x are returned beside the value and handed to EucGrad and
    EucHessianEta, as x.Field does.  [dot] (Element::DotProduct), [gemm] and [gemm0]
    (Element::AlphaABaddBetaThis) are those of StiefelModel.v.  The complex problems and
    SPDKarcherMean (matrix logarithm) are not modelled. *)
From mathcomp Require Import all_ssreflect all_algebra.
From Verif Require Import StiefelModel.
Import GRing.Theory Num.Theory.
Set Implicit Arguments.
Unset Strict Implicit.
Local Open Scope ring_scope.

(** A class derived from Problem: f, EucGrad and EucHessianEta.  V: points and vectors, Fl: what f
    stores. *)
Record objective (R V Fl : Type) := Objective {
  o_f : V -> R * Fl;
  o_egrad : V -> Fl -> V;
  o_ehess : V -> Fl -> V -> V }.

Section model.
Variable R : rcfType.

(** DiagTimesM(M, GLOBAL::R): column j of M is multiplied by entry j of the diagonal. *)
Definition diag_times n p (D : 'rV[R]_p) (M : 'M[R]_(n, p)) : 'M[R]_(n, p) := \matrix_(i, j) (M i j * D 0 j).

(** EucQuadratic.cpp 18-36. *)
Definition euc_quadratic d (A : 'M[R]_d) : objective R 'cV[R]_d 'cV[R]_d :=
  {| o_f := fun x => let Ax := gemm0 1 A x in (half R * dot x Ax, Ax);
     o_egrad := fun _ Ax => Ax;
     o_ehess := fun _ _ eta => gemm0 1 A eta |}.

(** StieBrockett.cpp 21-42. *)
Definition stie_brockett n p (B : 'M[R]_n) (D : 'rV[R]_p) : objective R 'M[R]_(n, p) 'M[R]_(n, p) :=
  {| o_f := fun x => let BxD := diag_times D (gemm0 1 B x) in (dot x BxD, BxD);
     o_egrad := fun _ BxD => 2%:R *: BxD;
     o_ehess := fun _ _ eta => diag_times D (gemm0 2%:R B eta) |}.

(** GrassRQ.cpp 20-38. *)
Definition grass_rq n p (B : 'M[R]_n) : objective R 'M[R]_(n, p) 'M[R]_(n, p) :=
  {| o_f := fun x => let Bx := gemm0 1 B x in (dot Bx x / 2%:R, Bx);
     o_egrad := fun _ Bx => Bx;
     o_ehess := fun _ _ eta => gemm0 1 B eta |}.

(** ProdStieSumBrockett.cpp 28-69: a product point is a triple of components. *)
Definition prod_brockett n p m q (B1 B2 : 'M[R]_n) (B3 : 'M[R]_m) (D1 D2 : 'rV[R]_p) (D3 : 'rV[R]_q) :
    objective R ('M[R]_(n, p) * 'M[R]_(n, p) * 'M[R]_(m, q)) ('M[R]_(n, p) * 'M[R]_(n, p) * 'M[R]_(m, q)) :=
  {| o_f := fun x =>
       let B1x1D1 := diag_times D1 (gemm0 1 B1 x.1.1) in
       let B2x2D2 := diag_times D2 (gemm0 1 B2 x.1.2) in
       let B3x3D3 := diag_times D3 (gemm0 1 B3 x.2) in
       (dot x.1.1 B1x1D1 + dot x.1.2 B2x2D2 + dot x.2 B3x3D3, (B1x1D1, B2x2D2, B3x3D3));
     o_egrad := fun _ fl => (2%:R *: fl.1.1, 2%:R *: fl.1.2, 2%:R *: fl.2);
     o_ehess := fun _ _ eta =>
       (diag_times D1 (gemm0 2%:R B1 eta.1.1), diag_times D2 (gemm0 2%:R B2 eta.1.2),
        diag_times D3 (gemm0 2%:R B3 eta.2)) |}.

(** FRankEWeightApprox.cpp 22-44.  Reshape(m * n, 1) keeps the entries in column-major order, and
    Reshape(m, n) takes them back; DotProduct multiplies entries at equal positions in memory. *)
Definition to_column m n (A : 'M[R]_(m, n)) : 'cV[R]_(n * m) := (mxvec A^T)^T.
Definition of_column m n (v : 'cV[R]_(n * m)) : 'M[R]_(m, n) := (vec_mx v^T)^T.
Definition weight_approx m n (A : 'M[R]_(m, n)) (W : 'M[R]_(n * m)) :
    objective R 'M[R]_(m, n) ('cV[R]_(n * m) * 'M[R]_(m, n)) :=
  {| o_f := fun x =>
       let xmA := to_column ((-1) *: A + x) in
       let WxmA := of_column (gemm0 1 W xmA) in
       (dot xmA (to_column WxmA), (xmA, WxmA));
     o_egrad := fun _ fl => 2%:R *: fl.2;
     o_ehess := fun _ _ eta => of_column (gemm0 2%:R W (to_column eta)) |}.

(** FRankESparseApprox.cpp 24-47 and StieSPCA.cpp 37-63.  The sum over the entries is added to the
    smooth part; EucGrad and EucHessianEta are those of the smooth part. *)
Definition entry_sum m n (lambda : R) (x : 'M[R]_(m, n)) : R := \sum_i \sum_j lambda * `|x i j|.
Definition sparse_approx m n (lambda : R) (A : 'M[R]_(m, n)) : objective R 'M[R]_(m, n) 'M[R]_(m, n) :=
  {| o_f := fun x => let xmA := (-1) *: A + x in (dot xmA xmA + entry_sum lambda x, xmA);
     o_egrad := fun _ xmA => 2%:R *: xmA;
     o_ehess := fun _ _ eta => 2%:R *: eta |}.
Definition sparse_L : R := 2%:R.
Definition stie_spca m n p (lambda : R) (B : 'M[R]_(m, n)) : objective R 'M[R]_(n, p) 'M[R]_(m, p) :=
  {| o_f := fun x => let Bx := gemm0 1 B x in (- dot Bx Bx + entry_sum lambda x, Bx);
     o_egrad := fun _ Bx => gemm0 (- 2%:R) B^T Bx;
     o_ehess := fun _ _ eta => gemm0 (- 2%:R) B^T (gemm0 1 B eta) |}.
(** StieSPCA 25-27: L from the first singular value. *)
Definition spca_L (s0 : R) : R := s0 * s0 * 2%:R.

(** SFRQLyapunov.cpp 22-64.  The products with the sparse matrices are ordinary products
    (SparseModel.v models them). *)
Definition lyapunov n p c (A M : 'M[R]_n) (C : 'M[R]_(n, c)) :
    objective R 'M[R]_(n, p) ('M[R]_(n, p) * 'M[R]_(n, p) * 'M[R]_(c, p) * 'M[R]_p * 'M[R]_p) :=
  {| o_f := fun x =>
       let AY := A *m x in
       let MY := M *m x in
       let CTY := gemm0 1 C^T x in
       let YTAY := gemm0 1 x^T AY in
       let YTMY := gemm0 1 x^T MY in
       (dot YTAY YTMY - dot CTY CTY, (AY, MY, CTY, YTAY, YTMY));
     o_egrad := fun _ fl => let: (AY, MY, CTY, YTAY, YTMY) := fl in
       let r := gemm0 2%:R AY YTMY in
       let r := gemm (- 2%:R) C CTY 1 r in
       gemm 2%:R MY YTAY 1 r;
     o_ehess := fun x fl eta => let: (AY, MY, CTY, YTAY, YTMY) := fl in
       let Meta := M *m eta in
       let YTMeta := gemm0 1 x^T Meta in
       let Aeta := A *m eta in
       let YTAeta := gemm0 1 x^T Aeta in
       let r := gemm0 2%:R Aeta YTMY in
       let r := gemm 2%:R Meta YTAY 1 r in
       let r := gemm 2%:R AY YTMeta^T 1 r in
       let r := gemm 2%:R MY YTAeta^T 1 r in
       let r := gemm 2%:R AY YTMeta 1 r in
       let r := gemm 2%:R MY YTAeta 1 r in
       let tmp := gemm0 1 C^T eta in
       gemm (- 2%:R) C tmp 1 r |}.

(** FRankQ2FMatCompletion.cpp 24-95.  Entry t of the sample is at (ir t, jc t); an index outside the
    matrix cannot be expressed here.  SparseMatrix(m, n, ir, jc, vals, nz) adds the values given for
    the same place. *)
Section completion.
Variables (m n r nz : nat) (ir : 'I_nz -> 'I_m) (jc : 'I_nz -> 'I_n) (vals : 'rV[R]_nz).
Definition project_omega (G : 'M[R]_(m, r)) (H : 'M[R]_(n, r)) : 'rV[R]_nz :=
  \row_t \sum_j G (ir t) j * H (jc t) j.
Definition sparse_of (v : 'rV[R]_nz) : 'M[R]_(m, n) :=
  \matrix_(i, j) \sum_(t | (ir t == i) && (jc t == j)) v 0 t.
Definition mat_completion : objective R ('M[R]_(m, r) * 'M[R]_(n, r)) 'rV[R]_nz :=
  {| o_f := fun x => let PGHTmA := (-1) *: vals + project_omega x.1 x.2 in (half R * dot PGHTmA PGHTmA, PGHTmA);
     o_egrad := fun x PGHTmA =>
       let SM := sparse_of PGHTmA in
       (SM *m x.2, (x.1^T *m SM)^T);
     o_ehess := fun x PGHTmA eta =>
       let SM1 := sparse_of PGHTmA in
       let tmp1 := project_omega eta.1 x.2 in
       let tmp2 := 1 *: tmp1 + project_omega x.1 eta.2 in
       let SM2 := sparse_of tmp2 in
       (SM2 *m x.2 + SM1 *m eta.2, (x.1^T *m SM2 + eta.1^T *m SM1)^T) |}.
End completion.

(** SphereConvexHull.cpp 22-93.  W i is the i-th vector; Hv is the operator the solver hands over, or
    none. *)
Section hull.
Variables (d l : nat) (W : 'I_l -> 'cV[R]_d) (Hv : option ('cV[R]_d -> 'cV[R]_d)).
Definition apply_Hv (v : 'cV[R]_d) : 'cV[R]_d := if Hv is Some h then h v else v.
Definition hadamard (x y : 'cV[R]_l) : 'cV[R]_l := \col_i (x i 0 * y i 0).
Definition combine (c : 'cV[R]_l) : 'cV[R]_d := foldl (fun acc i => c i 0 *: W i + acc) 0 (enum 'I_l).
Definition convex_hull : objective R 'cV[R]_l ('cV[R]_d * 'cV[R]_d) :=
  {| o_f := fun x =>
       let xsq := hadamard x x in
       let Wxsq := combine xsq in
       let PWxsq := apply_Hv Wxsq in
       (dot Wxsq PWxsq, (Wxsq, PWxsq));
     o_egrad := fun x fl => \col_i (4%:R * x i 0 * dot (W i) fl.2);
     o_ehess := fun x fl eta =>
       let res := \col_i (4%:R * eta i 0 * dot (W i) fl.2) in
       let xeta := hadamard x eta in
       let PWxeta := apply_Hv (combine xeta) in
       \col_i (res i 0 + 8%:R * x i 0 * dot (W i) PWxeta) |}.
End hull.

(** SphereSparsestVector.cpp 20-50. *)
Definition sparsest m n (Q : 'M[R]_(m, n)) : objective R 'cV[R]_n 'cV[R]_m :=
  {| o_f := fun x =>
       let Qx := gemm0 1 Q x in
       (\sum_i (if Qx i 0 < 0 then - Qx i 0 else Qx i 0), \col_i (if Qx i 0 < 0 then -1 else 1));
     o_egrad := fun _ signQx => gemm0 1 Q^T signQx;
     o_ehess := fun _ _ eta => eta |}.

(** SphereTxRQ.cpp 72-102.  V is the tangent space at the root, [metric] its inner product and
    [Hess] the Riemannian Hessian of the other problem at the root. *)
Definition tx_rq (V : lmodType R) (metric : V -> V -> R) (Hess : V -> V) (ismin : bool) : objective R V V :=
  {| o_f := fun x => let Hx := Hess x in
       let res := metric Hx x in (if ismin then res else - res, Hx);
     o_egrad := fun _ Hx => if ismin then 2%:R *: Hx else (- 2%:R) *: Hx;
     o_ehess := fun _ _ eta => let res := Hess eta in if ismin then 2%:R *: res else (- 2%:R) *: res |}.
End model.
