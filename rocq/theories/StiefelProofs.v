(** Proofs about the Stiefel manifold's projections, gradients and Hessians. *)
From mathcomp Require Import all_ssreflect all_algebra.
Require Import Ring Field.
From Verif Require Import MxTac StiefelModel StiefelSpec.
Import GRing.Theory Num.Theory.
Set Implicit Arguments.
Unset Strict Implicit.
Local Open Scope ring_scope.

Section basics.
Variable R : rcfType.
Add Field basics_field : (rcf_field R).

Lemma half_neq0 : half R != 0.
Proof. by rewrite /half invr_eq0 pnatr_eq0. Qed.
Lemma half2' : half R * 2%:R = 1.
Proof. by rewrite /half mulVf // pnatr_eq0. Qed.
Lemma half2 : half R + half R = 1.
Proof. by rewrite -half2' mulrDr mulr1. Qed.

Section mn.
Variables m n : nat.
Implicit Types A B C : 'M[R]_(m, n).
Lemma dotE A B : dot A B = inner A B.
Proof.
rewrite /dot /inner /mxtrace exchange_big /=; apply: eq_bigr => j _.
by rewrite mxE; apply: eq_bigr => i _; rewrite mxE.
Qed.
Lemma innerC A B : inner A B = inner B A.
Proof. by rewrite /inner -mxtrace_tr trmx_mul trmxK. Qed.
Lemma innerDl A B C : inner (A + B) C = inner A C + inner B C.
Proof. by rewrite /inner linearD /= mulmxDl mxtraceD. Qed.
Lemma innerDr A B C : inner A (B + C) = inner A B + inner A C.
Proof. by rewrite innerC innerDl !(innerC A). Qed.
Lemma innerNl A B : inner (- A) B = - inner A B.
Proof. by rewrite /inner linearN /= mulNmx linearN. Qed.
Lemma innerNr A B : inner A (- B) = - inner A B.
Proof. by rewrite innerC innerNl innerC. Qed.
Lemma innerBl A B C : inner (A - B) C = inner A C - inner B C.
Proof. by rewrite innerDl innerNl. Qed.
Lemma innerBr A B C : inner A (B - C) = inner A B - inner A C.
Proof. by rewrite innerDr innerNr. Qed.
Lemma innerZl a A B : inner (a *: A) B = a * inner A B.
Proof. by rewrite /inner linearZ /= -scalemxAl linearZ. Qed.
Lemma innerZr a A B : inner A (a *: B) = a * inner A B.
Proof. by rewrite innerC innerZl innerC. Qed.
Lemma inner0l A : inner 0 A = 0.
Proof. by rewrite /inner trmx0 mul0mx mxtrace0. Qed.
Lemma inner0r A : inner A 0 = 0.
Proof. by rewrite innerC inner0l. Qed.
Lemma inner_ge0 A : 0 <= inner A A.
Proof. by rewrite -dotE /dot; apply: sumr_ge0 => i _; apply: sumr_ge0 => j _; rewrite -expr2 sqr_ge0. Qed.
Lemma inner_eq0 A : inner A A = 0 -> A = 0.
Proof.
rewrite -dotE /dot => H; apply/matrixP => i j; rewrite mxE.
have H1 : \sum_j A i j * A i j = 0.
  apply/eqP; move: H => /eqP; rewrite psumr_eq0; last by move=> a _; apply: sumr_ge0 => b _; rewrite -expr2 sqr_ge0.
  by move=> /allP /(_ i (mem_index_enum i)).
move: H1 => /eqP; rewrite psumr_eq0; last by move=> b _; rewrite -expr2 sqr_ge0.
by move=> /allP /(_ j (mem_index_enum j)) /=; rewrite mulf_eq0 orbb => /eqP.
Qed.
End mn.
Lemma inner_tr m n (A B : 'M[R]_(m, n)) : inner A^T B^T = inner A B.
Proof. by rewrite /inner trmxK mxtrace_mulC -mxtrace_tr trmx_mul trmxK. Qed.
Lemma inner_mull m n q (A : 'M[R]_(m, n)) (B : 'M[R]_(n, q)) (C : 'M[R]_(m, q)) :
  inner (A *m B) C = inner B (A^T *m C).
Proof. by rewrite /inner trmx_mul mulmxA. Qed.
Lemma inner_mulr m n q (A : 'M[R]_(m, n)) (B : 'M[R]_(n, q)) (C : 'M[R]_(m, q)) :
  inner (A *m B) C = inner A (C *m B^T).
Proof. by rewrite -inner_tr trmx_mul inner_mull trmxK -inner_tr trmx_mul !trmxK. Qed.

(** Symmetric and skew matrices are orthogonal. *)
Lemma inner_sym_skew n (S W : 'M[R]_n) : symmetric S -> skew W -> inner S W = 0.
Proof.
move=> HS HW; have H : inner S W = - inner S W by rewrite -{1}inner_tr HS HW innerNr.
have : inner S W *+ 2 = 0 by rewrite mulr2n {1}H addNr.
by move/eqP; rewrite mulrn_eq0 /= => /eqP.
Qed.
Lemma symC n (A : 'M[R]_n) : symmetric (A + A^T).
Proof. by rewrite /symmetric linearD /= trmxK addrC. Qed.
Lemma symmetricZ n a (A : 'M[R]_n) : symmetric A -> symmetric (a *: A).
Proof. by rewrite /symmetric linearZ /= => ->. Qed.
Lemma ortho_r m n q (x : 'M[R]_(m, n)) (A : 'M[R]_(q, n)) : orthonormal x -> A *m x^T *m x = A.
Proof. by move=> H; rewrite -mulmxA H mulmx1. Qed.
End basics.

Section projections.
Variable R : rcfType.
Add Field projections_field : (rcf_field R).
Variables p k : nat.
Local Notation ext := 'M[R]_(p + k, p).
Implicit Types x y v w eta xi : ext.

Lemma projE x eta : extr_projection x eta = eta - x *m (half R *: (x^T *m eta + eta^T *m x)).
Proof. by rewrite /extr_projection /gemm /gemm0 !scale1r scaleN1r addrC trmx_mul trmxK. Qed.

Lemma proj_tangent x eta : orthonormal x -> tangent x (extr_projection x eta).
Proof.
move=> Hx; rewrite /tangent /skew projE; mxz; rewrite ?Hx ?(ortho_r _ Hx); mxz; mxlin R; rewrite /half; fld R.
Qed.
(** Tangent vectors are not changed. *)
Lemma proj_id x v : tangent x v -> extr_projection x v = v.
Proof.
rewrite /tangent /skew projE => H; have -> : v^T *m x = - (x^T *m v) by rewrite -H trmx_mul trmxK.
by rewrite subrr scaler0 mulmx0 subr0.
Qed.
(** What is removed is orthogonal to every tangent vector. *)
Lemma proj_orth x eta v : tangent x v -> inner (eta - extr_projection x eta) v = 0.
Proof.
move=> Hv; rewrite projE opprB addrC subrK inner_mull; apply: inner_sym_skew => //.
by apply: symmetricZ; rewrite /symmetric; mxz; mxlin R; rng R.
Qed.
Lemma proj_inner x eta v : tangent x v -> inner (extr_projection x eta) v = inner eta v.
Proof. by move=> Hv; rewrite -[in RHS](subrK (extr_projection x eta) eta) innerDl proj_orth // add0r. Qed.
Lemma proj_idem x eta : orthonormal x ->
  extr_projection x (extr_projection x eta) = extr_projection x eta.
Proof. by move=> Hx; apply/proj_id/proj_tangent. Qed.
Lemma proj_self x eta xi : orthonormal x ->
  inner (extr_projection x eta) xi = inner eta (extr_projection x xi).
Proof.
move=> Hx; rewrite -[in RHS](proj_inner _ (proj_tangent xi Hx)) innerC.
by rewrite [in RHS]innerC proj_inner //; apply: proj_tangent.
Qed.
Lemma inner_pyth (A B : ext) : inner A B = 0 -> inner A A <= inner (A + B) (A + B).
Proof. by move=> H; rewrite !innerDl !innerDr (innerC B A) H addr0 add0r ler_addl inner_ge0. Qed.
(** The nearest tangent vector. *)
Lemma proj_nearest x eta v : orthonormal x -> tangent x v ->
  inner (eta - extr_projection x eta) (eta - extr_projection x eta) <= inner (eta - v) (eta - v).
Proof.
move=> Hx Hv; set P := extr_projection x eta.
have HP : tangent x (P - v).
  rewrite /tangent /skew mulmxBr linearB /= (proj_tangent eta Hx : (x^T *m P)^T = _) Hv.
  by rewrite opprB opprK addrC.
have -> : eta - v = (eta - P) + (P - v) by rewrite addrA subrK.
by apply: inner_pyth; apply: proj_orth.
Qed.

(** ** Gradients *)
Lemma metric_eucE eta xi : metric_euclidean eta xi = inner eta xi.
Proof. exact: dotE. Qed.
Lemma metric_canE x eta xi :
  metric_canonical x eta xi = inner eta xi - half R * inner (eta^T *m x) (xi^T *m x).
Proof. by rewrite /metric_canonical !dotE /gemm0 !scale1r. Qed.
Lemma gradcE x g : grad_canonical x g = g - x *m (g^T *m x).
Proof. by rewrite /grad_canonical /gemm /gemm0 !scale1r scaleN1r addrC. Qed.

Lemma grad_euc_ok x g v : orthonormal x -> tangent x v ->
  tangent x (grad_euclidean x g) /\ metric_euclidean (grad_euclidean x g) v = inner g v.
Proof. by move=> Hx Hv; split; [apply: proj_tangent | rewrite metric_eucE; apply: proj_inner]. Qed.
Lemma grad_can_ok x g v : orthonormal x -> tangent x v ->
  tangent x (grad_canonical x g) /\ metric_canonical x (grad_canonical x g) v = inner g v.
Proof.
move=> Hx Hv; rewrite gradcE; split.
  by rewrite /tangent /skew; mxz; rewrite ?Hx ?(ortho_r _ Hx); mxz; mxlin R; rng R.
rewrite metric_canE innerBl.
have HW : v^T *m x = - (x^T *m v) by rewrite -(Hv : (x^T *m v)^T = _) trmx_mul trmxK.
rewrite inner_mull HW; mxz; rewrite (ortho_r _ Hx) innerNr innerDl innerNl.
set W := x^T *m v in HW Hv *; set A := g^T *m x.
have -> : inner (x^T *m g) W = - inner A W.
  by rewrite -inner_tr trmx_mul trmxK (Hv : W^T = _) innerNr.
by rewrite /half; fld R.
Qed.

(** ** Hessians *)
Lemma hess_eucE x eta e G : hess_euclidean x eta e G =
  extr_projection x (e - eta *m (half R *: (x^T *m G + G^T *m x))).
Proof. by rewrite /hess_euclidean /gemm /gemm0 !scale1r scaleN1r [in LHS]addrC trmx_mul trmxK. Qed.
Lemma proj_xS x (S : 'M[R]_p) : orthonormal x -> symmetric S -> extr_projection x (x *m S) = 0.
Proof.
move=> Hx HS; rewrite projE trmx_mul HS; mxz; rewrite ?Hx ?(ortho_r _ Hx); mxz; mxlin R.
by rewrite /half; fld R.
Qed.
Lemma projD x a b : extr_projection x (a + b) = extr_projection x a + extr_projection x b.
Proof. by rewrite !projE; mxz; mxlin R; rng R. Qed.
Lemma projN x a : extr_projection x (- a) = - extr_projection x a.
Proof. by rewrite !projE; mxz; mxlin R; rng R. Qed.
Lemma hess_euc_sym x eta xi e f G : orthonormal x -> tangent x eta -> tangent x xi ->
  inner e xi = inner eta f ->
  inner (hess_euclidean x eta e G) xi = inner eta (hess_euclidean x xi f G).
Proof.
move=> Hx He Hi H; rewrite !hess_eucE proj_inner // [in RHS]innerC proj_inner //.
rewrite innerBl [in RHS]innerBl H [inner f eta]innerC; congr (_ - _).
rewrite [LHS]inner_mulr [in RHS]innerC; congr (inner _ _); congr (_ *m _).
by rewrite /symmetric; mxz; mxlin R; rng R.
Qed.
(** The Hessian is the projected derivative of the gradient. *)
Lemma hess_euc_derivative x eta G dG : orthonormal x -> exists D E F,
  (forall t : R, grad_euclidean (x + t *: eta) (G + t *: dG) =
     grad_euclidean x G + t *: D + t ^+ 2 *: E + t ^+ 3 *: F) /\
  extr_projection x D = hess_euclidean x eta dG G.
Proof.
move=> Hx; rewrite /grad_euclidean.
pose S0 := half R *: (x^T *m G + G^T *m x).
pose S1 := half R *: (eta^T *m G + x^T *m dG + dG^T *m x + G^T *m eta).
pose S2 := half R *: (eta^T *m dG + dG^T *m eta).
exists (dG - eta *m S0 - x *m S1), (- (eta *m S1) - x *m S2), (- (eta *m S2)); split.
  move=> t; rewrite !projE -/S0.
  have -> : half R *: ((x + t *: eta)^T *m (G + t *: dG) + (G + t *: dG)^T *m (x + t *: eta)) =
            S0 + t *: S1 + t ^+ 2 *: S2.
    rewrite /S0 /S1 /S2. mxz. rewrite ?scalerA. mxlin R. rewrite exprS expr1. rng R.
  move: S0 S1 S2 => S0 S1 S2. mxz. rewrite ?scalerA. mxlin R. rewrite !exprS expr0. rng R.
rewrite hess_eucE -/S0 [in LHS]projD [X in _ + X = _]projN proj_xS ?subr0 //.
by apply: symmetricZ; rewrite /symmetric; mxz; mxlin R; rng R.
Qed.

(** ** Grassmann *)
Lemma grE x eta : gr_projection x eta = eta - x *m (x^T *m eta).
Proof. by rewrite /gr_projection /gemm /gemm0 !scale1r scaleN1r addrC. Qed.
Lemma gr_horizontal x eta : orthonormal x -> horizontal x (gr_projection x eta).
Proof. by move=> Hx; rewrite /horizontal grE; mxz; rewrite Hx mul1mx subrr. Qed.
Lemma gr_id x v : horizontal x v -> gr_projection x v = v.
Proof. by rewrite /horizontal grE => ->; rewrite mulmx0 subr0. Qed.
Lemma gr_orth x eta v : horizontal x v -> inner (eta - gr_projection x eta) v = 0.
Proof. by move=> Hv; rewrite grE opprB addrC subrK inner_mull Hv inner0r. Qed.
Lemma gr_inner x eta v : horizontal x v -> inner (gr_projection x eta) v = inner eta v.
Proof. by move=> Hv; rewrite -[in RHS](subrK (gr_projection x eta) eta) innerDl gr_orth // add0r. Qed.
Lemma gr_idem x eta : orthonormal x -> gr_projection x (gr_projection x eta) = gr_projection x eta.
Proof. by move=> Hx; apply/gr_id/gr_horizontal. Qed.
Lemma gr_self x eta xi : orthonormal x ->
  inner (gr_projection x eta) xi = inner eta (gr_projection x xi).
Proof.
move=> Hx; rewrite -[in RHS](gr_inner _ (gr_horizontal xi Hx)) innerC.
by rewrite [in RHS]innerC gr_inner //; apply: gr_horizontal.
Qed.
Lemma gr_hessE x eta e G : gr_hess x eta e G = gr_projection x (e - eta *m (x^T *m G)).
Proof. by rewrite /gr_hess /gemm /gemm0 !scale1r scaleN1r [in LHS]addrC. Qed.
(** Symmetric, when x^T G is symmetric: the gradient of a function of the subspace. *)
Lemma gr_hess_sym x eta xi e f G : orthonormal x -> horizontal x eta -> horizontal x xi ->
  symmetric (x^T *m G) -> inner e xi = inner eta f ->
  inner (gr_hess x eta e G) xi = inner eta (gr_hess x xi f G).
Proof.
move=> Hx He Hi HG H; rewrite !gr_hessE gr_inner // [in RHS]innerC gr_inner //.
rewrite innerBl [in RHS]innerBl H [inner f eta]innerC; congr (_ - _).
by rewrite [LHS]inner_mulr [in RHS]innerC HG.
Qed.
Lemma gr_hess_derivative x eta G dG : orthonormal x -> exists D E F,
  (forall t : R, gr_projection (x + t *: eta) (G + t *: dG) =
     gr_projection x G + t *: D + t ^+ 2 *: E + t ^+ 3 *: F) /\
  gr_projection x D = gr_hess x eta dG G.
Proof.
move=> Hx.
pose S1 := eta^T *m G + x^T *m dG.
exists (dG - eta *m (x^T *m G) - x *m S1), (- (eta *m S1) - x *m (eta^T *m dG)), (- (eta *m (eta^T *m dG))); split.
  move=> t; rewrite !grE /S1; mxz; rewrite ?scalerA; mxlin R; rewrite !exprS expr0; rng R.
rewrite gr_hessE !grE; mxz; rewrite ?Hx ?(ortho_r _ Hx); mxz; mxlin R; rng R.
Qed.
End projections.
