(** Properties of the trust-region subproblem solver of LRTRSR1. *)
From mathcomp Require Import all_ssreflect all_algebra.
From Verif Require Import StiefelSpec SPDSpec LSR1SubModel LSR1SubSpec LSR1SubCond LSR1SubFinal LSR1SubWitness LSR1SubExamples LSR1SubRefuted.
Import GRing.Theory Num.Theory.
Set Implicit Arguments.
Unset Strict Implicit.
Local Open Scope ring_scope.

(** C111: a step reported as the unconstrained minimum is the global minimizer of the model and lies in
    the region; and when the minimizer lies in the region it is found. *)
Theorem C111_interior_partial (R : rcfType) (k q : nat) (QR : 'M[R]_(k + q, k) -> 'M[R]_(k + q, k) * 'M[R]_k)
  (EIG : 'M[R]_k -> 'M[R]_k * 'rV[R]_k) (QRk : 'M[R]_k -> 'M[R]_k * 'M[R]_k) (tolN tolE meps : R) (late : bool)
  (Psi : 'M[R]_(k + q, k)) (M : 'M[R]_k) (g eta : 'cV[R]_(k + q)) (gamma Delta : R) :
  let B := compact gamma Psi M in
  qr_at QR Psi -> eig_at EIG (Wm QR Psi M) -> tolerances tolN tolE meps -> 0 < Delta ->
  M \in unitmx -> solvable QR Psi M QRk meps gamma ->
  subproblem QR EIG QRk tolN tolE meps late Psi M g gamma Delta = Step eta Minimum ->
  [/\ B *m eta = - g, positive B, (forall v, quad B g eta <= quad B g v),
      ipr eta eta <= Delta ^+ 2 + tolN / gamma ^+ 2 &
      rest_legible QR EIG tolN Psi M g -> ipr eta eta <= Delta ^+ 2].
Proof. exact (fun h1 h2 h3 h4 h5 => @interior_final R k q QR EIG QRk tolN tolE meps late Psi M g gamma Delta h1 h2 h3 h4 eta h5). Qed.
Print Assumptions C111_interior_partial.
Theorem C111_found_partial (R : rcfType) (k q : nat) (QR : 'M[R]_(k + q, k) -> 'M[R]_(k + q, k) * 'M[R]_k)
  (EIG : 'M[R]_k -> 'M[R]_k * 'rV[R]_k) (QRk : 'M[R]_k -> 'M[R]_k * 'M[R]_k) (tolN tolE meps : R) (late : bool)
  (Psi : 'M[R]_(k + q, k)) (M : 'M[R]_k) (g v : 'cV[R]_(k + q)) (gamma Delta : R) :
  let B := compact gamma Psi M in
  qr_at QR Psi -> eig_at EIG (Wm QR Psi M) -> tolerances tolN tolE meps -> 0 < Delta ->
  M \in unitmx -> solvable QR Psi M QRk meps gamma -> spectrum_legible QR EIG tolN Psi M gamma -> 0 < gamma ->
  positive B -> B *m v = - g -> ipr v v <= Delta ^+ 2 ->
  subproblem QR EIG QRk tolN tolE meps late Psi M g gamma Delta = Step v Minimum.
Proof. exact (fun h1 h2 h3 h4 => @interior_found R k q QR EIG QRk tolN tolE meps late Psi M g gamma Delta h1 h2 h3 h4 v). Qed.
Print Assumptions C111_found_partial.
(** A gradient outside the span of the pairs with squared length below the tolerance is overlooked. *)
Theorem C111_region_refuted (R : rcfType) (tolN tolE meps : R) (late : bool) : tolerances tolN tolE meps ->
  exists (Psi : 'M[R]_(1 + 1, 1)) M g gamma Delta eta,
  returns tolN tolE meps late Psi M g gamma Delta (Step eta Minimum) /\ Delta ^+ 2 < ipr eta eta.
Proof. exact (@truncated_refuted R tolN tolE meps late). Qed.
Print Assumptions C111_region_refuted.
(** Pairs of very different lengths make the rank test fail although the matrix is 2 I. *)
Theorem C111_rank_refuted (R : rcfType) (tolN tolE meps : R) (late : bool) : tolerances tolN tolE meps -> 0 < meps ->
  exists (Psi : 'M[R]_(2 + 0, 2)) M g gamma Delta eta v,
  returns tolN tolE meps late Psi M g gamma Delta (Step eta Minimum) /\
  [/\ compact gamma Psi M = 2%:R%:M, Delta ^+ 2 < ipr eta eta, ipr v v <= Delta ^+ 2 &
      quad (compact gamma Psi M) g v < quad (compact gamma Psi M) g eta].
Proof. exact (@deficient_refuted R tolN tolE meps late). Qed.
Print Assumptions C111_rank_refuted.
Example C111_example (R : rcfType) (tolN tolE meps : R) (late : bool) : tolerances tolN tolE meps ->
  exists (Q : 'M[R]_(1 + 1, 1)) (M : 'M[R]_1) g eta,
  [/\ qr_at (@QR1 R) Q, eig_at (@EIG1 R) (Wm (@QR1 R) Q M), M \in unitmx, solvable (@QR1 R) Q M (@QRk1 R) meps 1 &
   [/\ rest_legible (@QR1 R) (@EIG1 R) tolN Q M g, spectrum_legible (@QR1 R) (@EIG1 R) tolN Q M 1, g != 0, ipr eta eta <= 2%:R ^+ 2 &
    subproblem (@QR1 R) (@EIG1 R) (@QRk1 R) tolN tolE meps late Q M g 1 2%:R = Step eta Minimum]].
Proof. exact (@interior_example R tolN tolE meps late). Qed.
Example C111_tolerances (R : rcfType) : tolerances (1000%:R^-1 : R) 1000%:R^-1 1000%:R^-1.
Proof. exact (tolerances_example R). Qed.

(** C112: a step reported as reaching the boundary is optimal among all steps no longer than it; it is
    at least as long as the radius, and the shift comes from Newton's method. *)
Theorem C112_boundary_partial (R : rcfType) (k q : nat) (QR : 'M[R]_(k + q, k) -> 'M[R]_(k + q, k) * 'M[R]_k)
  (EIG : 'M[R]_k -> 'M[R]_k * 'rV[R]_k) (QRk : 'M[R]_k -> 'M[R]_k * 'M[R]_k) (tolN tolE meps : R) (late : bool)
  (Psi : 'M[R]_(k + q, k)) (M : 'M[R]_k) (g eta : 'cV[R]_(k + q)) (gamma Delta : R) :
  let B := compact gamma Psi M in let e := curvature QR EIG Psi M gamma in let c := component QR EIG Psi M g in
  qr_at QR Psi -> eig_at EIG (Wm QR Psi M) -> tolerances tolN tolE meps -> 0 < Delta ->
  M \in unitmx -> (forall s, (forall i, 0 < e i + s) -> solvable QR Psi M QRk meps (gamma + s)) ->
  spectrum_legible QR EIG tolN Psi M gamma -> gradient_legible QR EIG tolN tolE Psi M g ->
  starts_clear QR EIG tolN tolE Psi M g gamma Delta ->
  subproblem QR EIG QRk tolN tolE meps late Psi M g gamma Delta = Step eta Exceeded ->
  exists s, [/\ 0 <= s, (B + s%:M) *m eta = - g, positive (B + s%:M), best_within B g eta (ipr eta eta) &
    [/\ Delta ^+ 2 <= ipr eta eta,
        `|secular e c Delta s| <= meps \/ s = iter 10 (nstep e c Delta) (start QR EIG tolN Psi M g gamma Delta) &
        (forall i, 0 < e i) -> (exists i j, [/\ c i != 0, c j != 0 & e i != e j]) -> Delta ^+ 2 < ipr eta eta]].
Proof. exact (fun h1 h2 h3 h4 => @boundary_final R k q QR EIG QRk tolN tolE meps late Psi M g gamma Delta h1 h2 h3 h4 eta). Qed.
Print Assumptions C112_boundary_partial.
(** The step leaves the region. *)
Theorem C112_region_refuted (R : rcfType) (tolN tolE meps : R) (late : bool) : tolerances tolN tolE meps ->
  exists (Psi : 'M[R]_(1 + 1, 1)) M g gamma Delta eta,
  returns tolN tolE meps late Psi M g gamma Delta (Step eta Exceeded) /\ positive (compact gamma Psi M) /\ Delta ^+ 2 < ipr eta eta.
Proof. exact (@outside_refuted R tolN tolE meps late). Qed.
Print Assumptions C112_region_refuted.
(** A unit gradient pointing away from the lowest eigenvector gives a step longer than the radius by the
    factor 1 / (10 eps_tol), that is 1e9. *)
Theorem C112_pole_refuted (R : rcfType) (tolN tolE meps : R) (late : bool) : tolerances tolN tolE meps ->
  exists (Psi : 'M[R]_(1 + 1, 1)) M g gamma Delta eta,
  returns tolN tolE meps late Psi M g gamma Delta (Step eta Exceeded) /\
  [/\ ipr g g = 1, Delta = 20%:R & ipr eta eta = (Delta / (10%:R * tolE)) ^+ 2].
Proof. exact (@pole_refuted R tolN tolE meps late). Qed.
Print Assumptions C112_pole_refuted.
Example C112_example (R : rcfType) (tolN tolE meps : R) (late : bool) : tolerances tolN tolE meps ->
  exists (Q : 'M[R]_(1 + 1, 1)) (M : 'M[R]_1) g eta,
  [/\ qr_at (@QR1 R) Q, eig_at (@EIG1 R) (Wm (@QR1 R) Q M), M \in unitmx,
   (forall s, (forall i, 0 < curvature (@QR1 R) (@EIG1 R) Q M 1 i + s) -> solvable (@QR1 R) Q M (@QRk1 R) meps (1 + s)) &
   [/\ spectrum_legible (@QR1 R) (@EIG1 R) tolN Q M 1, gradient_legible (@QR1 R) (@EIG1 R) tolN tolE Q M g,
    starts_clear (@QR1 R) (@EIG1 R) tolN tolE Q M g 1 1 &
    subproblem (@QR1 R) (@EIG1 R) (@QRk1 R) tolN tolE meps late Q M g 1 1 = Step eta Exceeded]].
Proof. exact (@boundary_example R tolN tolE meps late). Qed.

(** C113: a step reported as negative curvature solves the problem when the lowest eigenvalue is 0, or
    is negative and belongs to the only pair. *)
Theorem C113_singular_partial (R : rcfType) (k q : nat) (QR : 'M[R]_(k + q, k) -> 'M[R]_(k + q, k) * 'M[R]_k)
  (EIG : 'M[R]_k -> 'M[R]_k * 'rV[R]_k) (QRk : 'M[R]_k -> 'M[R]_k * 'M[R]_k) (tolN tolE meps : R) (late : bool)
  (Psi : 'M[R]_(k + q, k)) (M : 'M[R]_k) (g eta : 'cV[R]_(k + q)) (gamma Delta : R) :
  let B := compact gamma Psi M in
  qr_at QR Psi -> eig_at EIG (Wm QR Psi M) -> tolerances tolN tolE meps -> 0 < Delta ->
  spectrum_legible QR EIG tolN Psi M gamma -> gradient_legible QR EIG tolN tolE Psi M g ->
  (forall i, 0 <= curvature QR EIG Psi M gamma i) ->
  subproblem QR EIG QRk tolN tolE meps late Psi M g gamma Delta = Step eta NegativeCurvature ->
  [/\ B *m eta = - g, nonnegative B, (forall v, quad B g eta <= quad B g v) & ipr eta eta <= Delta ^+ 2].
Proof. exact (fun h1 h2 h3 h4 => @hard_zero_final R k q QR EIG QRk tolN tolE meps late Psi M g gamma Delta h1 h2 h3 h4 eta). Qed.
Print Assumptions C113_singular_partial.
Theorem C113_one_pair_partial (R : rcfType) (q : nat) (QR : 'M[R]_(1 + q, 1) -> 'M[R]_(1 + q, 1) * 'M[R]_1)
  (EIG : 'M[R]_1 -> 'M[R]_1 * 'rV[R]_1) (QRk : 'M[R]_1 -> 'M[R]_1 * 'M[R]_1) (tolN tolE meps : R) (late : bool)
  (Psi : 'M[R]_(1 + q, 1)) (M : 'M[R]_1) (g eta : 'cV[R]_(1 + q)) (gamma Delta : R) :
  let B := compact gamma Psi M in let lowest := curvature QR EIG Psi M gamma ord0 in
  qr_at QR Psi -> eig_at EIG (Wm QR Psi M) -> tolerances tolN tolE meps -> 0 < Delta ->
  spectrum_legible QR EIG tolN Psi M gamma -> gradient_legible QR EIG tolN tolE Psi M g ->
  lowest < 0 -> lowest = gamma \/ lowest + tolN < gamma ->
  subproblem QR EIG QRk tolN tolE meps late Psi M g gamma Delta = Step eta NegativeCurvature ->
  [/\ (B - lowest%:M) *m eta = - g, nonnegative (B - lowest%:M), ipr eta eta = Delta ^+ 2 & best_within B g eta (Delta ^+ 2)].
Proof. exact (@hard_one_final R q QR EIG QRk tolN tolE meps late Psi M g gamma Delta eta). Qed.
Print Assumptions C113_one_pair_partial.
(** When the lowest eigenvalue is gamma the step can raise the model. *)
Theorem C113_increase_refuted (R : rcfType) (tolN tolE meps : R) (late : bool) : tolerances tolN tolE meps ->
  exists (Psi : 'M[R]_(1 + 1, 1)) M g gamma Delta eta,
  returns tolN tolE meps late Psi M g gamma Delta (Step eta NegativeCurvature) /\ 0 < quad (compact gamma Psi M) g eta.
Proof. exact (@wrong_refuted R tolN tolE meps late). Qed.
Print Assumptions C113_increase_refuted.
(** If temporaries live until the end of the full expression, pStar points to storage no longer used. *)
Theorem C113_stale_refuted (R : rcfType) (tolN tolE meps : R) : tolerances tolN tolE meps ->
  exists (Psi : 'M[R]_(1 + 1, 1)) M g gamma Delta, returns tolN tolE meps true Psi M g gamma Delta StalePointer.
Proof. exact (fun h => @stale_refuted R tolN tolE meps true h erefl). Qed.
Print Assumptions C113_stale_refuted.
(** Otherwise, with two pairs, more entries are written than the step has. *)
Theorem C113_bounds_refuted (R : rcfType) (tolN tolE meps : R) : tolerances tolN tolE meps ->
  exists (Psi : 'M[R]_(2 + 0, 2)) M g gamma Delta, returns tolN tolE meps false Psi M g gamma Delta OutOfBounds.
Proof. exact (fun h => @bounds_refuted R tolN tolE meps false h erefl). Qed.
Print Assumptions C113_bounds_refuted.
Example C113_example_singular (R : rcfType) (tolN tolE meps : R) (late : bool) : tolerances tolN tolE meps ->
  exists (Q : 'M[R]_(1 + 1, 1)) (M : 'M[R]_1) g eta,
  [/\ qr_at (@QR1 R) Q, eig_at (@EIG1 R) (Wm (@QR1 R) Q M), spectrum_legible (@QR1 R) (@EIG1 R) tolN Q M 1,
   gradient_legible (@QR1 R) (@EIG1 R) tolN tolE Q M g &
   (forall i, 0 <= curvature (@QR1 R) (@EIG1 R) Q M 1 i) /\
   subproblem (@QR1 R) (@EIG1 R) (@QRk1 R) tolN tolE meps late Q M g 1 2%:R = Step eta NegativeCurvature].
Proof. exact (@zero_example R tolN tolE meps late). Qed.
Example C113_example_one_pair (R : rcfType) (tolN tolE meps : R) : tolerances tolN tolE meps ->
  exists (Q : 'M[R]_(1 + 1, 1)) (M : 'M[R]_1) g eta,
  [/\ qr_at (@QR1 R) Q, eig_at (@EIG1 R) (Wm (@QR1 R) Q M), spectrum_legible (@QR1 R) (@EIG1 R) tolN Q M 1,
   gradient_legible (@QR1 R) (@EIG1 R) tolN tolE Q M g &
   [/\ curvature (@QR1 R) (@EIG1 R) Q M 1 ord0 < 0, curvature (@QR1 R) (@EIG1 R) Q M 1 ord0 + tolN < 1 &
   subproblem (@QR1 R) (@EIG1 R) (@QRk1 R) tolN tolE meps false Q M g 1 1 = Step eta NegativeCurvature]].
Proof. exact (fun h => @hard_example R tolN tolE meps false h erefl). Qed.

(** C114: right of the poles the function and slope evaluated are the secular function and a slope of a
    line above it, and Newton's iterates approach its root from the left. *)
Theorem C114_secular (R : rcfType) (k q : nat) (QR : 'M[R]_(k + q, k) -> 'M[R]_(k + q, k) * 'M[R]_k)
  (EIG : 'M[R]_k -> 'M[R]_k * 'rV[R]_k) (tolN tolE meps : R) (Psi : 'M[R]_(k + q, k)) (M : 'M[R]_k) (g : 'cV[R]_(k + q)) (gamma Delta : R) :
  let e := curvature QR EIG Psi M gamma in let c := component QR EIG Psi M g in
  qr_at QR Psi -> eig_at EIG (Wm QR Psi M) -> tolerances tolN tolE meps ->
  spectrum_legible QR EIG tolN Psi M gamma -> gradient_legible QR EIG tolN tolE Psi M g ->
  forall x, (forall i, tolE < e i + x) ->
  phi QR EIG tolN tolE Psi M g gamma Delta x = (if plen e c x == 0 then None else Some (secular e c Delta x, slope e c x)) /\
  forall y, (forall i, 0 < e i + y) -> plen e c x != 0 -> secular e c Delta y <= secular e c Delta x + (y - x) * slope e c x.
Proof. exact (fun h1 h2 h3 => @phi_final R k q QR EIG tolN tolE meps Psi M g gamma Delta h1 h2 h3). Qed.
Print Assumptions C114_secular.
Theorem C114_newton (R : rcfType) (k q : nat) (QR : 'M[R]_(k + q, k) -> 'M[R]_(k + q, k) * 'M[R]_k)
  (EIG : 'M[R]_k -> 'M[R]_k * 'rV[R]_k) (tolN tolE meps : R) (Psi : 'M[R]_(k + q, k)) (M : 'M[R]_k) (g : 'cV[R]_(k + q)) (gamma Delta : R) :
  let e := curvature QR EIG Psi M gamma in let c := component QR EIG Psi M g in
  qr_at QR Psi -> eig_at EIG (Wm QR Psi M) -> tolerances tolN tolE meps -> 0 < Delta ->
  spectrum_legible QR EIG tolN Psi M gamma -> gradient_legible QR EIG tolN tolE Psi M g ->
  forall j x, (forall i, tolE < e i + x) -> Delta <= plen e c x ->
  exists s, [/\ newton QR EIG tolN tolE meps Psi M g gamma Delta j x = Some s, x <= s, Delta <= plen e c s,
    `|secular e c Delta s| <= meps \/ s = iter j (nstep e c Delta) x &
    forall y, (forall i, 0 < e i + y) -> plen e c y < Delta -> s < y].
Proof. exact (fun h1 h2 h3 h4 => @newton_final R k q QR EIG tolN tolE meps Psi M g gamma Delta h1 h2 h3 h4). Qed.
Print Assumptions C114_newton.
Example C114_example (R : rcfType) (tolN tolE meps : R) (late : bool) : tolerances tolN tolE meps ->
  exists (Q : 'M[R]_(1 + 1, 1)) (M : 'M[R]_1) g eta,
  [/\ qr_at (@QR1 R) Q, eig_at (@EIG1 R) (Wm (@QR1 R) Q M), M \in unitmx,
   (forall s, (forall i, 0 < curvature (@QR1 R) (@EIG1 R) Q M 1 i + s) -> solvable (@QR1 R) Q M (@QRk1 R) meps (1 + s)) &
   [/\ spectrum_legible (@QR1 R) (@EIG1 R) tolN Q M 1, gradient_legible (@QR1 R) (@EIG1 R) tolN tolE Q M g,
    starts_clear (@QR1 R) (@EIG1 R) tolN tolE Q M g 1 1 &
    subproblem (@QR1 R) (@EIG1 R) (@QRk1 R) tolN tolE meps late Q M g 1 1 = Step eta Exceeded]].
Proof. exact (@boundary_example R tolN tolE meps late). Qed.
