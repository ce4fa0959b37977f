(** Theorems about the proximal mapping on a tangent space. *)
From Coq Require Import List Arith Reals QArith Bool.
Import ListNotations.
From Verif Require Import Arith MatOpsModel TangentModel TangentSpec SSNModel SSNSpec SSNProofs SSNMain SSNFacts.
Local Close Scope Q_scope.
Local Open Scope R_scope.

(** C118.  A run that is not broken off returns a tangent vector: the projection of the vector e that
    minimises <g, v> + |v|_W^2 / 2 + h(x + v) among all vectors with the same normal part, with the
    returned multiplier as certificate; the normal part is below the tolerance if the limit of
    iterations is not reached. *)
Theorem C118_step_optimal_partial : forall (big eps : R) (N E proj P : list R -> list R) (jac : list R -> list R -> list R)
    (m : nat) (x g W : list R) (SMtol SMlambda : R),
  let A := R_arith big eps in
  normal_space (length x) m N E proj -> good_weights W (length x) -> length g = length x ->
  forall h, is_prox (length x) W h P ->
  (forall b w, length b = length x -> length w = length x -> length (jac b w) = length x) ->
  forall (z : list R) o, length z = m ->
  proximal_map (A := A) N E proj P jac x g W SMtol SMlambda m z = Some o -> oearly o = false ->
  exists e : list R, length e = length x /\ ostep o = comb (-1) (E (N e)) e /\ N (ostep o) = zero m /\
    (forall v, length v = length x ->
      objective g W h x e - inner (N e) (omult o) <= objective g W h x v - inner (N v) (omult o)) /\
    (convex (length x) h -> forall v, length v = length x -> v <> e -> N v = N e -> objective g W h x e < objective g W h x v) /\
    ((oiter o < 100)%nat -> inner (N e) (N e) <= SMtol).
Proof. exact optimal. Qed.
Print Assumptions C118_step_optimal_partial.
(** With tolerance zero the step is the minimiser over the tangent space, and a direction of descent. *)
Theorem C118_exact_solution_partial : forall (big eps : R) (N E proj P : list R -> list R) (jac : list R -> list R -> list R)
    (m : nat) (x g W : list R) (SMtol SMlambda : R),
  let A := R_arith big eps in
  normal_space (length x) m N E proj -> good_weights W (length x) -> length g = length x ->
  forall h, is_prox (length x) W h P ->
  (forall b w, length b = length x -> length w = length x -> length (jac b w) = length x) ->
  forall (z : list R) o, length z = m ->
  proximal_map (A := A) N E proj P jac x g W SMtol SMlambda m z = Some o -> oearly o = false ->
  SMtol <= 0 -> (oiter o < 100)%nat ->
  length (ostep o : list R) = length x /\ N (ostep o) = zero m /\
  (forall v, length v = length x -> N v = zero m -> objective g W h x (ostep o) <= objective g W h x v) /\
  (convex (length x) h ->
    (forall v, length v = length x -> N v = zero m -> v <> ostep o -> objective g W h x (ostep o) < objective g W h x v) /\
    inner g (ostep o) + h (comb 1 (ostep o) x) <= h x - wsq W (ostep o)).
Proof. exact exact_solution. Qed.
Print Assumptions C118_exact_solution_partial.
(** The distance to a solution s with multiplier zs: the step is within the tolerance of a vector whose
    weighted distance to s is bounded by the tolerance and the distance of the multipliers. *)
Theorem C118_distance_partial : forall (big eps : R) (N E proj P : list R -> list R) (jac : list R -> list R -> list R)
    (m : nat) (x g W : list R) (SMtol SMlambda : R),
  let A := R_arith big eps in
  normal_space (length x) m N E proj -> good_weights W (length x) -> length g = length x ->
  forall h, is_prox (length x) W h P ->
  (forall b w, length b = length x -> length w = length x -> length (jac b w) = length x) ->
  forall (z : list R) o (s zs : list R), convex (length x) h -> length z = m ->
  proximal_map (A := A) N E proj P jac x g W SMtol SMlambda m z = Some o -> oearly o = false -> (oiter o < 100)%nat ->
  length s = length x -> N s = zero m -> length zs = m ->
  (forall v, length v = length x -> objective g W h x s <= objective g W h x v - inner (N v) zs) ->
  exists e : list R, length e = length x /\ inner (comb (-1) (ostep o) e) (comb (-1) (ostep o) e) <= SMtol /\
    wsq W (comb (-1) s e) <= sqrt SMtol * sqrt (inner (comb (-1) zs (omult o)) (comb (-1) zs (omult o))).
Proof. exact distance. Qed.
Print Assumptions C118_distance_partial.
(** The mappings of the problems that come with the library meet the hypotheses. *)
Theorem C118_soft_threshold : forall (big eps lambda : R) (x W : list R), 0 <= lambda -> good_weights W (length x) ->
  let A := R_arith big eps in
  is_prox (length x) W (fun u => lambda * norm1 u) (soft_prox (A := A) lambda W) /\
  convex (length x) (fun u => lambda * norm1 u) /\
  forall b, length b = length x -> diagonal (length x) (soft_jac (A := A) lambda W x b).
Proof.
  exact (fun big eps lambda x W Hl HW => conj (soft_is_prox big eps (length x) lambda W Hl HW)
    (conj (norm1_convex (length x) lambda Hl) (fun b => soft_diagonal big eps lambda W x b HW))).
Qed.
Print Assumptions C118_soft_threshold.
Example C118_example : let x := [3/5; 4/5] in let W := [1] in let A := R_arith 1 1 in
  normal_space (length x) 1 (circle_intr (A := A) x) (circle_extr (A := A) x) (circle_proj (A := A) x) /\
  good_weights W (length x) /\
  is_prox (length x) W (fun u => 1/10 * norm1 u) (soft_prox (A := A) (1/10) W) /\
  convex (length x) (fun u => 1/10 * norm1 u) /\
  proximal_map (A := A) (circle_intr (A := A) x) (circle_extr (A := A) x) (circle_proj (A := A) x)
    (soft_prox (A := A) (1/10) W) (soft_jac (A := A) (1/10) W x) x [2/5; -3/10] W 0 (1/5) 1 [7/50] =
  Some (mkout (A := A) false [7/50] [-(52/125); 39/125] 0 0).
Proof. exact case_example. Qed.
(** A run that is broken off returns the step of the trial that was rejected last.  binary64, the unit
    circle, g tangent, h the 1-norm, weight 1/100, multiplier zero at the start: the objective rises
    from below 2 to above 10, while the step that belongs to the returned multiplier stays below 2. *)
Theorem C118_broken_off_refuted :
  ~ (forall (g : list (F D)) (lambda L SMlambda z0 : Q) o, run g lambda L SMlambda z0 = Some o ->
      ostep o = step_of (A := D) (circle_proj cx) (soft_prox (dl lambda) [dl L]) cx (blambda (circle_extr cx) cx g [dl L] (omult o))) /\
  exists o, run g1 1 (1#100) (1#50) 0 = Some o /\ oearly o = true /\
    flt (value g1 1 (1#100) [dl 0; dl 0]) (dl 2) = true /\ flt (dl 10) (value g1 1 (1#100) (ostep o)) = true /\
    flt (value g1 1 (1#100) (step_of (A := D) (circle_proj cx) (soft_prox (dl 1) [dl (1#100)]) cx (blambda (circle_extr cx) cx g1 [dl (1#100)] (omult o)))) (dl 2) = true.
Proof. exact (conj step_mismatch breaks_off). Qed.
Print Assumptions C118_broken_off_refuted.

(** C119.  In any arithmetic: at most 100 iterations and 30 steps of conjugate gradients in each; the
    mapping answers exactly if there are weights; a run that is not broken off returns the step of the
    returned multiplier, and stops before the limit only with the residual not above the tolerance. *)
Theorem C119_run_partial : forall (A : arith) (N E proj P : list (F A) -> list (F A)) (jac : list (F A) -> list (F A) -> list (F A))
    (x g W : list (F A)) (SMtol SMlambda : F A) (m : nat) (z : list (F A)),
  let result := proximal_map N E proj P jac x g W SMtol SMlambda m z in
  ((exists o, result = Some o) <-> W <> []) /\
  forall o, result = Some o ->
    let residual := ew N P x (blambda E x g W (omult o)) in
    let last := (if oearly o then 1 else 0)%nat in
    (oiter o + last <= 100)%nat /\ (ocg o <= 30 * (oiter o + last))%nat /\
    (oearly o = true -> oiter o <> O) /\
    (oearly o = false -> ostep o = step_of proj P x (blambda E x g W (omult o)) /\
      ((oiter o < 100)%nat -> flt SMtol (fmul (fnorm residual) (fnorm residual)) = false)).
Proof.
  exact (fun A N E proj P jac x g W SMtol SMlambda m z =>
    conj (answers N E proj P jac x g W SMtol SMlambda m z) (loop_outcome N E proj P jac x g W SMtol SMlambda m z)).
Qed.
Print Assumptions C119_run_partial.
(** Exact arithmetic: the residual at the returned multiplier is at most that at the start, or at most
    that at 1/1024 of the first Newton direction away from it. *)
Theorem C119_residual_partial : forall (big eps : R) (N E proj P : list R -> list R) (jac : list R -> list R -> list R)
    (m : nat) (x g W : list R) (SMtol SMlambda : R),
  let A := R_arith big eps in
  forall (z : list R) o, proximal_map (A := A) N E proj P jac x g W SMtol SMlambda m z = Some o ->
  let residual u := inner (ew (A := A) N P x (blambda (A := A) E x g W u)) (ew (A := A) N P x (blambda (A := A) E x g W u)) in
  let direction := fst (newton_dir (A := A) N E jac x W SMlambda m (ssn_init (A := A) N E P x g W m z)) in
  residual (omult o) <= residual z \/ residual (omult o) <= residual (axpy (A := A) (/ 1024) direction z).
Proof. exact residual. Qed.
Print Assumptions C119_residual_partial.
(** A run in binary64 of more than one iteration that converges and lowers the objective. *)
Example C119_example : exists o, run g1 (1#10) 1 (1#5) 0 = Some o /\ oearly o = false /\ (1 < oiter o)%nat /\ (1 < ocg o)%nat /\
  flt (value g1 (1#10) 1 (ostep o)) (value g1 (1#10) 1 [dl 0; dl 0]) = true.
Proof. exact converges. Qed.
(** The first iteration accepts its last trial even if the residual grows, and later ones reject
    their tenth trial even if it more than halves the squared residual. *)
Theorem C119_trials_refuted :
  (exists s, loop_run 1 g1 1 (1#100) (1#50) (125#256) = (false, s) /\
    flt (fmul (dl 100) (sq (res_at g1 1 (1#100) [dl (125#256)]))) (sq (res_at g1 1 (1#100) (sz s))) = true) /\
  (exists s, loop_run 100 g0 2 1 (2#1000) (-17#4) = (true, s) /\
    flt (sq (ew (A := D) (circle_intr cx) (soft_prox (dl 2) [dl 1]) cx (sB s))) (fmul (dl (1#2)) (sq (res_at g0 2 1 (sz s)))) = true).
Proof. exact (conj first_accepted tenth_rejected). Qed.
Print Assumptions C119_trials_refuted.

(** C120.  Exact arithmetic: the matrix of the Newton system, the normal coordinates of
    W^-1 J applied to the normal vector, is symmetric and positive semidefinite. *)
Theorem C120_matrix : forall (big eps : R) (N E proj : list R -> list R) (jac : list R -> list R -> list R) (m : nat) (x W : list R),
  let A := R_arith big eps in
  normal_space (length x) m N E proj -> good_weights W (length x) ->
  forall b : list R, diagonal (length x) (jac b) -> psd_map m (gldw (A := A) N E jac x W b).
Proof. exact gld_psd. Qed.
Print Assumptions C120_matrix.
(** Conjugate gradients reach the tolerance unless they stop at a limit below the dimension, solve the
    system after as many steps as its dimension, and never raise the energy. *)
Theorem C120_conjugate_gradients : forall (big eps : R) (N E proj : list R -> list R) (jac : list R -> list R -> list R)
    (m : nat) (x W B nb init : list R) (mu tau ln : R) (maxiter : nat),
  let A := R_arith big eps in
  normal_space (length x) m N E proj -> good_weights W (length x) -> diagonal (length x) (jac B) ->
  0 < mu -> 0 <= tau -> 0 <= ln -> length nb = m -> length init = m ->
  let Q v := comb mu v (gldw (A := A) N E jac x W B v) in
  let q v := inner v (Q v) / 2 + inner nb v in
  exists (dd : list R) k, cg (A := A) N E jac x W B mu tau ln nb maxiter init = (dd, k) /\ length dd = m /\ (k <= maxiter)%nat /\
    let r := comb 1 nb (Q dd) in
    ((k < maxiter)%nat \/ (m <= maxiter)%nat -> sqrt (inner r r) <= tau * Rmin (ln * sqrt (inner dd dd)) 1) /\
    ((m <= k)%nat -> r = zero m) /\ q dd <= q init /\ ((0 < k)%nat -> q dd < q init).
Proof. exact newton_system. Qed.
Print Assumptions C120_conjugate_gradients.
Example C120_example : let A := R_arith 1 1 in
  normal_space (length [3/5; 4/5]) 1 (circle_intr (A := A) [3/5; 4/5]) (circle_extr (A := A) [3/5; 4/5]) (circle_proj (A := A) [3/5; 4/5]) /\
  good_weights [1] (length [3/5; 4/5]) /\ diagonal (length [3/5; 4/5]) (soft_jac (A := A) (1/10) [1] [3/5; 4/5] [2; 1/20]).
Proof. exact system_example. Qed.
(** The direction of every Newton iteration, for normal spaces of dimension at most 30: the
    regularised system is solved to the tolerance. *)
Theorem C120_newton_direction : forall (big eps : R) (N E proj : list R -> list R) (jac : list R -> list R -> list R)
    (m : nat) (x W : list R) (SMlambda : R),
  let A := R_arith big eps in
  forall s : @ssn A, normal_space (length x) m N E proj -> good_weights W (length x) -> diagonal (length x) (jac (sB s)) ->
  0 < SMlambda -> length (sF s : list R) = m -> length (sd s : list R) = m ->
  let n := sqrt (inner (sF s) (sF s)) in
  let mu := SMlambda * Rmax (1 / 10 ^ 11) (Rmin n (1 / 10)) in
  exists (dd : list R) k, newton_dir (A := A) N E jac x W SMlambda m s = (dd, k) /\ length dd = m /\ (k <= m)%nat /\ (k <= 30)%nat /\
    let r := comb 1 (sF s) (comb mu dd (gldw (A := A) N E jac x W (sB s) dd)) in
    ((k < m)%nat /\ (k < 30)%nat \/ (m <= 30)%nat -> sqrt (inner r r) <= 1 / 10 * Rmin (SMlambda * n * sqrt (inner dd dd)) 1).
Proof. exact newton_direction. Qed.
Print Assumptions C120_newton_direction.
