(** Properties of the nonsmooth solvers. *)
From Coq Require Import QArith Reals List Bool Arith Lra.
From Coq Require Import Floats.SpecFloat.
From Verif Require Import Arith NonsmoothModel NonsmoothSpec NonsmoothProofs NonsmoothSubProofs
  NonsmoothFacts.
Import ListNotations.

(** C43.  ManPG ends after a number of passes that exceeds the number of iterations by a bound
    that depends on the tolerances only: not on the problem, the starting point, the proximal
    map or the stopping test.  Exact arithmetic. *)
Theorem C43_retries_bounded :
  forall big eps (tol lam ratio minstep : R),
  (0 < ratio < 1)%R -> (0 < minstep)%R ->
  exists K L : nat, forall (E : pgenv (R_arith big eps)) (P : pgpar (R_arith big eps))
    stopped x1 x2 ada init fuel,
  pRatio P = ratio -> pMinstep P = minstep ->
  (Nat.max (pMax P) (pMin P) + K < fuel)%nat ->
  (exists s', pg_run (R_arith big eps) E P stopped L fuel x1 x2 ada (tol, lam) init = Some s'
    /\ (giter s' <= Nat.max (pMax P) (pMin P))%nat
    /\ (gtime s' <= giter s' + K + 1)%nat).
Proof. exact exact_manpg. Qed.
Print Assumptions C43_retries_bounded.
Example C43_example : (0 < 1 / 2 < 1)%R /\ (0 < 2 / 100)%R.
Proof. lra. Qed.

(** The same for AManPG. *)
Theorem C43_accelerated_bounded :
  forall big eps (tol lam ratio minstep : R),
  (0 < ratio < 1)%R -> (0 < minstep)%R ->
  exists K L : nat, forall (E : pgenv (R_arith big eps)) (P : pgpar (R_arith big eps))
    stopped x1 x2 ada init inity fz fuel,
  pRatio P = ratio -> pMinstep P = minstep -> pGap P <> 0%nat ->
  (Nat.max (pMax P) (pMin P) + K < fuel)%nat ->
  (exists s', am_run (R_arith big eps) E P stopped L fuel x1 x2 ada (tol, lam) init inity fz = AmEnd s'
    /\ (aiter s' <= Nat.max (pMax P) (pMin P))%nat
    /\ (atime s' <= aiter s' + K + 1)%nat).
Proof. exact exact_amanpg. Qed.
Print Assumptions C43_accelerated_bounded.

(** Binary64 with the default parameters: at most 11 passes more than iterations, at most six
    trial steps in a line search, for every problem. *)
Theorem C43_binary64 :
  forall E maxit minit ada stopped x1 x2 a init fuel,
  (Nat.max maxit minit + 10 < fuel)%nat ->
  exists s', pg_run D E (dflt maxit minit 5 ada) stopped 6 fuel x1 x2 a acc0 init = Some s'
    /\ (giter s' <= Nat.max maxit minit)%nat /\ (gtime s' <= giter s' + 11)%nat.
Proof. exact binary64_manpg. Qed.
Print Assumptions C43_binary64.
Theorem C43_accelerated_binary64 :
  forall E maxit minit ada stopped x1 x2 a init inity fz fuel,
  (Nat.max maxit minit + 10 < fuel)%nat ->
  exists s', am_run D E (dflt maxit minit 5 ada) stopped 6 fuel x1 x2 a acc0 init inity fz = AmEnd s'
    /\ (aiter s' <= Nat.max maxit minit)%nat /\ (atime s' <= aiter s' + 11)%nat.
Proof. exact binary64_amanpg. Qed.
Print Assumptions C43_accelerated_binary64.
Example C43_run_example :
  option_map (fun s => (giter s, flt (gf1v s) (nf lasso (dq 3))))
    (pg_run D lasso (dflt 1 0 5 false) never 6 20 (dq 3) (dq 3) (dq 1) acc0 tt)
  = Some (1%nat, true).
Proof. exact lasso_decreases. Qed.

(** C44.  Arithmetic with infinities and NaN.  The value at AManPG's safeguard point never
    increases along a run and is the objective's value there.  Missing from the full claim: that
    a NaN is never accepted; it is assumed that the objective is not NaN at the accelerated
    point the safeguard compares with. *)
Theorem C44_safeguard_partial :
  forall big eps (E : pgenv (X_arith big eps)) (P : pgpar (X_arith big eps)) (al ra : R),
  pAlpha P = Fin al -> (0 < al)%R -> pRatio P = Fin ra -> (0 < ra)%R ->
  forall stopped lf x1 x2 ada acc init inity fz, nf E x1 <> NaN ->
  let s0 := am_start (X_arith big eps) E stopped x1 x2 ada acc init inity fz in
  forall k s, am_at (X_arith big eps) E P stopped lf k s0 = Some s ->
  (forall j sj, (j < k)%nat -> am_at (X_arith big eps) E P stopped lf j s0 = Some sj ->
     (aiter sj mod pGap P)%nat = 0%nat ->
     xleP (am_slope E sj) (Fin 0) /\ nf E (az1 sj) <> NaN) ->
  af1 s = nf E (ax1 s)
  /\ forall j sj, (j <= k)%nat -> am_at (X_arith big eps) E P stopped lf j s0 = Some sj ->
       xleP (af1 s) (af1 sj).
Proof. exact am_at_values. Qed.
Print Assumptions C44_safeguard_partial.
Example C44_example : forall x gf (a b c : F (X_arith 1 0)) d,
  xleP (nmet xline x gf (fst (nprox xline x gf a b c d))) (Fin 0) /\ nf xline x <> NaN.
Proof. intros. split; [apply xline_slope|apply xline_value]. Qed.

(** A NaN is accepted: three iterations in binary64, SGIterGap = 2. *)
Theorem C44_nan_refuted :
  match am_run D walk (dflt 3 0 2 false) never 6 20 0%nat 0%nat (dq 1) acc0 tt tt (dq 0) with
  | AmEnd s => Some (aiter s, ax1 s, af1 s, az1 s)
  | _ => None
  end = Some (3%nat, 2%nat, S754_nan, 4%nat).
Proof. exact walk_nan. Qed.
Print Assumptions C44_nan_refuted.

(** C68.  ManPG: as long as the proximal directions have a nonpositive slope with the gradient,
    the values never increase and are the objective's values at the iterates.  Missing: the
    slope condition, which proximal directions of composite objectives need not meet. *)
Theorem C68_values_partial :
  forall big eps (E : pgenv (X_arith big eps)) (P : pgpar (X_arith big eps)) (al ra : R),
  pAlpha P = Fin al -> (0 < al)%R -> pRatio P = Fin ra -> (0 < ra)%R ->
  forall stopped lf x1 x2 ada acc init, nf E x1 <> NaN ->
  let s0 := pg_start (X_arith big eps) E stopped x1 x2 ada acc init in
  forall k s, pg_at E P stopped lf k s0 = Some s ->
  (forall j sj, (j < k)%nat -> pg_at E P stopped lf j s0 = Some sj -> xleP (pg_slope E sj) (Fin 0)) ->
  gf1v s = nf E (gx1 s) /\ xleP (gf1v s) (nf E x1)
  /\ forall j sj, (j <= k)%nat -> pg_at E P stopped lf j s0 = Some sj -> xleP (gf1v s) (gf1v sj).
Proof. exact pg_at_mono. Qed.
Print Assumptions C68_values_partial.
Example C68_example : forall lf (s : pgst (X_arith 1 0) xline),
  (0 < gx1 s)%nat -> gf1v s = Fin (INR (gx1 s)) -> ggf1 s = 1%nat ->
  exists s', pg_pass (X_arith 1 0) xline (xpar 5) never (S lf) s = Some (Again s')
    /\ gx1 s' = (gx1 s - 1)%nat /\ giter s' = S (giter s).
Proof. exact xline_step. Qed.

(** Minimising (1-x)/2 + 1.00004 (1-x)^2 + |x| from x = 1 with soft thresholding: the first
    step is accepted and the objective increases. *)
Theorem C68_increase_refuted :
  option_map (fun s => (giter s, gx1 s, flt (nf lasso (dq 1)) (gf1v s)))
    (pg_run D lasso (dflt 1 0 5 false) never 6 20 (dq 1) (dq 1) (dq 1) acc0 tt)
  = Some (1%nat, dq (1 # 2), true).
Proof. exact lasso_increases. Qed.
Print Assumptions C68_increase_refuted.

(** C45.  The subgradient solver never makes more than Max_Iteration iterations, in any
    arithmetic and for any problem. *)
Theorem C45_iterations_partial :
  forall (A : arith) (E : subenv A) (P : subpar A) stopped update lf (s0 : subst A E) k s,
  sub_at E P stopped update lf k s0 = Some s ->
  (uiter s0 <= uMax P)%nat -> (uiter s <= uMax P)%nat.
Proof. exact at_iter. Qed.
Print Assumptions C45_iterations_partial.

(** And the passes that are not iterations are bounded, in exact arithmetic, when the stopping
    test answers true for directions of length at most Tolerance, Min_Iteration is 0, and no
    direction length equals Del.  Missing: those conditions; the loops inside the line search. *)
Theorem C45_passes_partial :
  forall big eps (E : subenv (R_arith big eps)) (P : subpar (R_arith big eps)) stopped update
    (eps0 del0 : R),
  (0 < (uThEps P : R) < 1)%R -> (0 < (uThDel P : R) < 1)%R ->
  (0 < (uTol P : R))%R -> (0 < (uMinEps P : R))%R -> (0 < del0)%R -> uMin P = 0%nat ->
  (forall (s : subst (R_arith big eps) E) (nd : R),
     undir1 s = Some nd -> (Rabs nd <= uTol P)%R -> stopped s = true) ->
  exists N : nat, forall lf (s0 : subst (R_arith big eps) E),
  uEps s0 = eps0 -> uDel s0 = del0 -> uiter s0 = 0%nat ->
  (forall k (s : subst (R_arith big eps) E) (nd : R),
     sub_at E P stopped update lf k s0 = Some s -> sub_going (R_arith big eps) E P s = true ->
     undir1 (sub_dir (R_arith big eps) E P s) = Some nd -> Rabs nd <> uDel s) ->
  forall k s, sub_at E P stopped update lf k s0 = Some s -> (k <= uiter s + N)%nat.
Proof. exact sub_terminates. Qed.
Print Assumptions C45_passes_partial.
Example C45_example : forall lf k s (nd : R),
  sub_at lin1 (subdflt 1) stp1 (fun _ v => v) lf k st1 = Some s ->
  sub_going (R_arith 1 0) lin1 (subdflt 1) s = true ->
  undir1 (sub_dir (R_arith 1 0) lin1 (subdflt 1) s) = Some nd -> Rabs nd <> uDel s.
Proof. exact st1_hyp. Qed.

(** Without them it need not end: f(x) = x / 10^7, Del = 10^-8, default parameters and default
    stopping test, exact arithmetic.  Every pass is followed by another one and none is an
    iteration. *)
Theorem C45_forever_refuted :
  forall lf k, exists s, sub_at lin0 sp stp upd (S lf) k st0 = Some s
  /\ sub_going (R_arith 1 0) lin0 sp s = true /\ uiter s = 0%nat.
Proof. exact stuck_forever. Qed.
Print Assumptions C45_forever_refuted.

(** C69.  The direction length used by the stopping test and the shrinking test after a
    computation of the search direction (with Lengthgfs >= 2) is that of the direction, or the
    shortest vector found has length at most Del.  Missing: the second case. *)
Theorem C69_direction_length_partial :
  forall (A : arith) (E : subenv A) (P : subpar A) k gfs (s : subst A E),
  (forall x l, snd (shull E x l) = smet E x (fst (shull E x l)) (fst (shull E x l))) ->
  k <> O ->
  let s' := gsd_loop A E P k gfs s in
  undir1 s' = Some (fsqrt (smet E (ux1 s') (ueta1 s') (ueta1 s')))
  \/ fle (fsqrt (smet E (ux1 s') (uminPv s') (uminPv s'))) (uDel s') = true.
Proof. exact gsd_ndir. Qed.
Print Assumptions C69_direction_length_partial.
Example C69_example :
  match undir1 (sub_dir D (dlin (dq 2)) dsp (dst (dlin (dq 2)) (dq 0) (dq 0))) with
  | Some nd => feq nd (dq 2)
  | None => false
  end = true.
Proof. exact ndir_two. Qed.

(** In that case the first pass reads the member before anything was assigned to it:
    f(x) = x / 2, default parameters, whatever the stopping test. *)
Theorem C69_uninitialised_refuted :
  forall lf fuel stopped update,
  sub_loop D (dlin (dq (1 # 2))) dsp stopped update lf (S fuel)
    (dst (dlin (dq (1 # 2))) (dq 0) (dq 0)) = EndUB.
Proof. exact ub_first. Qed.
Print Assumptions C69_uninitialised_refuted.

(** C70.  When the line search of the subgradient solver reports success, the new point is the
    retraction of the reported step, the values and gradients are those at the new point, both
    Wolfe conditions hold and the step is within its bounds.  Exact arithmetic.  Missing: NaN. *)
Theorem C70_wolfe_partial :
  forall big eps (E : subenv (R_arith big eps)) (P : subpar (R_arith big eps)) (slope : R) fuel
    (s0 s : subst (R_arith big eps) E),
  sub_linesearch (R_arith big eps) E P fuel slope s0 = Some s -> ustat s = SUCCESS ->
  (ux1 s = ux1 s0 /\ uf1 s = uf1 s0 /\ ueta1 s = ueta1 s0
   /\ ueta2 s = sscal E (ustep s) (ueta1 s0) /\ ux2 s = sretr E (ux1 s0) (ueta2 s)
   /\ uf2 s = sf E (ux2 s) /\ ugf2 s = sgrad E (ux2 s)
   /\ ((uf2 s : R) - uf1 s <= uAlpha P * slope * ustep s)%R
   /\ ((uBeta P : R) * slope
       <= smet E (ux2 s) (ugf2 s) (sdiff E (ux1 s) (ueta2 s) (ux2 s) (ueta1 s)))%R)
  /\ ((uMinstep P : R) < ustep s < uMaxstep P)%R.
Proof. exact linesearch_ok. Qed.
Print Assumptions C70_wolfe_partial.

Example C70_example : exists s,
  sub_linesearch (R_arith 1 0) quad (subdflt 1) 1 (-1)%R sq = Some s
  /\ ustat s = SUCCESS /\ ustep s = 1%R.
Proof. exact quad_success. Qed.

(** With NaN: a step to a point where the objective is NaN is a success and becomes the iterate. *)
Theorem C70_nan_refuted :
  match sub_pass D holes dsp never1 (fun _ v => v) 5 (dst holes (dq 5) (dq 0)) with
  | SubIter s => Some (ustat s, uf1 s, ux1 s)
  | _ => None
  end = Some (SUCCESS, S754_nan, dq (-5)).
Proof. exact holes_nan. Qed.
Print Assumptions C70_nan_refuted.
