(** Properties of the line searches (C23, C25-C28). *)
From Coq Require Import QArith Reals List Bool.
From Coq Require Import Floats.SpecFloat.
From Verif Require Import Arith LineSearchModel LineSearchSpec LineSearchProofs LineSearchTerm LineSearchFacts LineSearchWitness.
Import ListNotations.

(** C23. Armijo success, extended real arithmetic: the new point is the retraction at the
    reported step and its value is below the largest reference value plus alpha*step*slope. *)
Theorem C23_armijo_success :
  forall (big eps : R) (G : geometry (X_arith big eps)) p (c : lsctx _ G) fuel l num s0 s' f a g t v,
  let A := X_arith big eps in
  armijo A G p c fuel (map Fin l) num s0 = Some s' -> status A G s' = SUCCESS ->
  lf1 A G c = Fin f -> LS_alpha A p = Fin a -> lslope A G c = Fin g ->
  ss A G s' = Fin t -> f2 A G s' = Fin v ->
  point_at c s' (Fin t) /\ grad_at c s' (Fin t) /\
  exists m, is_max m (f :: firstn num (removelast l)) /\ (v <= m + a * t * g)%R.
Proof. exact armijo_success_X. Qed.
Print Assumptions C23_armijo_success.

(** C23 for an arbitrary arithmetic (in particular binary64): the test as computed. *)
Theorem C23_armijo_success_computed :
  forall (A : arith) (G : geometry A) p (c : lsctx A G) fuel pre num s0 s',
  armijo A G p c fuel pre num s0 = Some s' ->
  (status A G s' = SUCCESS /\ (point_at c s' (ss A G s') /\ grad_at c s' (ss A G s')) /\
   flt (fsub (maxpref A G c pre num) (f2 A G s'))
       (fmul (fmul (fopp (LS_alpha A p)) (lslope A G c)) (ss A G s')) = false) \/
  (status A G s' = MINSTEPSIZE /\ (exists t, point_at c s' t /\ grad_at c s' t) /\
   flt (ss A G s') (Minstepsize A p) = true).
Proof. exact armijo_spec. Qed.
Print Assumptions C23_armijo_success_computed.

Example C23_example := armijo_example.

(** C25. Termination for every objective, including infinite and NaN values. *)
Theorem C25_armijo_terminates :
  forall (big eps : R) (G : geometry (X_arith big eps)) p (c : lsctx _ G) r1 r2 m pre num s0,
  let A := X_arith big eps in
  LS_ratio1 A p = Fin r1 -> LS_ratio2 A p = Fin r2 -> Minstepsize A p = Fin m ->
  (0 < r1 < 1)%R -> (r2 < 1)%R -> (0 < m)%R -> finite (ss A G s0) \/ ss A G s0 = NaN ->
  exists n, forall fuel, (n <= fuel)%nat -> armijo A G p c fuel pre num s0 <> None.
Proof. exact armijo_terminates. Qed.
Print Assumptions C25_armijo_terminates.

Theorem C25_strong_wolfe_terminates :
  forall (big eps : R) (G : geometry (X_arith big eps)) p (c : lsctx _ G) M s0,
  let A := X_arith big eps in
  Maxstepsize A p = Fin M -> (exists r, ss A G s0 = Fin r /\ (0 < r)%R) \/ ss A G s0 = NaN ->
  exists n, forall fuel, (n <= fuel)%nat -> strong_wolfe A G p c fuel s0 <> None.
Proof. exact strong_wolfe_terminates. Qed.
Print Assumptions C25_strong_wolfe_terminates.

Theorem C25_exact_terminates :
  forall (big eps : R) (G : geometry (X_arith big eps)) p (c : lsctx _ G) r1 s0,
  let A := X_arith big eps in
  LS_ratio1 A p = Fin r1 -> (0 < r1 < 1)%R -> (0 < eps)%R ->
  exists n, forall fuel, (n <= fuel)%nat -> exact A G p c fuel s0 <> None.
Proof. exact exact_terminates. Qed.
Print Assumptions C25_exact_terminates.

(** Wolfe: only for objectives with finite values. *)
Theorem C25_wolfe_terminates_partial :
  forall (big eps : R) (G : geometry (X_arith big eps)) p (c : lsctx _ G) f g l a m s0,
  let A := X_arith big eps in
  lf1 A G c = Fin f -> lslope A G c = Fin g -> llength A G c = Fin l -> LS_alpha A p = Fin a ->
  Minstepsize A p = Fin m ->
  (g < 0)%R -> (0 <= a < 1/2)%R -> (0 < l)%R -> (0 < m)%R -> ss A G s0 = Fin l ->
  (forall x, finite (fobj A G x)) ->
  exists n, forall fuel, (n <= fuel)%nat -> wolfe A G p c fuel s0 <> None.
Proof. exact wolfe_terminates. Qed.
Print Assumptions C25_wolfe_terminates_partial.

(** An objective that is NaN away from the start: the Wolfe search never returns. *)
Theorem C25_wolfe_nan_refuted :
  exists (G : geometry D_arith) p (c : lsctx D_arith G) s0,
  forall fuel, wolfe D_arith G p c fuel s0 = None.
Proof. exact (ex_intro _ _ (ex_intro _ _ (ex_intro _ _ (ex_intro _ _ wolfe_diverges)))). Qed.
Print Assumptions C25_wolfe_nan_refuted.

(** An infinite initial step with a finite objective: the Armijo search never returns. *)
Theorem C25_armijo_infinite_step_refuted :
  exists (G : geometry D_arith) p (c : lsctx D_arith G) s0,
  forall fuel, armijo D_arith G p c fuel [] 1 s0 = None.
Proof. exact (ex_intro _ _ (ex_intro _ _ (ex_intro _ _ (ex_intro _ _ armijo_diverges)))). Qed.
Print Assumptions C25_armijo_infinite_step_refuted.

(** C26. Strong Wolfe success. *)
Theorem C26_strong_wolfe_success :
  forall (big eps : R) (G : geometry (X_arith big eps)) p (c : lsctx _ G) fuel s0 s' f a b g t v,
  let A := X_arith big eps in
  strong_wolfe A G p c fuel s0 = Some s' -> status A G s' = SUCCESS ->
  lf1 A G c = Fin f -> LS_alpha A p = Fin a -> LS_beta A p = Fin b -> lslope A G c = Fin g ->
  ss A G s' = Fin t -> f2 A G s' = Fin v ->
  point_at c s' (Fin t) /\ grad_at c s' (Fin t) /\ newslope A G s' = dphi c (Fin t) /\
  (v <= f + a * t * g)%R /\ exists d, dphi c (Fin t) = Fin d /\ (Rabs d <= - b * g)%R.
Proof. exact strong_wolfe_success_X. Qed.
Print Assumptions C26_strong_wolfe_success.

(** C26 for an arbitrary arithmetic: the tests as computed, and what the other exits give. *)
Theorem C26_strong_wolfe_computed :
  forall (A : arith) (G : geometry A) p (c : lsctx A G) fuel s0 s',
  strong_wolfe A G p c fuel s0 = Some s' ->
  (status A G s' = SUCCESS /\
     ((point_at c s' (ss A G s') /\ grad_at c s' (ss A G s')) /\ newslope A G s' = dphi c (ss A G s')) /\
     flt (fadd (lf1 A G c) (fmul (fmul (LS_alpha A p) (ss A G s')) (lslope A G c))) (f2 A G s') = false /\
     fle (fabs (newslope A G s')) (fmul (fopp (LS_beta A p)) (lslope A G c)) = true) \/
  (status A G s' = MINSTEPSIZE /\ point_at c s' (ss A G s')) \/
  (status A G s' = MAXSTEPSIZE /\
     (point_at c s' (ss A G s') /\ grad_at c s' (ss A G s')) /\ newslope A G s' = dphi c (ss A G s')) \/
  (status A G s' = LSERROR /\ exists t, point_at c s' t).
Proof. exact strong_wolfe_spec. Qed.
Print Assumptions C26_strong_wolfe_computed.

Example C26_example := strong_wolfe_example.

(** C27. Wolfe success: both conditions hold, except when the returned step is the initial
    one again, or when it was reached by eleven doublings (then the decrease holds). *)
Theorem C27_wolfe_success_partial :
  forall (big eps : R) (G : geometry (R_arith big eps)) p (c : lsctx _ G) fuel s0 s',
  let A := R_arith big eps in
  wolfe A G p c fuel s0 = Some s' -> status A G s' = SUCCESS ->
  let t := ss A G s' in
  point_at c s' t /\
  (((phi c t <= lf1 A G c + LS_alpha A p * t * lslope A G c)%R /\
    (LS_beta A p * lslope A G c <= dphi c t)%R) \/
   t = llength A G c \/
   ((phi c t <= lf1 A G c + LS_alpha A p * t * lslope A G c)%R /\ exists u, t = (2048 * u)%R)).
Proof. exact wolfe_success_R. Qed.
Print Assumptions C27_wolfe_success_partial.

Example C27_example := wolfe_example.

(** Success without sufficient decrease (f(x) = -x + 4 max(0,x-1/2)^2 from 0, unit step). *)
Theorem C27_wolfe_decrease_refuted :
  exists (G : geometry D_arith) p (c : lsctx D_arith G) fuel s0 s',
  wolfe D_arith G p c fuel s0 = Some s' /\ status _ _ s' = SUCCESS /\ fbad (f2 _ _ s') = false /\
  fle (f2 _ _ s') (fadd (lf1 _ _ c) (fmul (fmul (LS_alpha _ p) (ss _ _ s')) (lslope _ _ c))) = false.
Proof. exact wolfe_no_decrease_ex. Qed.
Print Assumptions C27_wolfe_decrease_refuted.

(** Success without the curvature condition (f(x) = -x). *)
Theorem C27_wolfe_curvature_refuted :
  exists (G : geometry D_arith) p (c : lsctx D_arith G) fuel s0 s',
  wolfe D_arith G p c fuel s0 = Some s' /\ status _ _ s' = SUCCESS /\
  flt (dphi c (ss _ _ s')) (fmul (LS_beta _ p) (lslope _ _ c)) = true.
Proof. exact wolfe_no_curvature_ex. Qed.
Print Assumptions C27_wolfe_curvature_refuted.

(** C28. Armijo exit at the minimal step: the reported step did not produce the point. *)
Theorem C28_armijo_min_step_refuted :
  exists (G : geometry D_arith) p (c : lsctx D_arith G) fuel s0 s',
  armijo D_arith G p c fuel [] 1 s0 = Some s' /\ status _ _ s' = MINSTEPSIZE /\
  x2 _ _ s' <> trial c (ss _ _ s').
Proof. exact armijo_min_step_ex. Qed.
Print Assumptions C28_armijo_min_step_refuted.

(** C28 for the exits where it holds: every exit of Exact and Wolfe, and (C23, C26) Armijo
    success and the strong Wolfe exits other than LSERROR. *)
Theorem C28_exact_partial :
  forall (A : arith) (G : geometry A) p (c : lsctx A G) fuel s0 s',
  exact A G p c fuel s0 = Some s' ->
  (point_at c s' (ss A G s') /\ grad_at c s' (ss A G s')) /\ newslope A G s' = dphi c (ss A G s').
Proof. exact exact_spec. Qed.
Print Assumptions C28_exact_partial.

Theorem C28_wolfe_partial :
  forall (A : arith) (G : geometry A) p (c : lsctx A G) fuel s0 s',
  wolfe A G p c fuel s0 = Some s' -> point_at c s' (ss A G s').
Proof. exact wolfe_cons. Qed.
Print Assumptions C28_wolfe_partial.
