(** Properties of a run of a line-search solver (C21-C24, C28, C34, C42, C59). *)
From Coq Require Import QArith Reals List Bool.
From Coq Require Import Floats.SpecFloat.
From Verif Require Import Arith LineSearchModel LineSearchSpec SolverRunModel SolverRunSpec SolverRunProofs SolverRunFacts SolverRunWitness.
Import ListNotations.
Local Open Scope nat_scope.

(** C21. *)
Theorem C21_iterations_bounded :
  forall (A : arith) (G : geometry A) (X : Type) q (e : env A G (X:=X)) n fuel x0 x20 gf20 eta0 bb0 ss0 aux0 sf,
  run A G q e n fuel (start A G q x0 x20 gf20 eta0 bb0 ss0 aux0) = Done A G sf ->
  riter A G sf <= Nat.max (Max_Iteration A q) (Min_Iteration A q).
Proof. exact @final_iter. Qed.
Print Assumptions C21_iterations_bounded.

Theorem C21_run_returns :
  forall (A : arith) (G : geometry A) (X : Type) q (e : env A G (X:=X)) n fuel x0 x20 gf20 eta0 bb0 ss0 aux0,
  (forall s eta slope t, search A G q e fuel s eta slope t <> None) ->
  Nat.max (Max_Iteration A q) (Min_Iteration A q) <= n ->
  run A G q e n fuel (start A G q x0 x20 gf20 eta0 bb0 ss0 aux0) <> NoAnswer A G.
Proof. exact @final_answers. Qed.
Print Assumptions C21_run_returns.

Theorem C21_records_in_bounds_partial :
  forall (A : arith) (G : geometry A) (X : Type) q (e : env A G (X:=X)) n fuel x0 x20 gf20 eta0 bb0 ss0 aux0,
  Min_Iteration A q <= Max_Iteration A q \/ recording A q = false ->
  run A G q e n fuel (start A G q x0 x20 gf20 eta0 bb0 ss0 aux0) <> OutOfBounds A G.
Proof. exact @final_in_bounds. Qed.
Print Assumptions C21_records_in_bounds_partial.

(** The history arrays hold exactly the values of the accepted iterates, oldest first. *)
Theorem C21_histories :
  forall (A : arith) (G : geometry A) (X : Type) q (e : env A G (X:=X)) n fuel x0 x20 gf20 eta0 bb0 ss0 aux0 sf,
  let s0 := start A G q x0 x20 gf20 eta0 bb0 ss0 aux0 in
  recording A q = true -> run A G q e n fuel s0 = Done A G sf ->
  exists l, ends q e fuel s0 sf l /\ length l = S (riter A G sf) /\
    hfun A G sf = map Some (map (rf1 A G) (rev l)) ++ repeat None (Max_Iteration A q - riter A G sf) /\
    hgrad A G sf = map Some (map (rngf1 A G) (rev l)) ++ repeat None (Max_Iteration A q - riter A G sf).
Proof. exact @final_histories. Qed.
Print Assumptions C21_histories.

(** The accepted step sizes (of each accepted iterate) and the initial trial steps. *)
Theorem C21_step_histories :
  forall (A : arith) (G : geometry A) (X : Type) q (e : env A G (X:=X)) fuel x0 x20 gf20 eta0 bb0 ss0 aux0 s b l,
  recording A q = true -> visited q e fuel (start A G q x0 x20 gf20 eta0 bb0 ss0 aux0) s b l ->
  hacc A G s = Some (fq 0) :: map Some (map (rss A G) (tl (rev l))) ++ repeat None (Max_Iteration A q - riter A G s) /\
  hinit A G s = Some (fq 0) :: map Some (map (fun r => fst (init_step A G q e r)) (rev (tl l)))
     ++ repeat None (Max_Iteration A q - riter A G s).
Proof. exact @final_steps. Qed.
Print Assumptions C21_step_histories.

Theorem C21_out_of_bounds_refuted :
  exists (G : geometry D_arith) q (e : env D_arith G (X:=unit)) n fuel x0 x20 t0 c0,
  let s0 := start D_arith G q x0 x20 t0 t0 [] c0 tt in
  Max_Iteration _ q < Min_Iteration _ q /\ run D_arith G q e n fuel s0 = OutOfBounds D_arith G.
Proof. exact run_oob_ex. Qed.
Print Assumptions C21_out_of_bounds_refuted.

Example C21_example := run_example.

(** C22. The returned value belongs to the returned point, which is the last accepted
    iterate, and is finite unless it is the starting value. *)
Theorem C22_returned_value :
  forall (A : arith) (G : geometry A) (X : Type) q (e : env A G (X:=X)) n fuel x0 x20 gf20 eta0 bb0 ss0 aux0 sf,
  let s0 := start A G q x0 x20 gf20 eta0 bb0 ss0 aux0 in
  run A G q e n fuel s0 = Done A G sf ->
  rf1 A G sf = fobj A G (rx1 A G sf) /\ (0 < riter A G sf -> fbad (rf1 A G sf) = false) /\
  exists l, ends q e fuel s0 sf l /\ hd_error (map (rx1 A G) l) = Some (rx1 A G sf).
Proof. exact @final_value. Qed.
Print Assumptions C22_returned_value.

Example C22_example := nan_run.

(** C23 inside a run: fs are the accepted values so far, newest first. *)
Theorem C23_armijo_run :
  forall (big eps : R) (G : geometry (X_arith big eps)) (X : Type) q (e : env _ G (X:=X)) fuel s0 s b l s' b' fs a t g,
  let A := X_arith big eps in
  riter A G s0 = 0 -> rpre A G s0 = [] ->
  visited q e fuel s0 s b l -> body A G q e fuel s = inl (s', b') ->
  algo A q = LSSM_ARMIJO -> rstatus A G s' = SUCCESS ->
  flt (fdiv (rngf1 A G s) (fadd (rngf0 A G s) (Tolerance A q))) (Accuracy A q) = false ->
  map (rf1 A G) l = map Fin fs -> LS_alpha A (lsp A q) = Fin a -> rss A G s' = Fin t ->
  metric A G (rx1 A G s) (rgf1 A G s) (reta1 A G s') = Fin g ->
  exists v m j, rf1 A G s' = Fin v /\ 1 <= j <= Nat.max 1 (Num_pre_funs A q) /\ is_max m (firstn j fs) /\
    (v <= m + a * t * g)%R.
Proof. exact @armijo_run. Qed.
Print Assumptions C23_armijo_run.

(** C24. The reference values are the newest accepted values; how many. *)
Theorem C24_window_partial :
  forall (A : arith) (G : geometry A) (X : Type) q (e : env A G (X:=X)) fuel x0 x20 gf20 eta0 bb0 ss0 aux0 s b l,
  let s0 := start A G q x0 x20 gf20 eta0 bb0 ss0 aux0 in
  visited q e fuel s0 s b l ->
  let N := Nat.max 1 (Num_pre_funs A q) in
  exists j, 1 <= j <= N /\ reference q s = firstn j (map (rf1 A G) l) /\
   ((forall r, In r l -> r = s0 \/
       fle (fdiv (rngf1 A G r) (fadd (rngf0 A G s0) (Tolerance A q))) (PreFunsAccuracy A q) = true) ->
     j = Nat.min N (Nat.max 1 (riter A G s))) /\
   ((forall r, In r l -> r = s0 \/
       fle (fdiv (rngf1 A G r) (fadd (rngf0 A G s0) (Tolerance A q))) (PreFunsAccuracy A q) = false) ->
     j = 1).
Proof. exact @final_window. Qed.
Print Assumptions C24_window_partial.

(** Until the window is full it is one value short. *)
Theorem C24_short_window_refuted :
  exists (G : geometry D_arith) q (e : env D_arith G (X:=unit)) fuel x0 x20 t0 c0 s b,
  let s0 := start D_arith G q x0 x20 t0 t0 [] c0 tt in
  visited q e fuel s0 s b [s; s0] /\ Num_pre_funs _ q = 2 /\ length (reference q s) = 1.
Proof. exact short_window_ex. Qed.
Print Assumptions C24_short_window_refuted.

(** C28 inside a run. *)
Theorem C28_run_step_partial :
  forall (A : arith) (G : geometry A) (X : Type) q (e : env A G (X:=X)) fuel s0 s b l s' b',
  visited q e fuel s0 s b l -> goes_on A G q s b = true -> body A G q e fuel s = inl (s', b') ->
  (rstatus A G s' = SUCCESS \/ algo A q = LSSM_WOLFE \/ algo A q = LSSM_EXACT \/
   (algo A q = LSSM_STRONGWOLFE /\ rstatus A G s' <> LSERROR)) ->
  rx1 A G s' = retr A G (rx1 A G s) (scal A G (rss A G s') (reta1 A G s')).
Proof. exact @visited_step_size. Qed.
Print Assumptions C28_run_step_partial.

(** C34. *)
Theorem C34_normal_stop :
  forall (A : arith) (G : geometry A) (X : Type) q (e : env A G (X:=X)) n fuel x0 x20 gf20 eta0 bb0 ss0 aux0 sf,
  let s0 := start A G q x0 x20 gf20 eta0 bb0 ss0 aux0 in
  run A G q e n fuel s0 = Done A G sf -> rstatus A G sf = SUCCESS -> fbad (rf2 A G sf) = false ->
  Min_Iteration A q <= riter A G sf < Max_Iteration A q ->
  exists l, ends q e fuel s0 sf l /\
  (flt (TimeBound A q) (elapsed A G e (riter A G sf)) = true \/
  (exists pred r, stopptr A G e = Some pred /\ pred r = true /\
     (r = sf \/ (rx2 A G r = rx1 A G sf /\ rngf2 A G r = rngf1 A G sf /\ rf2 A G r = rf1 A G sf /\
                 riter A G r = riter A G sf))) \/
  criterion A q (match l with _ :: r :: _ => rf1 A G r | _ => rf1 A G sf end) (rf1 A G sf) (rngf1 A G sf)
     (rngf0 A G sf) (riter A G sf) = true).
Proof. exact @final_stop. Qed.
Print Assumptions C34_normal_stop.

Example C34_example := run_example_status.

(** C42. Every rule gives a positive number or overflows / is undefined. *)
Theorem C42_initial_step_partial :
  forall (big eps : R) (G : geometry (X_arith big eps)) (X : Type) q (e : env _ G (X:=X)) s i n,
  let A := X_arith big eps in
  Initstepsize A q = Fin i -> rngf1 A G s = Fin n -> (0 < i)%R -> (0 < n)%R -> (0 < eps)%R ->
  let t := fst (init_step A G q e s) in (exists r, t = Fin r /\ (0 < r)%R) \/ t = PInf \/ t = NaN.
Proof. exact @init_step_X. Qed.
Print Assumptions C42_initial_step_partial.

Theorem C42_infinite_step_refuted :
  exists (G : geometry D_arith) q (e : env D_arith G (X:=unit)) fuel x0 x20 t0 c0 s b,
  let s0 := start D_arith G q x0 x20 t0 t0 [] c0 tt in
  itype _ q = BBSTEP /\ visited q e fuel s0 s b [s; s0] /\ fbad (rf1 _ _ s) = false /\
  fbad (rngf1 _ _ s) = false /\ fst (init_step D_arith G q e s) = S754_infinity false.
Proof. exact infinite_bb_step_ex. Qed.
Print Assumptions C42_infinite_step_refuted.

Theorem C42_above_max_refuted :
  exists (G : geometry D_arith) q (e : env D_arith G (X:=unit)) fuel x0 x20 t0 c0 s b,
  let s0 := start D_arith G q x0 x20 t0 t0 [] c0 tt in
  itype _ q = ONESTEP /\ visited q e fuel s0 s b [s; s0] /\
  flt (Maxstepsize D_arith (lsp D_arith q)) (fst (init_step D_arith G q e s)) = true.
Proof. exact one_step_above_max_ex. Qed.
Print Assumptions C42_above_max_refuted.

(** C59. The reported gradient and its norm belong to the returned point. *)
Theorem C59_gradient_partial :
  forall (A : arith) (G : geometry A) (X : Type) q (e : env A G (X:=X)) fuel x0 x20 gf20 eta0 bb0 ss0 aux0 sf l,
  let s0 := start A G q x0 x20 gf20 eta0 bb0 ss0 aux0 in
  ends q e fuel s0 sf l ->
  match algo A q with
  | LSSM_ARMIJO | LSSM_EXACT | LSSM_INPUTFUN _ => True
  | LSSM_STRONGWOLFE => exists r, hd_error l = Some r /\ (rstatus A G r = SUCCESS \/ rstatus A G r = MAXSTEPSIZE)
  | LSSM_WOLFE => False
  end ->
  rgf1 A G sf = grad A G (rx1 A G sf) /\
  rngf1 A G sf = fsqrt (metric A G (rx1 A G sf) (grad A G (rx1 A G sf)) (grad A G (rx1 A G sf))).
Proof. exact @final_gradient. Qed.
Print Assumptions C59_gradient_partial.

Theorem C59_stale_gradient_refuted :
  exists (G : geometry D_arith) q (e : env D_arith G (X:=unit)) n fuel x0 x20 t0 c0 sf,
  let s0 := start D_arith G q x0 x20 t0 t0 [] c0 tt in
  algo _ q = LSSM_WOLFE /\ run D_arith G q e n fuel s0 = Done D_arith G sf /\ rstatus _ _ sf = SUCCESS /\
  rgf1 _ _ sf <> grad _ G (rx1 _ _ sf).
Proof. exact stale_gradient_ex. Qed.
Print Assumptions C59_stale_gradient_refuted.
