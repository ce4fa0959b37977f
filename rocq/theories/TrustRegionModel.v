(** Model of Solvers/SolversSMTR.cpp: the trust-region loop and the truncated conjugate
    gradient method used for its subproblem.

    Arithmetic is an arbitrary [arith]; manifold, problem and Hessian action are arbitrary
    functions (trusted base: they have no hidden state and their output argument may alias an
    input, which holds for the tangent operations used here, see C47). *)
From Coq Require Import QArith List Bool.
From Verif Require Import Arith.
Import ListNotations.

(** Solvers/SolversSMTR.h 26: tCGstatusSetSM. *)
Inductive tcgstatus := NEGCURVTURE | EXCREGION | TRMIN | LCON | SCON | MAXITER | TRERROR.

Section tcg.
Context (A : arith).
Notation F := (F A).
Local Open Scope arith_scope.
Notation lit q := (@fq A q).

(** The tangent space at x1 as the subproblem solver sees it. *)
Record tspace := {
  V : Type;
  axpy : F -> V -> V -> V;      (* Mani->ScalarVectorAddVector(x1, a, v, w): a v + w *)
  vscal : F -> V -> V;          (* Mani->ScalarTimesVector(x1, a, v) *)
  met : V -> V -> F;            (* Mani->Metric(x1, v, w) *)
  vproj : V -> V;               (* Mani->Projection(x1, v) *)
  hess : V -> V;                (* HessianEta(v) *)
  prec : V -> V                 (* Prob->PreConditioner(x1, v) *)
}.

(** Parameters of the inner iteration, SolversSMTR.h. [powtheta x] is pow(x, theta). *)
Record tcgparams := {
  Max_Inner_Iter : nat; Min_Inner_Iter : nat; kappa : F; powtheta : F -> F; useRand : bool
}.

Context (G : tspace) (p : tcgparams) (gf1 : V G) (Delta : F).

(** The variables of tCG_TR that live across passes. *)
Record cg := mkCg {
  ceta : V G; cHeta : V G; cr : V G; cdelta : V G;
  cePe : F; cePd : F; cdPd : F; czr : F; cmodel : F
}.

(** Lines 149-183: before the loop. [eta1] is the initial guess. *)
Definition cg_init (eta1 : V G) : cg :=
  let Heta := if useRand p then hess G eta1 else vscal G (lit 1) eta1 in
  let r := if useRand p then axpy G (lit 1) gf1 Heta else gf1 in
  let ePe := if useRand p then met G eta1 eta1 else lit 0 in
  let z := prec G r in
  let zr := met G z r in
  let delta := vscal G (lit (-1)) z in
  let ePd := if useRand p then met G eta1 delta else lit 0 in
  let modelv := if useRand p then met G eta1 gf1 + lit (1#2) * met G eta1 Heta else lit 0 in
  mkCg eta1 Heta r delta ePe ePd zr zr modelv.

(** Lines 187-190. *)
Definition d_Hd (s : cg) : F := met G (cdelta s) (hess G (cdelta s)).
Definition alphatemp (s : cg) : F := czr s / d_Hd s.
Definition ePe_new (s : cg) : F :=
  cePe s + lit 2 * alphatemp s * cePd s + alphatemp s * alphatemp s * cdPd s.

(** Line 192: leave the region or meet non-positive curvature. *)
Definition leaves (s : cg) : bool :=
  (d_Hd s <=? lit 0) || (ePe_new s >=? Delta * Delta).

(** Lines 194-200: step to the boundary. *)
Definition tautemp (s : cg) : F :=
  ((- cePd s) + fsqrt (cePd s * cePd s + cdPd s * (Delta * Delta - cePe s))) / cdPd s.
Definition boundary (s : cg) : V G * tcgstatus :=
  (axpy G (tautemp s) (cdelta s) (ceta s),
   if d_Hd s <? lit 0 then NEGCURVTURE else EXCREGION).

(** Lines 205-206, 208: the interior step and the model value there. *)
Definition eta_new (s : cg) : V G := axpy G (alphatemp s) (cdelta s) (ceta s).
Definition Heta_new (s : cg) : V G := axpy G (alphatemp s) (hess G (cdelta s)) (cHeta s).
Definition model_new (s : cg) : F :=
  met G (eta_new s) gf1 + lit (1#2) * met G (eta_new s) (Heta_new s).

(** Lines 215-216. *)
Definition r_new (s : cg) : V G :=
  vproj G (axpy G (alphatemp s) (hess G (cdelta s)) (cr s)).

(** Lines 218-223: the residual test. [nr0] is norm_r0. *)
Definition small (nr0 : F) (j : nat) (s : cg) : bool :=
  let norm_r := fsqrt (met G (r_new s) (r_new s)) in
  let t := powtheta p nr0 in
  Nat.leb (Min_Inner_Iter p) j && (norm_r <=? nr0 * (if t <? kappa p then t else kappa p)).

(** Lines 225-228. *)
Definition conv_status (nr0 : F) : tcgstatus :=
  if kappa p <? powtheta p nr0 then LCON else SCON.

(** Lines 232-240: next direction. *)
Definition cg_next (s : cg) : cg :=
  let r := r_new s in
  let z := prec G r in
  let zr := met G z r in
  let beta := zr / czr s in
  let delta := axpy G (lit (-1)) z (vscal G beta (cdelta s)) in
  mkCg (eta_new s) (Heta_new s) r delta (ePe_new s)
       (beta * (cePd s + alphatemp s * cdPd s)) (zr + beta * beta * cdPd s) zr (model_new s).

(** The for loop, lines 185-241; [k] is the number of passes left, [j] the pass number.
    Result: eta2, tCGstatusSM, innerIter. *)
Fixpoint tcg_loop (nr0 : F) (k j : nat) (s : cg) : V G * tcgstatus * nat :=
  match k with
  | O => (ceta s, MAXITER, j)
  | S k =>
      if leaves s then (boundary s, j)
      else if model_new s >=? cmodel s then (eta_new s, TRERROR, j)
      else if small nr0 j s then (eta_new s, conv_status nr0, j)
      else tcg_loop nr0 k (S j) (cg_next s)
  end.

(** SolversSMTR::tCG_TR, 143-243, started from eta1. *)
Definition tcg (eta1 : V G) : V G * tcgstatus * nat :=
  let s := cg_init eta1 in
  tcg_loop (fsqrt (met G (cr s) (cr s))) (Max_Inner_Iter p) 0 s.

(** SolversSMTR::InitialVector, 138-141. *)
Definition initial_vector : V G := vscal G (lit 0) gf1.
End tcg.

Section trrun.
Context (A : arith).
Notation F := (F A).
Local Open Scope arith_scope.
Notation lit q := (@fq A q).

(** The manifold and the problem. *)
Record trgeo := {
  P : Type; T : Type;
  taxpy : P -> F -> T -> T -> T;   (* ScalarVectorAddVector *)
  tmet : P -> T -> T -> F;         (* Metric *)
  tretr : P -> T -> P;             (* Retraction *)
  tf : P -> F;                     (* Prob->f *)
  tgrad : P -> T                   (* Prob->Grad *)
}.

Inductive stopcrit := TFUN_REL | TGRAD_F | TGRAD_F_0.

Record trparams := {
  Acceptence_Rho : F; Shrinked_tau : F; Magnified_tau : F;
  minimum_Delta : F; maximum_Delta : F; initial_Delta : F;
  tTolerance : F; tAccuracy : F; tTimeBound : F; tcrit : stopcrit;
  tMax_Iteration : nat; tMin_Iteration : nat; trecording : bool
}.

Context (G : trgeo) {X : Type}.

(** Solver state; [taux] is whatever a particular solver keeps (B, S, Y, ...). *)
Record ts := mkTs {
  tx1 : P G; tx2 : P G; tf1 : F; tf2 : F; tgf1 : T G; tgf2 : T G;
  tngf0 : F; tngf1 : F; tngf2 : F;
  tDelta : F; trho : F; teta2 : T G; tstatus : tcgstatus; titer : nat; tstop : bool; taux : X;
  (* funSeries, gradSeries; timeSeries is written at the same indices and left out *)
  tfun : list (option F); tgrads : list (option F)
}.

(** The virtual functions and the environment. *)
Record tenv := {
  inner : ts -> T G * tcgstatus;         (* InitialVector(); tCG_TR(): eta2 and status *)
  hessian : ts -> T G -> T G;            (* HessianEta *)
  upd : ts -> X;                         (* UpdateData() *)
  accept : ts -> X;                      (* Acceptence(): solver-specific part; in every
                                            solver gf2 is Grad(x2) after it, computed either
                                            there (SolversSMTR 303-306) or in UpdateData *)
  telapsed : nat -> F;
  tstopptr : option (ts -> bool)
}.

Inductive toutcome := TDone (s : ts) | TOutOfBounds | TNoAnswer.

Context (q : trparams) (e : tenv).

Fixpoint tstore (l : list (option F)) (i : nat) (v : F) : option (list (option F)) :=
  match l, i with
  | [], _ => None
  | _ :: l, O => Some (Some v :: l)
  | x :: l, S i => match tstore l i v with Some l' => Some (x :: l') | None => None end
  end.

(** SolversSM::IsStopped, SolversSM.cpp 54-73. *)
Definition tcriterion (fprev fnew ng ng0 : F) (iter : nat) : bool :=
  match tcrit q with
  | TFUN_REL => (fabs ((fprev - fnew) / (fabs fprev + lit 1)) <? tTolerance q) && Nat.ltb 0 iter
  | TGRAD_F => ng <? tTolerance q
  | TGRAD_F_0 => (ng / ng0) <? tTolerance q
  end.

Definition tis_stopped (s : ts) : bool :=
  if telapsed e (titer s) >? tTimeBound q then true
  else match tstopptr e with
       | Some f => f s
       | None => tcriterion (tf1 s) (tf2 s) (tngf2 s) (tngf0 s) (titer s)
       end.

(** Lines 38-41: subproblem, candidate, its value. *)
Definition with_cand (s : ts) : ts :=
  let '(eta, st) := inner e s in
  let y := tretr G (tx1 s) eta in
  mkTs (tx1 s) y (tf1 s) (tf G y) (tgf1 s) (tgf2 s) (tngf0 s) (tngf1 s) (tngf2 s)
       (tDelta s) (trho s) eta st (titer s) (tstop s) (taux s) (tfun s) (tgrads s).

(** Lines 47-49: the model difference <eta2, gf1 + H eta2 / 2> and rho. *)
Definition model_diff (s : ts) : F :=
  tmet G (tx1 s) (teta2 s) (taxpy G (tx1 s) (lit (1#2)) (hessian e s (teta2 s)) (tgf1 s)).
Definition with_rho (s : ts) : ts :=
  mkTs (tx1 s) (tx2 s) (tf1 s) (tf2 s) (tgf1 s) (tgf2 s) (tngf0 s) (tngf1 s) (tngf2 s)
       (tDelta s) ((tf1 s - tf2 s) / (- model_diff s)) (teta2 s) (tstatus s) (titer s) (tstop s)
       (upd e s) (tfun s) (tgrads s).

(** Lines 52-77: the radius update; the flag is the break of line 75. *)
Definition accurate (s : ts) : bool := (tngf1 s / (tngf0 s + tTolerance q)) <? tAccuracy q.
Definition not_accurate (s : ts) : bool := (tngf1 s / (tngf0 s + tTolerance q)) >=? tAccuracy q.
Definition grows (st : tcgstatus) : bool :=
  match st with EXCREGION | NEGCURVTURE | MAXITER => true | _ => false end.
Definition next_Delta (s : ts) : F * bool :=
  if trho s >? lit (3#4) then
    let D := if grows (tstatus s) then tDelta s * Magnified_tau q else tDelta s in
    (if D >? maximum_Delta q then maximum_Delta q else D, false)
  else if (trho s <? lit (1#4)) && not_accurate s then
    let D := tDelta s * Shrinked_tau q in (D, D <? minimum_Delta q)
  else (tDelta s, false).
Definition with_Delta (s : ts) (D : F) : ts :=
  mkTs (tx1 s) (tx2 s) (tf1 s) (tf2 s) (tgf1 s) (tgf2 s) (tngf0 s) (tngf1 s) (tngf2 s)
       D (trho s) (teta2 s) (tstatus s) (titer s) (tstop s) (taux s) (tfun s) (tgrads s).

(** Lines 79-82: the acceptance test. *)
Definition tiny_change (s : ts) : bool :=
  (fabs (tf1 s - tf2 s) / (fabs (tf1 s) + lit 1)) <? fsqrt fepsv.
Definition inside (st : tcgstatus) : bool := match st with TRMIN | LCON | SCON => true | _ => false end.
Definition accepts (s : ts) : bool :=
  (trho s >? Acceptence_Rho q) ||
  (tiny_change s && (tf2 s <? tf1 s)) ||
  (accurate s && ((tf2 s <? tf1 s) || inside (tstatus s))).

(** Lines 84-85: Acceptence, gf2 and its norm. *)
Definition with_grad (s : ts) : ts :=
  let g := tgrad G (tx2 s) in
  mkTs (tx1 s) (tx2 s) (tf1 s) (tf2 s) (tgf1 s) g (tngf0 s) (tngf1 s)
       (fsqrt (tmet G (tx2 s) g g))
       (tDelta s) (trho s) (teta2 s) (tstatus s) (titer s) (tstop s) (accept e s) (tfun s) (tgrads s).

(** Lines 86-96: stopping test, exchange of the points, iter++, f1 = f2, ngf1 = ngf2. *)
Definition with_swap (s : ts) : ts :=
  mkTs (tx2 s) (tx1 s) (tf2 s) (tf2 s) (tgf2 s) (tgf1 s) (tngf0 s) (tngf2 s) (tngf2 s)
       (tDelta s) (trho s) (teta2 s) (tstatus s) (S (titer s)) (tis_stopped s) (taux s) (tfun s) (tgrads s).

(** Line 100: a rejected step. *)
Definition with_reject (s : ts) : ts :=
  mkTs (tx1 s) (tx2 s) (tf1 s) (tf2 s) (tgf1 s) (tgf2 s) (tngf0 s) (tngf1 s) (tngf2 s)
       (tDelta s) (trho s) (teta2 s) (tstatus s) (S (titer s)) (tstop s) (taux s) (tfun s) (tgrads s).

(** Lines 108-113: the records. *)
Definition with_record (s : ts) : option ts :=
  if trecording q then
    match tstore (tfun s) (titer s) (tf2 s), tstore (tgrads s) (titer s) (tngf2 s) with
    | Some a, Some b =>
        Some (mkTs (tx1 s) (tx2 s) (tf1 s) (tf2 s) (tgf1 s) (tgf2 s) (tngf0 s) (tngf1 s) (tngf2 s)
                   (tDelta s) (trho s) (teta2 s) (tstatus s) (titer s) (tstop s) (taux s) a b)
    | _, _ => None
    end
  else Some s.

Definition decide (s : ts) : ts := if accepts s then with_swap (with_grad s) else with_reject s.

(** One pass, lines 38-113: [inl] continues, [inr] leaves the loop. *)
Definition tbody (s : ts) : ts + toutcome :=
  let s1 := with_cand s in
  if fbad (tf2 s1) then inr (TDone s1)
  else
    let s2 := with_rho s1 in
    let '(D, brk) := next_Delta s2 in
    if brk then inr (TDone (with_Delta s2 D))
    else match with_record (decide (with_Delta s2 D)) with
         | Some s3 => inl s3
         | None => inr TOutOfBounds
         end.

(** The loop condition of line 36. *)
Definition tgoes_on (s : ts) : bool :=
  (negb (tstop s) && Nat.ltb (titer s) (tMax_Iteration q)) || Nat.ltb (titer s) (tMin_Iteration q).

Fixpoint tloop (n : nat) (s : ts) : toutcome :=
  if tgoes_on s then
    match n with
    | O => TNoAnswer
    | S n => match tbody s with inl s' => tloop n s' | inr o => o end
    end
  else TDone s.

(** Lines 9-35: the state before the loop. x20, gf20, rho0, eta20, st0: leftovers. *)
Definition tstart (x0 x20 : P G) (gf20 eta20 : T G) (rho0 : F) (st0 : tcgstatus) (aux0 : X) : ts :=
  let f := tf G x0 in
  let g := tgrad G x0 in
  let ng := fsqrt (tmet G x0 g g) in
  let empty := repeat None (1 + tMax_Iteration q) in
  let rec1 (v : F) := if trecording q then Some v :: tl empty else empty in
  let s := mkTs x0 x20 f f g gf20 ng ng ng (initial_Delta q) rho0 eta20 st0 0 false aux0
                (rec1 f) (rec1 ng) in
  mkTs x0 x20 f f g gf20 ng ng ng (initial_Delta q) rho0 eta20 st0 0 (tis_stopped s) aux0
       (rec1 f) (rec1 ng).

Definition trun (n : nat) (s : ts) : toutcome := tloop n s.
End trrun.
