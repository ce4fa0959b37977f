(** Model of the search directions of the conjugate gradient solver (Solvers/RCG.cpp) and of
    the Newton solver (Solvers/RNewton.cpp).

    Arithmetic is an arbitrary [arith]; manifold, problem, preconditioner, transport and
    Hessian action are arbitrary functions (trusted base: no hidden state, output arguments may
    alias inputs). *)
From Coq Require Import QArith List Bool.
From Verif Require Import Arith TrustRegionModel.
Import ListNotations.

(** ** RCG *)

(** Solvers/RCG.h 26: RCGmethods.  [OTHER] is any value outside the enumeration (SetParams
    casts a number without a check, RCG.cpp 157). *)
Inductive rcgmethod :=
  FLETCHER_REEVES | POLAK_RIBIERE_MOD | HESTENES_STIEFEL | FR_PR | DAI_YUAN | HAGER_ZHANG | OTHER.

Section rcg.
Context (A : arith).
Notation F := (F A).
Local Open Scope arith_scope.
Notation lit q := (@fq A q).

(** The manifold and the problem as RCG sees them. *)
Record rgeo := {
  RP : Type;                                    (* points *)
  RT : Type;                                    (* tangent vectors *)
  rmet : RP -> RT -> RT -> F;                   (* Mani->Metric(x, v, w) *)
  rscal : F -> RT -> RT;                        (* Mani->ScalarTimesVector *)
  rcomb : F -> RT -> F -> RT -> RT;             (* Mani->VectorLinearCombination *)
  rtran : RP -> RT -> RP -> RT -> RT;           (* Mani->VectorTransport(x1, eta2, x2, v) *)
  rprec : RP -> RT -> RT                        (* Prob->PreConditioner(x, v) *)
}.
Context (G : rgeo) (m : rcgmethod).
Notation P := (RP G). Notation T := (RT G).

(** The members that live across iterations (Solvers/SolversSM.h, RCG.h). *)
Record rcg := mkRcg {
  rx1 : P; rgf1 : T; rngf1 : F; reta1 : T; rPgf1 : T; riter : nat; rsigma : F
}.

(** RCG.cpp 75 and 80: the safeguard test on a candidate direction. *)
Definition not_descent (s : rcg) (eta : T) : bool :=
  rmet G (rx1 s) eta (rgf1 s) / rngf1 s / rngf1 s >=? - fsqrt fepsv.

(** RCG::GetSearchDir, RCG.cpp 73-85. *)
Definition get_search_dir (s : rcg) : rcg :=
  if Nat.eqb (riter s) 0 || not_descent s (reta1 s) then
    let Pgf1 := rprec G (rx1 s) (rgf1 s) in
    let eta := rscal G (lit (-1)) Pgf1 in
    let eta := if not_descent s eta then rscal G (lit (-1)) (rgf1 s) else eta in
    mkRcg (rx1 s) (rgf1 s) (rngf1 s) eta Pgf1 (riter s) (rsigma s)
  else s.

(** RCG::UpdateData, RCG.cpp 96-141, the value of sigma when there is no restart.
    [Tgf1], [Teta1] are the transported gradient and direction, [Pgf2] the preconditioned new
    gradient. *)
Definition beta_rule (s : rcg) (x2 : P) (gf2 Tgf1 Teta1 Pgf2 : T) : F :=
  let y := rcomb G (lit 1) gf2 (lit (-1)) Tgf1 in
  match m with
  | FLETCHER_REEVES => rmet G x2 gf2 Pgf2 / rmet G (rx1 s) (rgf1 s) (rPgf1 s)
  | POLAK_RIBIERE_MOD =>
      let sg := rmet G x2 Pgf2 y / rmet G (rx1 s) (rgf1 s) (rPgf1 s) in
      if sg <? lit 0 then lit 0 else sg
  | HESTENES_STIEFEL => rmet G x2 Pgf2 y / rmet G x2 y Teta1
  | FR_PR =>
      let sFR := rmet G x2 gf2 Pgf2 / rmet G (rx1 s) (rgf1 s) (rPgf1 s) in
      let sPR := rmet G x2 Pgf2 y / rmet G (rx1 s) (rgf1 s) (rPgf1 s) in
      if sPR <? - sFR then - sFR else if sPR >? sFR then sFR else sPR
  | DAI_YUAN => rmet G x2 gf2 Pgf2 / rmet G x2 y Teta1
  | HAGER_ZHANG =>
      let yp := rmet G x2 y Teta1 in
      let w := rcomb G (lit 1) y ((- lit 2) * rmet G x2 y y / yp) Teta1 in
      rmet G x2 w Pgf2 / yp
  | OTHER => lit 0
  end.

(** RCG.cpp 89-95: sigma. *)
Definition sigma_of (s : rcg) (eta2 : T) (x2 : P) (gf2 : T) : F :=
  let Tgf1 := rtran G (rx1 s) eta2 x2 (rgf1 s) in
  if fabs (rmet G x2 gf2 Tgf1) / rmet G (rx1 s) (rgf1 s) (rgf1 s) >? lit (1#10) then lit 0
  else beta_rule s x2 gf2 Tgf1 (rtran G (rx1 s) eta2 x2 (reta1 s)) (rprec G x2 gf2).

(** RCG::UpdateData 87-147 followed by the exchange of the points in SolversSMLS::Run,
    SolversSMLS.cpp 104-141.  The line search hands over eta2, x2 and gf2. *)
Definition update_data (s : rcg) (eta2 : T) (x2 : P) (gf2 : T) : rcg :=
  let sigma := sigma_of s eta2 x2 gf2 in
  let Teta1 := rtran G (rx1 s) eta2 x2 (reta1 s) in
  let eta := if sigma =? lit 0 then rscal G (lit (-1)) gf2
             else rcomb G (lit (-1)) gf2 sigma Teta1 in
  mkRcg x2 gf2 (fsqrt (rmet G x2 gf2 gf2)) eta (rprec G x2 gf2) (S (riter s)) sigma.

(** Before the loop, SolversSMLS.cpp 20-23; eta1 and Pgf1 are whatever the members hold. *)
Definition rcg_start (x0 : P) (gf0 eta0 Pgf0 : T) (sigma0 : F) : rcg :=
  mkRcg x0 gf0 (fsqrt (rmet G x0 gf0 gf0)) eta0 Pgf0 0 sigma0.

(** One pass of the loop as far as directions are concerned: GetSearchDir, then a line search
    that may return anything, then UpdateData. *)
Definition rcg_pass (ls : rcg -> T * P * T) (s : rcg) : rcg :=
  let s := get_search_dir s in
  let '(eta2, x2, gf2) := ls s in
  update_data s eta2 x2 gf2.

(** The state right after GetSearchDir in pass [k]: its [reta1] is the direction used. *)
Fixpoint rcg_at (ls : rcg -> T * P * T) (s0 : rcg) (k : nat) : rcg :=
  match k with
  | O => s0
  | S k => rcg_pass ls (rcg_at ls s0 k)
  end.
Definition rcg_dir (ls : rcg -> T * P * T) (s0 : rcg) (k : nat) : rcg :=
  get_search_dir (rcg_at ls s0 k).
End rcg.

Arguments RP {A}. Arguments RT {A}. Arguments rmet {A}. Arguments rscal {A}. Arguments rcomb {A}.
Arguments rtran {A}. Arguments rprec {A}.
Arguments rx1 {A G}. Arguments rgf1 {A G}. Arguments rngf1 {A G}. Arguments reta1 {A G}.
Arguments rPgf1 {A G}. Arguments riter {A G}. Arguments rsigma {A G}. Arguments mkRcg {A G}.

(** ** RNewton *)

(** Solvers/RNewton.h 27: tCGLSSMstatusSet. *)
Inductive lsstatus := LS_NEGCURVTURE | LS_LCON | LS_SCON | LS_MAXITER | LS_ERROR.

Section newton.
Context (A : arith).
Notation F := (F A).
Local Open Scope arith_scope.
Notation lit q := (@fq A q).
Context (G : tspace A) (p : tcgparams A) (gf1 : V A G).
Notation V := (V A G).
Notation axpy := (axpy A G). Notation vscal := (vscal A G). Notation met := (met A G).
Notation hess := (hess A G). Notation prec := (TrustRegionModel.prec A G).

(** The variables of tCG_LS that live across passes; Heta is not changed by the loop. *)
Record ncg := mkN { neta : V; nr : V; ndelta : V; nzr : F; nmodel : F }.

(** GetSearchDir 65: the initial iterate. *)
Definition newton_eta0 : V := vscal (lit 0) gf1.
(** tCG_LS 92, 98: Heta. *)
Definition newton_Heta : V := if useRand A p then hess newton_eta0 else newton_eta0.

(** tCG_LS 92-120. *)
Definition newton_init : ncg :=
  let r := if useRand A p then axpy (lit 1) gf1 newton_Heta else gf1 in
  let z := prec r in
  mkN newton_eta0 r (vscal (lit (-1)) z) (met z r)
      (if useRand A p then met newton_eta0 gf1 + lit (1#2) * met newton_eta0 newton_Heta else lit 0).

(** 124-126. *)
Definition n_dHd (s : ncg) : F := met (ndelta s) (hess (ndelta s)).
Definition n_alpha (s : ncg) : F := nzr s / n_dHd s.
(** 133, 135, 144-145. *)
Definition n_eta (s : ncg) : V := axpy (n_alpha s) (ndelta s) (neta s).
Definition n_model (s : ncg) : F := met (n_eta s) gf1 + lit (1#2) * met (n_eta s) newton_Heta.
Definition n_r (s : ncg) : V := vproj A G (axpy (n_alpha s) (hess (ndelta s)) (nr s)).

(** 136: the model value did not decrease, or the slope is not negative enough. *)
Definition n_error (s : ncg) : bool :=
  (n_model s >=? nmodel s) || (met (n_eta s) gf1 >=? - fepsv).

(** 147-152: the residual test. *)
Definition n_small (nr0 : F) (j : nat) (s : ncg) : bool :=
  let norm_r := fsqrt (met (n_r s) (n_r s)) in
  let t := powtheta A p nr0 in
  Nat.leb (Min_Inner_Iter A p) j && (norm_r <=? nr0 * (if t <? kappa A p then t else kappa A p)).
(** 154-157. *)
Definition n_conv (nr0 : F) : lsstatus :=
  if kappa A p <? powtheta A p nr0 then LS_LCON else LS_SCON.

(** 160-165 (the point passed to the vector operations is x2, not x1; the operations of the
    shipped manifolds do not look at it). *)
Definition n_next (s : ncg) : ncg :=
  let z := prec (n_r s) in
  let zr := met z (n_r s) in
  mkN (n_eta s) (n_r s) (axpy (lit (-1)) z (vscal (zr / nzr s) (ndelta s))) zr (n_model s).

(** The for loop 122-166, [k] passes left, [j] the pass number.  Result: eta1, delta, status,
    j at exit. *)
Fixpoint newton_loop (nr0 : F) (k j : nat) (s : ncg) : V * V * lsstatus * nat :=
  match k with
  | O => (neta s, ndelta s, LS_MAXITER, j)
  | S k =>
      if n_dHd s <=? lit 0 then (neta s, ndelta s, LS_NEGCURVTURE, j)
      else if n_error s then (n_eta s, ndelta s, LS_ERROR, j)
      else if n_small nr0 j s then (n_eta s, ndelta s, n_conv nr0, j)
      else newton_loop nr0 k (S j) (n_next s)
  end.

(** RNewton::GetSearchDir 63-67 with tCG_LS 90-170: eta1, tCGLSSMstatus, innerIter. *)
Definition newton_dir : V * lsstatus * nat :=
  let s := newton_init in
  let '(eta, delta, st, j) :=
    newton_loop (fsqrt (met (nr s) (nr s))) (Max_Inner_Iter A p) 0 s in
  (if Nat.eqb j 0 then delta else eta, st, j).
End newton.

Arguments neta {A G}. Arguments nr {A G}. Arguments ndelta {A G}. Arguments nzr {A G}. Arguments nmodel {A G}.
