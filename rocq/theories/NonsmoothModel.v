(** Model of the nonsmooth solvers: the proximal gradient methods ManPG and AManPG
    (Solvers/SolversNSMPGLS.cpp, ManPG.cpp, AManPG.cpp) and the subgradient line search method
    (Solvers/SolversNSMSubLS.cpp) used by RBFGSSub and LRBFGSSub.

    Arithmetic is an arbitrary [arith]; manifold, problem, proximal map and quadratic programming
    are arbitrary functions (trusted base: no hidden state).  Loops that the code leaves
    unbounded take fuel; running out of fuel is [None]. *)
From Coq Require Import QArith List Bool Arith.
From Verif Require Import Arith.
Import ListNotations.

(** ** Proximal gradient methods *)
Section pg.
Context (A : arith).
Notation F := (F A).
Local Open Scope arith_scope.
Notation lit q := (@fq A q).

(** Manifold and problem as ManPG and AManPG see them. *)
Record pgenv := {
  NX : Type;                                     (* points *)
  NT : Type;                                     (* tangent vectors *)
  ND : Type;                                     (* warm starts initD of the proximal map *)
  nf : NX -> F;                                  (* Prob->f *)
  ngrad : NX -> NT;                              (* Prob->Grad *)
  nmet : NX -> NT -> NT -> F;                    (* Mani->Metric *)
  nscal : F -> NT -> NT;                         (* Mani->ScalarTimesVector *)
  nretr : NX -> NT -> NX;                        (* Mani->Retraction *)
  ninv : NX -> NX -> NT;                         (* Mani->InvRetraction *)
  nprox : NX -> NT -> F -> F -> F -> ND -> NT * ND  (* Mani->TangentSpaceProximalMap(x, gf,
                                                    adavalue, SMtol, SMlambda, Prob, &initD) *)
}.

(** Parameters (SolversNSMPGLS.h, Solvers.h, AManPG.h). *)
Record pgpar := {
  pMax : nat; pMin : nat;                        (* Max_Iteration, Min_Iteration *)
  pMinstep : F; pRatio : F; pAlpha : F;          (* Minstepsize, LS_ratio, LS_alpha *)
  pAda : bool;                                   (* Variant == LSPG_ADALIPSCHITZ *)
  pGap : nat                                     (* SGIterGap *)
}.
Context (E : pgenv) (P : pgpar).
Notation X := (NX E). Notation T := (NT E).

(** SolversNSMPGLS::h, SolversNSMPGLS.cpp 85-91: the trial point. *)
Definition pg_trial (x1 : X) (eta1 : T) (step : F) : X := nretr E x1 (nscal E step eta1).

(** SolversNSMPGLS::LinesearchArmijo 62-83.  [x2] is the point of the last evaluation and
    [f2] its value.  Result: step size, x2, f2, and whether LSstatus is LSPG_SUCCESS.
    The gradient at x2 (line 82, dh) is a function of x2 and is recomputed where it is used. *)
Fixpoint pg_armijo (fuel : nat) (x1 : X) (eta1 : T) (f1 slope step : F) (x2 : X) (f2 : F)
  : option (F * X * F * bool) :=
  match fuel with
  | O => None
  | S fuel =>
      if f1 - f2 <? (- pAlpha P) * slope * step then
        let step := step * pRatio P in
        if step <? pMinstep P then Some (step, x2, f2, false)
        else let x2 := pg_trial x1 eta1 step in pg_armijo fuel x1 eta1 f1 slope step x2 (nf E x2)
      else Some (step, x2, f2, true)
  end.
Definition pg_linesearch (fuel : nat) (x1 : X) (eta1 : T) (f1 slope : F) :=
  let step := lit 1 in
  let x2 := pg_trial x1 eta1 step in
  pg_armijo fuel x1 eta1 f1 slope step x2 (nf E x2).

(** ManPG.cpp 79 and 83-84 (AManPG.cpp 154 and 158-159): the accuracy of the subproblem. *)
Definition sm_floor (acc : F * F) : bool :=
  (snd acc =? lit (1 # 10000000000)) && (fst acc =? lit (1 # 1000000000000000000000000)).
Definition sm_shrink (acc : F * F) : F * F :=
  let t := fst acc * lit (1 # 100) in
  let l := snd acc * lit (1 # 10) in
  (if t >? lit (1 # 1000000000000000000000000) then t else lit (1 # 1000000000000000000000000),
   if l >? lit (1 # 10000000000) then l else lit (1 # 10000000000)).

(** ManPG.cpp 89-99 (AManPG.cpp 164-174): the Lipschitz estimate. *)
Definition pg_ada (ada step : F) : F :=
  if pAda P then
    if step =? lit 1 then ada / lit (101 # 100)
    else let a := ada * lit (101 # 100) in if a <? lit 1 then a else lit 1
  else ada.

(** The members of ManPG that survive a pass of the loop. [gacc] is (SMtol, SMlambda). *)
Record pgst := mkPg {
  gx1 : X; gx2 : X; gf1v : F; gf2v : F; ggf1 : T;
  gndir0 : F; gndir1 : F; gada : F; gacc : F * F; ginit : ND E;
  giter : nat; gstop : bool; gtime : nat          (* [gtime]: passes made, the clock *)
}.

(** IsStopped (SolversNSM.cpp 91-109 or the user's StopPtr) reads the members and the clock: any
    function of the state.  The first argument is the number of passes made so far. *)
Context (stopped : nat -> pgst -> bool).

(** What a pass of the loop does: go round again, or leave the loop. *)
Inductive next (S : Type) := Again (s : S) | Leave (s : S).
Arguments Again {S}. Arguments Leave {S}.

(** ManPG::Run, the loop body, ManPG.cpp 60-139.  [lf]: fuel for the line search. *)
Definition pg_pass (lf : nat) (s : pgst) : option (next pgst) :=
  let '(eta1, init) :=
    nprox E (gx1 s) (ggf1 s) (gada s) (fst (gacc s)) (snd (gacc s)) (ginit s) in
  let ndir1 := fsqrt (nmet E (gx2 s) eta1 eta1) in
  let ndir0 := if gndir0 s =? lit 0 then ndir1 else gndir0 s in
  let slope := nmet E (gx1 s) (ggf1 s) eta1 in
  match pg_linesearch lf (gx1 s) eta1 (gf1v s) slope with
  | None => None
  | Some (step, x2, f2, ok) =>
      if negb ok then
        let s' acc := mkPg (gx1 s) x2 (gf1v s) f2 (ggf1 s) ndir0 ndir1 (gada s) acc init
                           (giter s) (gstop s) (S (gtime s)) in
        if sm_floor (gacc s) then Some (Leave (s' (gacc s)))
        else Some (Again (s' (sm_shrink (gacc s))))
      else
        let ada := pg_ada (gada s) step in
        if fbad f2 then
          Some (Leave (mkPg (gx1 s) x2 (gf1v s) f2 (ggf1 s) ndir0 ndir1 ada (gacc s) init
                            (giter s) (gstop s) (S (gtime s))))
        else
          let s1 := mkPg (gx1 s) x2 (gf1v s) f2 (ggf1 s) ndir0 ndir1 ada (gacc s) init
                         (S (giter s)) (gstop s) (S (gtime s)) in
          let isstop := stopped (gtime s1) s1 in
          Some (Again (mkPg x2 (gx1 s) f2 f2 (ngrad E x2) ndir0 ndir1 ada (gacc s) init
                            (S (giter s)) isstop (S (gtime s))))
  end.

(** The loop condition, ManPG.cpp 58 (LSstatus is LSPG_SUCCESS whenever it is evaluated). *)
Definition pg_going (s : pgst) : bool :=
  (negb (gstop s) && (giter s <? pMax P)%nat) || (giter s <? pMin P)%nat.

(** ManPG::Run, ManPG.cpp 23-150, as long as [fuel] passes. *)
Fixpoint pg_loop (lf fuel : nat) (s : pgst) : option pgst :=
  match fuel with
  | O => None
  | S fuel =>
      if pg_going s then
        match pg_pass lf s with
        | None => None
        | Some (Leave s') => Some s'
        | Some (Again s') => pg_loop lf fuel s'
        end
      else Some s
  end.

(** Lines 30-56.  adavalue, SMtol, SMlambda, initD and x2 are whatever the members hold. *)
Definition pg_start (x1 x2 : X) (ada : F) (acc : F * F) (init : ND E) : pgst :=
  let f1 := nf E x1 in
  let s := mkPg x1 x2 f1 f1 (ngrad E x1) (lit 0) (lit 1) ada acc init 0 false 0 in
  mkPg x1 x2 f1 f1 (ngrad E x1) (lit 0) (lit 1) ada acc init 0 (stopped 0 s) 0.

Definition pg_run (lf fuel : nat) (x1 x2 : X) (ada : F) (acc : F * F) (init : ND E) : option pgst :=
  pg_loop lf fuel (pg_start x1 x2 ada acc init).
End pg.

Arguments Again {S}. Arguments Leave {S}.
Arguments NX {A}. Arguments NT {A}. Arguments ND {A}. Arguments nf {A}. Arguments ngrad {A}.
Arguments nmet {A}. Arguments nscal {A}. Arguments nretr {A}. Arguments ninv {A}.
Arguments nprox {A}.
Arguments pMax {A}. Arguments pMin {A}. Arguments pMinstep {A}. Arguments pRatio {A}.
Arguments pAlpha {A}. Arguments pAda {A}. Arguments pGap {A}.
Arguments gx1 {A E}. Arguments gx2 {A E}. Arguments gf1v {A E}. Arguments gf2v {A E}.
Arguments ggf1 {A E}. Arguments gndir0 {A E}. Arguments gndir1 {A E}. Arguments gada {A E}.
Arguments gacc {A E}. Arguments ginit {A E}. Arguments giter {A E}. Arguments gstop {A E}.
Arguments gtime {A E}. Arguments mkPg {A E}.

(** ** The accelerated method *)
Section apg.
Context (A : arith).
Notation F := (F A).
Local Open Scope arith_scope.
Notation lit q := (@fq A q).
Context (E : pgenv A) (P : pgpar A).
Notation X := (NX E). Notation T := (NT E).

(** The members of AManPG that survive a pass.  fz1, gfz1, gfz2, fy1, fy2 are written but
    never read and are left out; gf2 is the gradient at x2. *)
Record amst := mkAm {
  ax1 : X; ax2 : X; af1 : F; af2 : F; agf1 : T;
  ay1 : X; agfy1 : T; az1 : X; afz2 : F; as1 : F;
  andir0 : F; andir1 : F; aada : F; aacc : F * F; ainit : ND E; ainity : ND E;
  aiter : nat; astop : bool; atime : nat
}.
Context (stopped : nat -> amst -> bool).

(** AManPG.cpp 202-241: the accelerated step. *)
Definition am_step (s : amst) : amst :=
  let '(eta1, inity) :=
    nprox E (ay1 s) (agfy1 s) (aada s) (fst (aacc s)) (snd (aacc s)) (ainity s) in
  let z2 := nretr E (ay1 s) eta1 in
  let fz2 := nf E z2 in
  let s2 := (lit 1 + fsqrt (lit 1 + lit 4 * as1 s * as1 s)) / lit 2 in
  let zeta := nscal E ((- (as1 s - lit 1)) / s2) (ninv E z2 (az1 s)) in
  let y2 := nretr E z2 zeta in
  let gfy2 := ngrad E y2 in
  let isstop := stopped (S (atime s))
       (mkAm (ax1 s) (ax2 s) (af1 s) (af2 s) (agf1 s) (ay1 s) (agfy1 s) (az1 s) fz2 (as1 s)
             (andir0 s) (andir1 s) (aada s) (aacc s) (ainit s) inity (aiter s) (astop s)
             (S (atime s))) in
  mkAm (ax1 s) (ax2 s) (af1 s) (af2 s) (agf1 s) y2 gfy2 z2 fz2 s2
       (andir0 s) (andir1 s) (aada s) (aacc s) (ainit s) inity (S (aiter s)) isstop
       (S (atime s)).

(** AManPG.cpp 187-199: choosing the next safeguard iterate. *)
Definition am_choose (s : amst) : amst :=
  let s := if negb (aiter s =? 0)%nat && (af2 s <? afz2 s) then
             mkAm (ax1 s) (ax2 s) (af1 s) (af2 s) (agf1 s) (ax2 s) (ngrad E (ax2 s)) (ax2 s)
                  (afz2 s) (lit 1) (andir0 s) (andir1 s) (aada s) (aacc s) (ainit s) (ainity s)
                  (aiter s) (astop s) (atime s)
           else s in
  mkAm (az1 s) (ax2 s) (nf E (az1 s)) (af2 s) (ngrad E (az1 s)) (ay1 s) (agfy1 s) (az1 s)
       (afz2 s) (as1 s) (andir0 s) (andir1 s) (aada s) (aacc s) (ainit s) (ainity s)
       (aiter s) (astop s) (atime s).

(** How the safeguard ends: break (156, 184), continue (161), or on to the accelerated step. *)
Inductive sgres := SgLeave (s : amst) | SgRetry (s : amst) | SgOk (s : amst).

(** AManPG.cpp 136-199: the safeguard. *)
Definition am_safeguard (lf : nat) (s : amst) : option sgres :=
  let '(eta1, init) :=
    nprox E (ax1 s) (agf1 s) (aada s) (fst (aacc s)) (snd (aacc s)) (ainit s) in
  let ndir1 := fsqrt (nmet E (ax2 s) eta1 eta1) in
  let ndir0 := if andir0 s =? lit 0 then ndir1 else andir0 s in
  let slope := nmet E (ax1 s) (agf1 s) eta1 in
  match pg_linesearch A E P lf (ax1 s) eta1 (af1 s) slope with
  | None => None
  | Some (step, x2, f2, ok) =>
      let s' ada acc time :=
        mkAm (ax1 s) x2 (af1 s) f2 (agf1 s) (ay1 s) (agfy1 s) (az1 s) (afz2 s) (as1 s)
             ndir0 ndir1 ada acc init (ainity s) (aiter s) (astop s) time in
      if negb ok then
        if sm_floor A (aacc s) then Some (SgLeave (s' (aada s) (aacc s) (S (atime s))))
        else Some (SgRetry (s' (aada s) (sm_shrink A (aacc s)) (S (atime s))))
      else
        let ada := pg_ada A P (aada s) step in
        if fbad f2 then Some (SgLeave (s' ada (aacc s) (S (atime s))))
        else Some (SgOk (am_choose (s' ada (aacc s) (atime s))))
  end.

(** AManPG.cpp 134-241: one pass of the loop. *)
Definition am_pass (lf : nat) (s : amst) : option (next amst) :=
  if (aiter s mod pGap P =? 0)%nat then
    match am_safeguard lf s with
    | None => None
    | Some (SgLeave s') => Some (Leave s')
    | Some (SgRetry s') => Some (Again s')
    | Some (SgOk s') => Some (Again (am_step s'))
    end
  else Some (Again (am_step s)).

(** AManPG.cpp 132. *)
Definition am_going (s : amst) : bool :=
  (negb (astop s) && (aiter s <? pMax P)%nat) || (aiter s <? pMin P)%nat.

Inductive amres := AmOut | AmUB | AmEnd (s : amst).

(** AManPG::Run, AManPG.cpp 132-242.  iter % SGIterGap with SGIterGap == 0 is undefined. *)
Fixpoint am_loop (lf fuel : nat) (s : amst) : amres :=
  match fuel with
  | O => AmOut
  | S fuel =>
      if am_going s then
        if (pGap P =? 0)%nat then AmUB
        else match am_pass lf s with
             | None => AmOut
             | Some (Leave s') => AmEnd s'
             | Some (Again s') => am_loop lf fuel s'
             end
      else AmEnd s
  end.

(** AManPG.cpp 98-129. fz2 is whatever the member holds (it is not read while iter == 0). *)
Definition am_start (x1 x2 : X) (ada : F) (acc : F * F) (init inity : ND E) (fz : F) : amst :=
  let f1 := nf E x1 in
  let g := ngrad E x1 in
  let s := mkAm x1 x2 f1 f1 g x1 g x1 fz (lit 1) (lit 0) (lit 1) ada acc init inity 0 false 0 in
  mkAm x1 x2 f1 f1 g x1 g x1 fz (lit 1) (lit 0) (lit 1) ada acc init inity 0 (stopped 0 s) 0.

Definition am_run (lf fuel : nat) (x1 x2 : X) (ada : F) (acc : F * F) (init inity : ND E)
    (fz : F) : amres :=
  am_loop lf fuel (am_start x1 x2 ada acc init inity fz).

(** The state after [k] passes of the loop, if it is reached. *)
Fixpoint am_at (lf k : nat) (s : amst) : option amst :=
  match k with
  | O => Some s
  | S k => match am_at lf k s with
           | Some s' => if am_going s' then
                          match am_pass lf s' with Some (Again s'') => Some s'' | _ => None end
                        else None
           | None => None
           end
  end.
End apg.

Arguments ax1 {A E}. Arguments ax2 {A E}. Arguments af1 {A E}. Arguments af2 {A E}.
Arguments agf1 {A E}. Arguments ay1 {A E}. Arguments agfy1 {A E}. Arguments az1 {A E}.
Arguments afz2 {A E}. Arguments as1 {A E}. Arguments andir0 {A E}. Arguments andir1 {A E}.
Arguments aada {A E}. Arguments aacc {A E}. Arguments ainit {A E}. Arguments ainity {A E}.
Arguments aiter {A E}. Arguments astop {A E}. Arguments atime {A E}. Arguments mkAm {A E}.
Arguments SgLeave {A E}. Arguments SgRetry {A E}. Arguments SgOk {A E}.
Arguments AmOut {A E}. Arguments AmUB {A E}. Arguments AmEnd {A E}.

(** ** The subgradient line search method *)
Section sub.
Context (A : arith).
Notation F := (F A).
Local Open Scope arith_scope.
Notation lit q := (@fq A q).

Record subenv := {
  SX : Type; ST : Type;
  sf : SX -> F;                                  (* Prob->f *)
  sgrad : SX -> ST;                              (* Prob->Grad *)
  smet : SX -> ST -> ST -> F;                    (* Mani->Metric *)
  sscal : F -> ST -> ST;                         (* Mani->ScalarTimesVector *)
  sretr : SX -> ST -> SX;                        (* Mani->Retraction *)
  sdiff : SX -> ST -> SX -> ST -> ST;            (* Mani->DiffRetraction(x1, eta2, x2, eta1) *)
  sinvt : SX -> ST -> SX -> ST -> ST;            (* Mani->InverseVectorTransport *)
  sbeta : SX -> ST -> F;                         (* Mani->Beta *)
  shullP : SX -> list ST -> ST * F;              (* MinPNormConHull(.., this, Hv, minPv): the
                                                    vector and its squared P norm *)
  shull : SX -> list ST -> ST * F                (* MinPNormConHull(.., nullptr, nullptr, ..) *)
}.

Record subpar := {
  uMax : nat; uMin : nat; uLen : nat;            (* Max_Iteration, Min_Iteration, Lengthgfs *)
  uTol : F; uMinEps : F; uThEps : F; uThDel : F;
  uAlpha : F; uBeta : F; uMinstep : F; uMaxstep : F; uLamLow : F
}.
Context (E : subenv) (P : subpar).
Notation X := (SX E). Notation T := (ST E).

Inductive lsub := NOCURVATURE | MINSTEP | MAXSTEP | SUCCESS.

(** Members that survive a pass.  [undir1] is [None] as long as nothing has been assigned to
    the member ndir1: neither the constructors nor Run (lines 6-38) do so.  [uHv] is the action
    of the current Hessian approximation (HvSub 313-317, or the quasi-Newton update). *)
Record subst := mkSub {
  ux1 : X; ux2 : X; uf1 : F; uf2 : F; ugf1 : T; ugf2 : T; ueta1 : T; ueta2 : T; uminPv : T;
  undir0 : F; undir1 : option F; ustep : F; uEps : F; uDel : F; uHv : T -> T;
  uiter : nat; ustop : bool; ustat : lsub
}.

(** SolversNSMSubLS::h 400-406 and f2 = h(). *)
Definition sub_h (s : subst) (step : F) : subst :=
  let eta2 := sscal E step (ueta1 s) in
  let x2 := sretr E (ux1 s) eta2 in
  mkSub (ux1 s) x2 (uf1 s) (sf E x2) (ugf1 s) (ugf2 s) (ueta1 s) eta2 (uminPv s)
        (undir0 s) (undir1 s) step (uEps s) (uDel s) (uHv s) (uiter s) (ustop s) (ustat s).
(** SolversNSMSubLS::dh 408-415. *)
Definition sub_dh (s : subst) : subst * F :=
  let g := sgrad E (ux2 s) in
  (mkSub (ux1 s) (ux2 s) (uf1 s) (uf2 s) (ugf1 s) g (ueta1 s) (ueta2 s) (uminPv s)
        (undir0 s) (undir1 s) (ustep s) (uEps s) (uDel s) (uHv s) (uiter s) (ustop s) (ustat s),
   smet E (ux2 s) g (sdiff E (ux1 s) (ueta2 s) (ux2 s) (ueta1 s))).
Definition sub_status (s : subst) (st : lsub) : subst :=
  mkSub (ux1 s) (ux2 s) (uf1 s) (uf2 s) (ugf1 s) (ugf2 s) (ueta1 s) (ueta2 s) (uminPv s)
        (undir0 s) (undir1 s) (ustep s) (uEps s) (uDel s) (uHv s) (uiter s) (ustop s) st.
Definition sub_setstep (s : subst) (step : F) : subst :=
  mkSub (ux1 s) (ux2 s) (uf1 s) (uf2 s) (ugf1 s) (ugf2 s) (ueta1 s) (ueta2 s) (uminPv s)
        (undir0 s) (undir1 s) step (uEps s) (uDel s) (uHv s) (uiter s) (ustop s) (ustat s).

(** SolversNSMSubLS::Increasing 281-311: [times] counts down from 10. *)
Fixpoint increasing (times : nat) (neta1 Png hb a b : F) (s : subst) : subst :=
  match times with
  | O => s
  | S times =>
      let (s, d) := sub_dh s in
      if d + uAlpha P * Png <? lit 0 then
        let s := sub_h s ((a + b) / lit 2) in
        let ht := uf2 s - uf1 s + uAlpha P * uEps s / neta1 * Png in
        if hb >? ht then increasing times neta1 Png hb (ustep s) b s
        else increasing times neta1 Png hb a (ustep s) s
      else s
  end.

(** SolversNSMSubLS::GetSearchDir 229-279: [k] rounds remain. *)
Fixpoint gsd_loop (k : nat) (gfs : list T) (s : subst) : subst :=
  match k with
  | O => s
  | S k =>
      let '(v, Png) := shullP E (ux1 s) gfs in
      let eta1 := sscal E (lit (-1)) (uHv s v) in
      let '(v, nv) :=
        if fsqrt Png >? uDel s * uLamLow P then (v, fsqrt (smet E (ux1 s) v v))
        else let '(w, q) := shull E (ux1 s) gfs in (w, fsqrt q) in
      let s := mkSub (ux1 s) (ux2 s) (uf1 s) (uf2 s) (ugf1 s) (ugf2 s) eta1 (ueta2 s) v
        (undir0 s) (undir1 s) (ustep s) (uEps s) (uDel s) (uHv s) (uiter s) (ustop s) (ustat s) in
      if nv <=? uDel s then s
      else
        let nd := fsqrt (smet E (ux1 s) eta1 eta1) in
        let s := mkSub (ux1 s) (ux2 s) (uf1 s) (uf2 s) (ugf1 s) (ugf2 s) eta1 (ueta2 s) v
          (undir0 s) (Some nd) (ustep s) (uEps s) (uDel s) (uHv s) (uiter s) (ustop s) (ustat s) in
        let s := sub_h s (uEps s / nd) in
        let hb := uf2 s - uf1 s + uAlpha P * ustep s * Png in
        if hb <=? lit 0 then s
        else
          let s := increasing 10 nd Png hb (lit 0) (ustep s) s in
          let w := sscal E (lit 1 / sbeta E (ux1 s) (ueta2 s))
                         (sinvt E (ux1 s) (ueta2 s) (ux2 s) (ugf2 s)) in
          gsd_loop k (gfs ++ [w]) s
  end.
Definition sub_dir (s : subst) : subst := gsd_loop (uLen P - 1) [ugf1 s] s.

(** SolversNSMSubLS::ZoomLP 353-398. *)
Fixpoint zoom_lp (fuel times : nat) (a b slope : F) (s : subst) : option subst :=
  match fuel with
  | O => None
  | S fuel =>
      let step := (a + b) / lit 2 in
      if step <? uMinstep P then
        Some (fst (sub_dh (sub_status (sub_setstep s step) MINSTEP)))
      else
        let s := sub_h s step in
        if uf2 s - uf1 s - uAlpha P * slope * ustep s >? lit 0 then
          zoom_lp fuel (S times) a step slope s
        else
          let (s, d) := sub_dh s in
          if d >=? uBeta P * slope then Some s
          else if (30 <=? times)%nat then Some (sub_status s NOCURVATURE)
          else zoom_lp fuel (S times) step b slope s
  end.

(** SolversNSMSubLS::LinesearchWolfeLipschitz 319-351, the loop. *)
Fixpoint wolfe_lp (fuel : nat) (pre slope : F) (s : subst) : option subst :=
  match fuel with
  | O => None
  | S fuel =>
      let s := sub_h s (ustep s) in
      if uf2 s - uf1 s - uAlpha P * slope * ustep s >? lit 0 then
        zoom_lp fuel 0 pre (ustep s) slope s
      else
        let (s, d) := sub_dh s in
        if d >=? uBeta P * slope then Some s
        else
          let pre := ustep s in
          let step := if lit 2 * ustep s <? uMaxstep P then lit 2 * ustep s else uMaxstep P in
          let s := sub_setstep s step in
          if step =? uMaxstep P then Some s else wolfe_lp fuel pre slope s
  end.
Definition sub_linesearch (fuel : nat) (slope : F) (s : subst) : option subst :=
  match wolfe_lp fuel (lit 0) slope (sub_setstep (sub_status s SUCCESS) (lit 1)) with
  | None => None
  | Some s =>
      let s := if ustep s <=? uMinstep P then sub_status s MINSTEP else s in
      Some (if ustep s >=? uMaxstep P then sub_status s MAXSTEP else s)
  end.

(** Lines 58-61. *)
Fixpoint shrink_del (fuel : nat) (nd del : F) : option F :=
  match fuel with
  | O => None
  | S fuel => if fabs nd <? del then shrink_del fuel nd (del * uThDel P) else Some del
  end.

(** Lines 50-62: the new Eps and Del. *)
Definition sub_shrink (fuel : nat) (nd eps del : F) : option (F * F) :=
  let eps := eps * uThEps P in
  let eps := if eps >? uMinEps P then eps else uMinEps P in
  if eps >? uMinEps P then Some (eps, del * uThDel P)
  else option_map (pair eps) (shrink_del fuel nd del).

(** IsStopped and UpdateData are arbitrary functions of the state; UpdateData (RBFGSSub,
    LRBFGSSub) changes the Hessian approximation only. *)
Context (stopped : subst -> bool) (update : subst -> T -> T).

Inductive subres := SubOut | SubUB | SubShrink (s : subst) | SubIter (s : subst).

(** One pass of the loop of SolversNSMSubLS::Run, lines 43-108: [SubShrink] when it ends with
    the continue of line 65, [SubIter] when it makes an iteration, [SubUB] when it reads ndir1
    before anything was assigned to it. *)
Definition sub_pass (fuel : nat) (s : subst) : subres :=
  let s := sub_dir s in
  match undir1 s with
  | None => SubUB
  | Some nd =>
      let isstop := stopped s in
      if (fabs nd <=? uDel s) || (fabs nd <=? uTol P) then
        match sub_shrink fuel nd (uEps s) (uDel s) with
        | None => SubOut
        | Some (eps, del) =>
            SubShrink
              (mkSub (ux1 s) (ux2 s) (uf1 s) (uf2 s) (ugf1 s) (ugf2 s) (ueta1 s) (ueta2 s)
                 (uminPv s) (undir0 s) (undir1 s) (ustep s) eps del (uHv s) (uiter s)
                 isstop (ustat s))
        end
      else
        match sub_linesearch fuel (smet E (ux1 s) (uminPv s) (ueta1 s)) s with
        | None => SubOut
        | Some s =>
            let H := update s in
            SubIter
              (mkSub (ux2 s) (ux1 s) (uf2 s) (uf1 s) (ugf2 s) (ugf1 s) (ueta1 s) (ueta2 s)
                 (uminPv s) (undir0 s) (undir1 s) (ustep s) (uEps s) (uDel s) H
                 (S (uiter s)) isstop (ustat s))
        end
  end.

(** Line 41. *)
Definition sub_going (s : subst) : bool :=
  (uiter s <? uMax P)%nat
  && (negb (ustop s) || (uiter s <? uMin P)%nat || (uEps s >? uMinEps P))
  && match ustat s with SUCCESS | MAXSTEP => true | _ => false end.

Inductive subend := EndFuel | EndUB | EndOk (s : subst).

(** The loop, with fuel for the passes and, separately, for the loops inside a pass. *)
Fixpoint sub_loop (lf fuel : nat) (s : subst) : subend :=
  match fuel with
  | O => EndFuel
  | S fuel =>
      if sub_going s then
        match sub_pass lf s with
        | SubOut => EndFuel
        | SubUB => EndUB
        | SubShrink s' | SubIter s' => sub_loop lf fuel s'
        end
      else EndOk s
  end.

(** Lines 8-38.  eta1, eta2, minPv, x2, gf2 and the step are whatever the members hold; [Hv]
    is the initial Hessian approximation; [nd] the value of the member ndir1, if any. *)
Definition sub_start (x1 x2 : X) (g2 e1 e2 v : T) (nd : option F) (step eps del : F)
    (Hv : T -> T) : subst :=
  let f1 := sf E x1 in
  let g := sgrad E x1 in
  mkSub x1 x2 f1 (f1 + lit 1) g g2 e1 e2 v (fsqrt (smet E x1 g g)) nd step eps del Hv
        0 false SUCCESS.
End sub.

Arguments SX {A}. Arguments ST {A}. Arguments sf {A}. Arguments sgrad {A}. Arguments smet {A}.
Arguments sscal {A}. Arguments sretr {A}. Arguments sdiff {A}. Arguments sinvt {A}.
Arguments sbeta {A}. Arguments shullP {A}. Arguments shull {A}.
Arguments uMax {A}. Arguments uMin {A}. Arguments uLen {A}. Arguments uTol {A}.
Arguments uMinEps {A}. Arguments uThEps {A}. Arguments uThDel {A}. Arguments uAlpha {A}.
Arguments uBeta {A}. Arguments uMinstep {A}. Arguments uMaxstep {A}. Arguments uLamLow {A}.
Arguments ux1 {A E}. Arguments ux2 {A E}. Arguments uf1 {A E}. Arguments uf2 {A E}.
Arguments ugf1 {A E}. Arguments ugf2 {A E}. Arguments ueta1 {A E}. Arguments ueta2 {A E}.
Arguments uminPv {A E}. Arguments undir0 {A E}. Arguments undir1 {A E}. Arguments ustep {A E}.
Arguments uEps {A E}. Arguments uDel {A E}. Arguments uHv {A E}. Arguments uiter {A E}.
Arguments ustop {A E}. Arguments ustat {A E}. Arguments mkSub {A E}.
Arguments SubOut {A E}. Arguments SubUB {A E}. Arguments SubShrink {A E}.
Arguments SubIter {A E}. Arguments EndFuel {A E}. Arguments EndUB {A E}. Arguments EndOk {A E}.
