(** Model of the main loop of the line-search based solvers, SolversSMLS::Run
    (Solvers/SolversSMLS.cpp 7-154), of InitialStepSize (199-305) and of
    SolversSM::IsStopped (Solvers/SolversSM.cpp 54-73). *)
From Coq Require Import QArith List Bool.
From Verif Require Import Arith LineSearchModel.
Import ListNotations.

(** Stop_Criterion, Solvers/SolversSM.h; LSAlgoSM and InitStepsizeSetSM, SolversSMLS.h 34, 55. *)
Inductive stopcrit := SM_FUN_REL | SM_GRAD_F | SM_GRAD_F_0.
Inductive lsalgo := LSSM_ARMIJO | LSSM_WOLFE | LSSM_STRONGWOLFE | LSSM_EXACT | LSSM_INPUTFUN (pure : bool).
Inductive inittype := ONESTEP | BBSTEP | QUADINT | QUADINTMOD | EXTRBBSTEP.

Section run.
Context (A : arith).
Notation F := (F A).
Local Open Scope arith_scope.
Notation lit q := (@fq A q).
Context (G : geometry A).
Notation P := (P A G).
Notation T := (T A G).

(** Parameters read by the loop. [recording]: Verbose >= ITERRESULT. *)
Record rparams := {
  lsp : lsparams A;
  algo : lsalgo;
  itype : inittype;
  crit : stopcrit;
  Tolerance : F; TimeBound : F; Accuracy : F; Finalstepsize : F; Initstepsize : F;
  PreFunsAccuracy : F; BBratio : F;
  Max_Iteration : nat; Min_Iteration : nat; Num_pre_funs : nat; Num_pre_BB : nat;
  recording : bool
}.

Section loop.
(** Solver-specific state (memory of quasi-Newton methods, ...). *)
Context {X : Type}.

Record rs := mkRs {
  rx1 : P; rx2 : P; rf1 : F; rf2 : F; rgf1 : T; rgf2 : T; reta1 : T; reta2 : T;
  rngf0 : F; rngf1 : F; rngf2 : F;
  rss : F; rnewslope : F; rslopepre : F; rstatus : lsstatus;
  riter : nat; rpre : list F; rpreBB : list F; rnonmono : bool; raux : X;
  (* histories: funSeries, gradSeries, initialstepsize, acceptedstepsize, one cell per
     iteration; timeSeries is written at the same indices as funSeries and is left out *)
  hfun : list (option F); hgrad : list (option F); hinit : list (option F); hacc : list (option F)
}.

(** The virtual functions and the environment. *)
Record env := {
  getdir : rs -> T * X;             (* GetSearchDir(): eta1 *)
  update : rs -> X;                 (* UpdateData() *)
  bbdata : rs -> F * F * F;         (* <s,s>, <s,y>, <y,y> of InitialStepSize *)
  elapsed : nat -> F;               (* seconds at the stopping test of iteration k *)
  stopptr : option (rs -> bool);    (* StopPtr *)
  lsinput : rs -> F -> F -> F       (* LinesearchInput(.., stepsize, initialslope, ..) *)
}.

Inductive outcome := Done (s : rs) | OutOfBounds | NoAnswer.

(** array[i] = v: outside the array the behaviour is undefined. *)
Fixpoint store (l : list (option F)) (i : nat) (v : F) : option (list (option F)) :=
  match l, i with
  | [], _ => None
  | _ :: l, O => Some (Some v :: l)
  | x :: l, S i => match store l i v with Some l' => Some (x :: l') | None => None end
  end.

Context (q : rparams) (e : env).

(** SolversSM::IsStopped, SolversSM.cpp 54-73. [fprev], [fnew] are f1, f2 at that point. *)
Definition criterion (fprev fnew ng ng0 : F) (iter : nat) : bool :=
  match crit q with
  | SM_FUN_REL => (fabs ((fprev - fnew) / (fabs fprev + lit 1)) <? Tolerance q) && Nat.ltb 0 iter
  | SM_GRAD_F => ng <? Tolerance q
  | SM_GRAD_F_0 => (ng / ng0) <? Tolerance q
  end.

Definition is_stopped (s : rs) : bool :=
  if elapsed e (riter s) >? TimeBound q then true
  else match stopptr e with
       | Some f => f s
       | None => criterion (rf1 s) (rf2 s) (rngf2 s) (rngf0 s) (riter s)
       end.

(** 226-246, 269-289: the choice between the two BB step sizes. *)
Definition bb_choose (BB1 BB2 : F) (pre : list F) : F :=
  if BBratio q =? lit 0 then BB1
  else if (BBratio q =? lit 1) && Nat.eqb (Num_pre_BB q) 0 then BB2
  else
    let m := fold_left (fun m v => if m >? v then v else m) (firstn (Num_pre_BB q) pre) BB2 in
    if m / BB1 <? BBratio q then m else BB1.

(** std::list push_front, then pop_back if longer than [n]. *)
Definition push_keep (v : F) (l : list F) (n : nat) : list F :=
  let l1 := v :: l in if Nat.ltb n (length l1) then removelast l1 else l1.

(** InitialStepSize, 199-305. Returns the step size and pre_BBs. *)
Definition init_step (s : rs) : F * list F :=
  if Nat.eqb (riter s) 0 then (Initstepsize q, rpreBB s)
  else
    let front := hd (lit 0) (rpre s) in
    let quad := lit 2 * (rf1 s - front) / rslopepre s in
    let '(t, bbs) :=
      match itype q with
      | QUADINTMOD =>
          let t := lit (202#100) * (rf1 s - front) / rslopepre s in
          (if t >? lit 1 then lit 1 else t, rpreBB s)
      | BBSTEP | EXTRBBSTEP =>
          let '(sMs, sMy, yMy) := bbdata e s in
          let BB1 := sMs / sMy in
          let BB2 := sMy / yMy in
          let bbs := push_keep (if BB2 <? fepsv then Initstepsize q / rngf1 s else BB2)
                               (rpreBB s) (Num_pre_BB q) in
          (bb_choose BB1 BB2 bbs, bbs)
      | ONESTEP => (lit 1, rpreBB s)
      | QUADINT => (quad, rpreBB s)
      end in
    let t1 := if t <? quad / lit 100 then quad else t in
    (if t1 <? fepsv then Initstepsize q / rngf1 s else t1, bbs).

Definition ctx_of (s : rs) (eta : T) (slope len : F) : lsctx A G :=
  {| lx1 := rx1 s; leta1 := eta; lf1 := rf1 s; lngf1 := rngf1 s; lslope := slope; llength := len |}.

Definition ls_of (s : rs) (t : F) : ls A G :=
  mkLs A G t (reta2 s) (rx2 s) (rf2 s) (rgf2 s) (rnewslope s) (rstatus s) 0.

(** 58-91: fixed final step, user line search or one of the library's. *)
Definition search (fuel : nat) (s : rs) (eta : T) (slope t : F) : option (ls A G) :=
  let c := ctx_of s eta slope t in
  let p := lsp q in
  if rngf1 s / (rngf0 s + Tolerance q) <? Accuracy q then
    let t1 := if Finalstepsize q >? lit 0 then Finalstepsize q else t in
    Some (grad2 A G (h A G c (ls_of s t1)))
  else
    match algo q with
    | LSSM_ARMIJO => armijo A G p c fuel (rpre s) (Num_pre_funs q) (ls_of s t)
    | LSSM_WOLFE => wolfe A G p c fuel (ls_of s t)
    | LSSM_STRONGWOLFE => strong_wolfe A G p c fuel (ls_of s t)
    | LSSM_EXACT => exact A G p c fuel (ls_of s t)
    | LSSM_INPUTFUN pure =>
        let u := lsinput e s t slope in
        let t1 := if u <? fepsv then t else u in
        if pure then Some (grad2 A G (h A G (ctx_of s eta slope t1) (ls_of s t1)))
        else armijo A G p (ctx_of s eta slope t1) fuel (rpre s) (Num_pre_funs q) (ls_of s t1)
    end.

(** 137-139: pre_funs.push_front(f1); drop the oldest. *)
Definition push_fun (v : F) (l : list F) (nonmono : bool) : list F :=
  let l1 := v :: l in
  if (Nat.ltb (Num_pre_funs q) (length l1) || negb nonmono) && Nat.ltb 1 (length l1)
  then removelast l1 else l1.

(** 49-56: direction, initial step size and its record. *)
Definition with_dir (s : rs) (eta : T) (aux : X) (t : F) (bbs : list F) (hi : list (option F)) : rs :=
  mkRs (rx1 s) (rx2 s) (rf1 s) (rf2 s) (rgf1 s) (rgf2 s) eta (reta2 s)
       (rngf0 s) (rngf1 s) (rngf2 s) t (rnewslope s) (rslopepre s) (rstatus s)
       (riter s) (rpre s) bbs (rnonmono s) aux (hfun s) (hgrad s) hi (hacc s).

(** The line search's results stored in the solver. *)
Definition with_search (s : rs) (l : ls A G) : rs :=
  mkRs (rx1 s) (x2 _ _ l) (rf1 s) (f2 _ _ l) (rgf1 s) (gf2 _ _ l) (reta1 s) (eta2 _ _ l)
       (rngf0 s) (rngf1 s) (rngf2 s) (ss _ _ l) (newslope _ _ l) (rslopepre s) (status _ _ l)
       (riter s) (rpre s) (rpreBB s) (rnonmono s) (raux s) (hfun s) (hgrad s) (hinit s) (hacc s).

(** 104: iter++. *)
Definition with_iter (s : rs) : rs :=
  mkRs (rx1 s) (rx2 s) (rf1 s) (rf2 s) (rgf1 s) (rgf2 s) (reta1 s) (reta2 s)
       (rngf0 s) (rngf1 s) (rngf2 s) (rss s) (rnewslope s) (rslopepre s) (rstatus s)
       (S (riter s)) (rpre s) (rpreBB s) (rnonmono s) (raux s) (hfun s) (hgrad s) (hinit s) (hacc s).

(** 108-111: UpdateData() and ngf2. *)
Definition with_update (s : rs) : rs :=
  mkRs (rx1 s) (rx2 s) (rf1 s) (rf2 s) (rgf1 s) (rgf2 s) (reta1 s) (reta2 s)
       (rngf0 s) (rngf1 s) (fsqrt (metric A G (rx2 s) (rgf2 s) (rgf2 s))) (rss s) (rnewslope s)
       (rslopepre s) (rstatus s)
       (riter s) (rpre s) (rpreBB s) (rnonmono s) (update e s) (hfun s) (hgrad s) (hinit s) (hacc s).

(** 134-135 *)
Definition next_nonmono (s : rs) : bool :=
  if rngf2 s / (rngf0 s + Tolerance q) <=? PreFunsAccuracy q then true else rnonmono s.

(** 129-142: swap x1/x2 and gf1/gf2, update pre_funs, f1, ngf1, initialslopepre. *)
Definition switch (s : rs) (slope : F) (a b d : list (option F)) : rs :=
  mkRs (rx2 s) (rx1 s) (rf2 s) (rf2 s) (rgf2 s) (rgf1 s) (reta1 s) (reta2 s)
       (rngf0 s) (rngf2 s) (rngf2 s) (rss s) (rnewslope s) slope (rstatus s)
       (riter s) (push_fun (rf1 s) (rpre s) (next_nonmono s)) (rpreBB s) (next_nonmono s) (raux s)
       a b (hinit s) d.

(** 122-126: the records written at the end of an iteration. *)
Definition record (s : rs) : option (list (option F) * list (option F) * list (option F)) :=
  if recording q then
    match store (hfun s) (riter s) (rf2 s), store (hgrad s) (riter s) (rngf2 s),
          store (hacc s) (riter s) (rss s) with
    | Some a, Some b, Some d => Some (a, b, d)
    | _, _, _ => None
    end
  else Some (hfun s, hgrad s, hacc s).

(** The rest of a pass after the line search, 98-142. *)
Definition after_search (s : rs) (slope : F) : (rs * bool) + outcome :=
  if fbad (rf2 s) then inr (Done s)
  else
    match record (with_update (with_iter s)) with
    | None => inr OutOfBounds
    | Some (a, b, d) =>
        inl (switch (with_update (with_iter s)) slope a b d, is_stopped (with_update (with_iter s)))
    end.

(** One pass through the loop body, 49-142: [inl] continues with the new state and isstop,
    [inr] leaves the loop. *)
Definition body (fuel : nat) (s : rs) : (rs * bool) + outcome :=
  let '(eta, aux) := getdir e s in
  let '(t, bbs) := init_step s in
  match (if recording q then store (hinit s) (S (riter s)) t else Some (hinit s)) with
  | None => inr OutOfBounds
  | Some hi =>
      match search fuel (with_dir s eta aux t bbs hi) eta (metric A G (rx1 s) (rgf1 s) eta) t with
      | None => inr NoAnswer
      | Some l => after_search (with_search (with_dir s eta aux t bbs hi) l) (metric A G (rx1 s) (rgf1 s) eta)
      end
  end.

(** The loop condition of line 47. *)
Definition goes_on (s : rs) (isstop : bool) : bool :=
  ((negb isstop && Nat.ltb (riter s) (Max_Iteration q)) || Nat.ltb (riter s) (Min_Iteration q))
  && match rstatus s with SUCCESS => true | _ => false end.

(** [n] bounds the number of passes; [fuel] bounds the inner line-search loops. *)
Fixpoint loop (n fuel : nat) (s : rs) (isstop : bool) : outcome :=
  if goes_on s isstop then
    match n with
    | O => NoAnswer
    | S n => match body fuel s with
             | inl (s', b) => loop n fuel s' b
             | inr o => o
             end
    end
  else Done s.

(** 9-44: state before the loop. [eta0], [x20], [gf20], [bb0]: whatever the solver object
    holds from before. *)
Definition start (x0 : P) (x20 : P) (gf20 eta0 : T) (bb0 : list F) (ss0 : F) (aux0 : X) : rs :=
  let f := fobj A G x0 in
  let g := grad A G x0 in
  let ng := fsqrt (metric A G x0 g g) in
  let empty := repeat None (1 + Max_Iteration q) in
  let rec1 (v : F) := if recording q then Some v :: tl empty else empty in
  mkRs x0 x20 f f g gf20 eta0 eta0 ng ng ng ss0 (lit 0) (lit 0) SUCCESS 0 [] bb0 false aux0
       (rec1 f) (rec1 ng) (rec1 (lit 0)) (rec1 (lit 0)).

Definition run (n fuel : nat) (s : rs) : outcome := loop n fuel s (is_stopped s).

End loop.
End run.
