(** Model of the line searches of Solvers/SolversSMLS.cpp.

    Arithmetic is an arbitrary [arith]; the manifold and the problem are arbitrary functions.
    Assumption recorded in the trusted base: f, Grad, Retraction, ScalarTimesVector,
    DiffRetraction and Metric are functions of their arguments (no hidden state).
    Loops that the code does not bound carry a fuel argument; [None] is "fuel exhausted". *)
From Coq Require Import QArith List Bool.
From Verif Require Import Arith.
Import ListNotations.

(** Solvers/SolversSMLS.h 40: LSstatusSetSM. *)
Inductive lsstatus := NOCURVATURE | MINSTEPSIZE | MAXSTEPSIZE | NONEXACT | LSERROR | SUCCESS.

Section linesearch.
Context (A : arith).
Notation F := (F A).
Local Open Scope arith_scope.
Notation lit q := (@fq A q).

(** The manifold and the problem as seen by a line search. *)
Record geometry := {
  P : Type;                          (* points *)
  T : Type;                          (* tangent vectors *)
  scal : F -> T -> T;                (* Mani->ScalarTimesVector(x, a, v) *)
  retr : P -> T -> P;                (* Mani->Retraction(x, eta) *)
  fobj : P -> F;                     (* Prob->f *)
  grad : P -> T;                     (* Prob->Grad *)
  metric : P -> T -> T -> F;         (* Mani->Metric *)
  dretr : P -> T -> P -> T -> T      (* Mani->DiffRetraction(x, etax, y, xix, .., true) *)
}.

Context (G : geometry).

(** Parameters, SolversSMLS.h 107-140. *)
Record lsparams := {
  LS_alpha : F; LS_beta : F; LS_ratio1 : F; LS_ratio2 : F;
  Minstepsize : F; Maxstepsize : F
}.

(** What is fixed during one line search: x1, eta1, f1, ngf1, initialslope, initiallength. *)
Record lsctx := {
  lx1 : P G; leta1 : T G; lf1 : F; lngf1 : F; lslope : F; llength : F
}.

(** What a line search changes. *)
Record ls := mkLs {
  ss : F;            (* stepsize *)
  eta2 : T G;
  x2 : P G;
  f2 : F;
  gf2 : T G;
  newslope : F;
  status : lsstatus;
  nev : nat          (* number of calls of h *)
}.

Context (p : lsparams) (c : lsctx).
Notation f1 := (lf1 c).
Notation initialslope := (lslope c).
Notation initiallength := (llength c).
Notation alpha := (LS_alpha p).
Notation beta := (LS_beta p).

Definition set_ss (s : ls) (v : F) : ls := mkLs v (eta2 s) (x2 s) (f2 s) (gf2 s) (newslope s) (status s) (nev s).
Definition set_status (s : ls) (v : lsstatus) : ls := mkLs (ss s) (eta2 s) (x2 s) (f2 s) (gf2 s) (newslope s) v (nev s).
Definition set_newslope (s : ls) (v : F) : ls := mkLs (ss s) (eta2 s) (x2 s) (f2 s) (gf2 s) v (status s) (nev s).

(** SolversSMLS::h, 463-469, with the assignment [f2 = h()]. *)
Definition h (s : ls) : ls :=
  let e := scal G (ss s) (leta1 c) in
  let y := retr G (lx1 c) e in
  mkLs (ss s) e y (fobj G y) (gf2 s) (newslope s) (status s) (S (nev s)).

(** Prob->Grad(x2, &gf2). *)
Definition grad2 (s : ls) : ls :=
  mkLs (ss s) (eta2 s) (x2 s) (f2 s) (grad G (x2 s)) (newslope s) (status s) (nev s).

(** SolversSMLS::dh, 471-479, with the assignment [newslope = dh()]. *)
Definition dh (s : ls) : ls :=
  let g := grad G (x2 s) in
  mkLs (ss s) (eta2 s) (x2 s) (f2 s) g
       (metric G (x2 s) g (dretr G (lx1 c) (eta2 s) (x2 s) (leta1 c))) (status s) (nev s).

(** ** Armijo, 307-391 *)

(** 311-324: maximum of f1 and of pre_funs without its last element, at most
    Num_pre_funs of them.  (With an empty list the code compares two singular iterators;
    modelled as equal.) *)
Definition max_step (m : F) (v : F) : F := if m <? v then v else m.
Definition maxpref (pre : list F) (num : nat) : F :=
  fold_left max_step (firstn num (removelast pre)) f1.

(** The loop test of lines 329, 349, 361. *)
Definition armijo_fails (mp : F) (s : ls) : bool :=
  (mp - f2 s) <? ((- alpha) * initialslope * ss s).

(** 326-345, simple backtracking. *)
Fixpoint backtrack (fuel : nat) (mp : F) (s : ls) : option ls :=
  match fuel with
  | O => None
  | S k =>
      if armijo_fails mp s then
        let s1 := set_ss s (ss s * LS_ratio1 p) in
        if ss s1 <? Minstepsize p then Some (set_status s1 MINSTEPSIZE)
        else backtrack k mp (h s1)
      else Some s
  end.

(** 352-353, 373-374: clamp a candidate into [ratio1*pre, ratio2*pre]. *)
Definition clamp (t pre : F) : F :=
  let t1 := if t <? LS_ratio2 p * pre then t else LS_ratio2 p * pre in
  if t1 >? LS_ratio1 p * pre then t1 else LS_ratio1 p * pre.

(** 363-372: minimiser of the interpolating cubic. *)
Definition cubic_step (pre pre2 f2v f2pre : F) : F :=
  let a11 := lit 1 / pre / pre in
  let a12 := lit (-1) / pre2 / pre2 in
  let a21 := (- pre2) / pre / pre in
  let a22 := pre / pre2 / pre2 in
  let b1 := f2v - f1 - initialslope * pre in
  let b2 := f2pre - f1 - initialslope * pre2 in
  let cc := pre - pre2 in
  let a := (a11 * b1 + a12 * b2) / cc in
  let b := (a21 * b1 + a22 * b2) / cc in
  ((- b) + fsqrt (b * b - lit 3 * a * initialslope)) / lit 3 / a.

(** 361-388, polynomial interpolation. *)
Fixpoint interpolate (fuel : nat) (mp pre pre2 f2pre : F) (s : ls) : option ls :=
  match fuel with
  | O => None
  | S k =>
      if armijo_fails mp s then
        let s1 := set_ss s (clamp (cubic_step pre pre2 (f2 s) f2pre) pre) in
        if ss s1 <? Minstepsize p then Some (set_status s1 MINSTEPSIZE)
        else
          let s2 := h s1 in
          interpolate k mp (ss s1) pre (f2 s) s2
      else Some s
  end.

(** LinesearchArmijo, 307-391. *)
Definition armijo (fuel : nat) (pre : list F) (num : nat) (s0 : ls) : option ls :=
  let s := h (set_status s0 SUCCESS) in
  let mp := maxpref pre num in
  if LS_ratio2 p <=? LS_ratio1 p then
    match backtrack fuel mp s with
    | Some s1 => Some (dh s1)
    | None => None
    end
  else
    let ps := ss s in
    let '(s1, ps1, ps2, fp) :=
      if armijo_fails mp s then
        let t := (- initialslope) * ps * ps / lit 2 / (f2 s - f1 - initialslope * ps) in
        let sa := set_ss s (clamp t ps) in
        (h sa, ss sa, ps, f2 s)
      else (s, ps, lit 0, lit 0) in
    match interpolate fuel mp ps1 ps2 fp s1 with
    | Some s2 => Some (set_newslope (grad2 s2) finf)
    | None => None
    end.

(** ** Exact, 393-461 *)

(** 411-422; returns the state and the last t. The dh() of line 417 is evaluated there. *)
Fixpoint exact_inner (fuel : nat) (a1 dir sf1 sgf1 minstep t : F) (s : ls) : option (ls * F) :=
  match fuel with
  | O => None
  | S k =>
      if f2 s >? sf1 + alpha * t * sgf1 * dir then
        let t1 := t * LS_ratio1 p in
        let s1 := h (set_ss s (a1 + t1 * dir)) in
        if t1 * LS_ratio1 p <? minstep then
          let s2 := dh s1 in
          let s3 := if (fabs (newslope s2 / initialslope) >? lit (1#10)) &&
                       (f2 s2 >? f1 + alpha * ss s2 * lngf1 c)
                    then set_status s2 NONEXACT else s2 in
          Some (s3, t1)
        else exact_inner k a1 dir sf1 sgf1 minstep t1 s1
      else Some (s, t)
  end.

(** 405-449; [k] counts the remaining passes (times < 20). *)
Fixpoint exact_outer (fuel : nat) (k : nat) (a1 sgf1 sf1 B minstep : F) (s : ls) : option ls :=
  match k with
  | O => Some s
  | S k =>
      let dir := (- sgf1) / B in
      let s1 := h (set_ss s (a1 + lit 1 * dir)) in
      match exact_inner fuel a1 dir sf1 sgf1 minstep (lit 1) s1 with
      | None => None
      | Some (s2, t) =>
          match status s2 with
          | NONEXACT => Some s2
          | _ =>
              let sv := t * dir in
              let s3 := dh s2 in
              if fabs sv <? minstep then Some s3
              else if fabs (newslope s3 / initialslope) <? lit (1#1000000) then Some s3
              else
                let y := newslope s3 - sgf1 in
                let B' := if y / sv >? lit 0 then y / sv else B in
                exact_outer fuel k (a1 + t * dir) (newslope s3) (f2 s3) B' minstep s3
          end
      end
  end.

Definition exact (fuel : nat) (s0 : ls) : option ls :=
  let minstep := lit 100 * fsqrt fepsv in
  let sgf1 := initialslope in
  match exact_outer fuel 20 (lit 0) sgf1 f1 (fabs (sgf1 / initiallength)) minstep
                    (set_status s0 SUCCESS) with
  | None => None
  | Some s =>
      let s1 := if ss s <=? Minstepsize p then set_status s MINSTEPSIZE else s in
      Some (if ss s1 >=? Maxstepsize p then set_status s1 MAXSTEPSIZE else s1)
  end.

(** ** Zoom, 519-564; [k] counts the remaining passes (times goes up to 10). *)
Fixpoint zoom (k : nat) (xlo fxlo xloslope xhi fxhi : F) (s : ls) : ls :=
  let xdiff := xhi - xlo in
  let xi := (- xloslope) * xdiff * xdiff / lit 2 / (fxhi - (fxlo + xloslope * xdiff)) in
  let xi1 := if xi <? xdiff * LS_ratio1 p then xdiff * LS_ratio1 p else xi in
  let xincr := if xi1 <? xdiff * LS_ratio2 p then xi1 else xdiff * LS_ratio2 p in
  let s1 := set_ss s (xlo + xincr) in
  match k with
  | O => set_status s1 LSERROR
  | S k =>
      let s2 := h s1 in
      if (f2 s2 >? f1 + alpha * ss s2 * initialslope) || (f2 s2 >=? fxlo) then
        if ss s2 <=? Minstepsize p then set_status s2 MINSTEPSIZE
        else zoom k xlo fxlo xloslope (ss s2) (f2 s2) s2
      else
        let s3 := dh s2 in
        if fabs (newslope s3) <=? (- beta) * initialslope then s3
        else
          let '(xhi', fxhi') :=
            if newslope s3 * (xhi - xlo) >=? lit 0 then (xlo, fxlo) else (xhi, fxhi) in
          if ss s3 <=? Minstepsize p then set_status s3 MINSTEPSIZE
          else zoom k (ss s3) (f2 s3) (newslope s3) xhi' fxhi' s3
  end.

(** ** StrongWolfe, 482-517 *)
Fixpoint sw_loop (fuel : nat) (pre fpre slopepre : F) (s : ls) : option ls :=
  match fuel with
  | O => None
  | S k =>
      let s1 := h s in
      if (f2 s1 >? f1 + alpha * ss s1 * initialslope) || (f2 s1 >=? fpre) then
        Some (zoom 9 pre fpre slopepre (ss s1) (f2 s1) s1)
      else
        let s2 := dh s1 in
        if fabs (newslope s2) <=? (- beta) * initialslope then Some s2
        else if newslope s2 >=? lit 0 then
          Some (zoom 9 (ss s2) (f2 s2) (newslope s2) pre fpre s2)
        else if ss s2 =? Maxstepsize p then Some (set_status s2 MAXSTEPSIZE)
        else
          let t := (- initialslope) * ss s2 * ss s2 / lit 2 / (f2 s2 - f1 - initialslope * ss s2) in
          let v := if lit (11#10) * ss s2 <? t then t else lit (11#10) * ss s2 in
          let v' := if v <? Maxstepsize p then v else Maxstepsize p in
          sw_loop k (ss s2) (f2 s2) (newslope s2) (set_ss s2 v')
  end.

Definition strong_wolfe (fuel : nat) (s0 : ls) : option ls :=
  sw_loop fuel (lit 0) fmaxv initialslope (set_status s0 SUCCESS).

(** ** Wolfe, 688-808 *)
Definition decr_ok (s : ls) : bool := f2 s <=? f1 + alpha * ss s * initialslope.
Definition decr_bad (s : ls) : bool := f2 s >? f1 + alpha * ss s * initialslope.
Definition low_slope (s : ls) : bool := newslope s <? beta * initialslope.

(** 705-716; [k] counts the remaining passes (break when times > 10, i.e. after 11).
    Returns the state, prestepsize and f2pre. *)
Fixpoint doubling (k : nat) (pre f2pre : F) (s : ls) : ls * F * F :=
  match k with
  | O => (s, pre, f2pre)
  | S k =>
      if decr_ok s && low_slope s && (ss s <? Maxstepsize p) then
        let v := if lit 2 * ss s <? Maxstepsize p then lit 2 * ss s else Maxstepsize p in
        let s1 := h (set_ss s v) in
        let s2 := if decr_ok s1 then dh s1 else s1 in
        doubling k (ss s) (f2 s) s2
      else (s, pre, f2pre)
  end.

(** 738-762; [k] counts the remaining passes. *)
Fixpoint bisect (k : nat) (lo diff flo fhi : F) (s : ls) : ls :=
  match k with
  | O => s
  | S k =>
      if (decr_bad s || low_slope s) && (diff >=? Minstepsize p) then
        let i0 := (- newslope s) * diff * diff / lit 2 / (fhi - (flo + newslope s * diff)) in
        let incr := if i0 <? lit (1#5) * diff then lit (1#5) * diff else i0 in
        let s1 := h (set_ss s (lo + incr)) in
        if decr_bad s1 then bisect k lo incr flo (f2 s1) s1
        else
          let s2 := dh s1 in
          if low_slope s2 then bisect k (ss s2) (diff - incr) (f2 s2) fhi s2
          else bisect k lo diff flo fhi s2
      else s
  end.

(** 785-805: the next trial step. *)
Definition wolfe_next (pre f2pre : F) (s : ls) : F :=
  let steptemp :=
    if ss s =? initiallength then
      (- initialslope) * initiallength * initiallength / lit 2 / (f2 s - f1 - initialslope * initiallength)
    else
      let n1 := lit 1 / ss s / ss s in
      let n2 := lit 1 / pre / pre in
      let n3 := (f2 s - f1 - ss s * initialslope) / (ss s - pre) in
      let n4 := (f2pre - f1 - pre * initialslope) / (ss s - pre) in
      let a := n1 * n3 - n2 * n4 in
      let b := (- pre) * n1 * n3 + ss s * n2 * n4 in
      let disc0 := b * b - lit 3 * a * initialslope in
      let disc := if disc0 <? lit 0 then lit 0 else disc0 in
      let t := if fabs a <? lit (1#10000000000) then (- initialslope) / lit 2 / b
               else ((- b) + fsqrt disc) / lit 3 / a in
      if t >? lit (1#2) * ss s then lit (1#2) * ss s else t in
  if steptemp <=? lit (1#100) * ss s then lit (1#100) * ss s else steptemp.

Fixpoint wolfe_loop (fuel : nat) (pre f2pre : F) (s : ls) : option ls :=
  match fuel with
  | O => None
  | S k =>
      let s1 := h s in
      if decr_ok s1 then
        let s2 := dh s1 in
        if low_slope s2 then
          let '(s3, pre3, f2pre3) := doubling 11 pre f2pre s2 in
          if ss s3 >=? Maxstepsize p then Some (set_status (grad2 s3) MAXSTEPSIZE)
          else if negb (ss s3 =? initiallength) && decr_bad s3 then
            let lo := if ss s3 <? pre3 then ss s3 else pre3 in
            let diff := fabs (pre3 - ss s3) in
            let '(flo, fhi) := if ss s3 <? pre3 then (f2 s3, f2pre3) else (f2pre3, f2 s3) in
            let s4 := bisect 11 lo diff flo fhi s3 in
            if low_slope s4 then Some (set_status (dh (h s4)) NOCURVATURE)
            else Some (set_status s4 SUCCESS)
          else Some (set_status s3 SUCCESS)
        else Some (set_status s2 SUCCESS)
      else if ss s1 <=? Minstepsize p then
        Some (set_status (dh (h (set_ss s1 (Minstepsize p)))) MINSTEPSIZE)
      else wolfe_loop k (ss s1) (f2 s1) (set_ss s1 (wolfe_next pre f2pre s1))
  end.

Definition wolfe (fuel : nat) (s0 : ls) : option ls :=
  wolfe_loop fuel (lit 0) (lit 0) (set_status s0 SUCCESS).

End linesearch.
