(** Model of the quasi-Newton updates: Solvers/LRBFGS.cpp, RBFGS.cpp, RWRBFGS.cpp,
    RBroydenFamily.cpp and RTRSR1.cpp.

    A tangent space is an arbitrary set of vectors with the operations of the manifold class;
    arithmetic is an arbitrary [arith].  There is one vector set and one metric for all points
    (coordinates in an orthonormal basis of each tangent space, the intrinsic representation).
    A LinearOPE is represented by the map it applies
    (Manifold::LinearOPEEta, Manifold.cpp 19-35: matrix times vector). *)
From Coq Require Import QArith List Bool Arith.
From Verif Require Import Arith.
Import ListNotations.

Section qn.
Context (A : arith).
Notation F := (F A).
Local Open Scope arith_scope.
Notation lit q := (@fq A q).

Record qspace := {
  QV : Type;
  qaxpy : F -> QV -> QV -> QV;             (* ScalarVectorAddVector: a v + w *)
  qscal : F -> QV -> QV;                   (* ScalarTimesVector *)
  qcomb : F -> QV -> F -> QV -> QV;        (* VectorLinearCombination: a v + b w *)
  qmet : QV -> QV -> F;                    (* Metric *)
  qdot : QV -> QV -> F                     (* sum of products of coordinates (BLAS ger) *)
}.
Context (G : qspace).
Notation V := (QV G).

(** What an iteration hands to UpdateData: VectorTransport(x1, eta2, x2, .), eta2, the two
    gradients, Beta(x1, eta2), |gf2|, |gf1 at the start|, Prob->PreConditioner(x2, .). *)
Record step := mkStep {
  tr : V -> V; seta : V; sgf1 : V; sgf2 : V; sbeta : F; sngf2 : F; sngf0 : F; sprec : V -> V
}.

(** nu and pow(., mu). *)
Record qparams := { qnu : F; qpowmu : F -> F; LengthSY : nat; LMrestart : bool; isconvex : bool }.
Context (p : qparams).

(** The pair, e.g. LRBFGS.cpp 177-180. *)
Definition pair_s (e : step) : V := tr e (seta e).
Definition pair_y (e : step) : V := qcomb G (lit 1 / sbeta e) (sgf2 e) (lit (-1)) (tr e (sgf1 e)).

(** The curvature test, e.g. LRBFGS.cpp 187-188. *)
Definition curvature_ok (ngf2 ngf0 inpsy inpss : F) : bool :=
  (inpsy / inpss >=? qnu p * qpowmu p ngf2) &&
  ((ngf2 / ngf0 <? lit (1#1000)) || ((inpss >? fepsv) && (inpsy >? fepsv))).

(** ** LRBFGS *)

(** The arrays S, Y, RHO; an entry that was never written (an empty vector) is [None]:
    reading it is an error. *)
Record lmem := mkMem {
  mS : list (option V); mY : list (option V); mRHO : list (option F);
  mlen : nat; mbeg : nat; mgamma : F
}.

(** Run, LRBFGS.cpp 81-91, on a solver fresh from SetDefaultParams 22-37. *)
Definition mem0 : lmem :=
  mkMem (repeat None (LengthSY p)) (repeat None (LengthSY p)) (repeat None (LengthSY p)) 0 0 (lit 1).

(** The effect of Run on an existing solver: fresh arrays, old length, index and gamma. *)
Definition mem_rerun (m : lmem) : lmem :=
  mkMem (repeat None (LengthSY p)) (repeat None (LengthSY p)) (repeat None (LengthSY p)) (mlen m) (mbeg m) (mgamma m).

(** a[i], None if out of range or never written. *)
Definition rd {X} (l : list (option X)) (i : nat) : option X :=
  match nth_error l i with Some (Some v) => Some v | _ => None end.
(** a[i] = v. *)
Fixpoint wr {X} (l : list (option X)) (i : nat) (v : X) : option (list (option X)) :=
  match l, i with
  | [], _ => None
  | _ :: l, O => Some (Some v :: l)
  | x :: l, S i => option_map (cons x) (wr l i v)
  end.

Definition slot (m : lmem) (i : nat) : option (V * V * F) :=
  match rd (mS m) i, rd (mY m) i, rd (mRHO m) i with
  | Some s, Some y, Some r => Some (s, y, r)
  | _, _, _ => None
  end.

(** HvLRBFGS, LRBFGS.cpp 145-168. First loop (151-156): [i] entries left. *)
Fixpoint loop1 (m : lmem) (i : nat) (xi : list (option F)) (r : V) : option (list (option F) * V) :=
  match i with
  | O => Some (xi, r)
  | S i =>
      let idx := (mbeg m + i) mod LengthSY p in
      match slot m idx with
      | Some (s, y, rho) =>
          let x := rho * qmet G s r in
          match wr xi idx x with
          | Some xi' => loop1 m i xi' (qaxpy G (- x) y r)
          | None => None
          end
      | None => None
      end
  end.

(** Second loop (160-165): [k] entries left, starting with [i]. *)
Fixpoint loop2 (m : lmem) (k i : nat) (xi : list (option F)) (r : V) : option V :=
  match k with
  | O => Some r
  | S k =>
      let idx := (mbeg m + i) mod LengthSY p in
      match slot m idx, rd xi idx with
      | Some (s, y, rho), Some x =>
          let omega := rho * qmet G y r in
          loop2 m k (S i) xi (qaxpy G (x - omega) s r)
      | _, _ => None
      end
  end.

(** The whole product; [P] is Prob->PreConditioner(x1, .). *)
Definition hv (P : V -> V) (m : lmem) (v : V) : option V :=
  match loop1 m (mlen m) (repeat None (mlen m)) v with
  | Some (xi, r) => loop2 m (mlen m) 0 xi (qscal G (mgamma m) (P r))
  | None => None
  end.

(** In-place transport of entries first, first+1, ... ([k] of them, indices modulo
    LengthSY), LRBFGS.cpp 200-204, 216-221, 227-231. *)
Fixpoint transport_from (T : V -> V) (k i : nat) (l : list (option V)) : option (list (option V)) :=
  match k with
  | O => Some l
  | S k =>
      let idx := i mod LengthSY p in
      match rd l idx with
      | Some v => match wr l idx (T v) with Some l' => transport_from T k (S i) l' | None => None end
      | None => None
      end
  end.

Definition transport_mem (T : V -> V) (k i : nat) (m : lmem) : option lmem :=
  match transport_from T k i (mS m), transport_from T k i (mY m) with
  | Some S', Some Y' => Some (mkMem S' Y' (mRHO m) (mlen m) (mbeg m) (mgamma m))
  | _, _ => None
  end.

Definition write_pair (m : lmem) (i : nat) (s y : V) (rho : F) : option lmem :=
  match wr (mS m) i s, wr (mY m) i y, wr (mRHO m) i rho with
  | Some a, Some b, Some c => Some (mkMem a b c (mlen m) (mbeg m) (mgamma m))
  | _, _, _ => None
  end.

Definition set_len (m : lmem) (n : nat) := mkMem (mS m) (mY m) (mRHO m) n (mbeg m) (mgamma m).
Definition set_beg (m : lmem) (n : nat) := mkMem (mS m) (mY m) (mRHO m) (mlen m) n (mgamma m).
Definition set_gamma (m : lmem) (g : F) := mkMem (mS m) (mY m) (mRHO m) (mlen m) (mbeg m) g.

(** UpdateDataLRBFGS, LRBFGS.cpp 175-233. In the branch for skipped updates and in the first
    branch the code uses index i itself, which equals i mod LengthSY there. *)
Definition lupdate (m : lmem) (e : step) : option lmem :=
  let s := pair_s e in
  let y := pair_y e in
  let inpsy := qmet G s y in
  let inpss := qmet G s s in
  let inpyy := qmet G y (sprec e y) in
  let rho := lit 1 / inpsy in
  if curvature_ok (sngf2 e) (sngf0 e) inpsy inpss then
    let m := set_gamma m (inpsy / inpyy) in
    let m := if LMrestart p && Nat.leb (LengthSY p) (mlen m) then set_len m 0 else m in
    if Nat.ltb (mlen m) (LengthSY p) then
      match write_pair m (mlen m) s y rho with
      | Some m1 => option_map (fun m2 => set_len m2 (S (mlen m))) (transport_mem (tr e) (mlen m) 0 m1)
      | None => None
      end
    else if Nat.ltb 0 (LengthSY p) then
      match write_pair m (mbeg m) s y rho with
      | Some m1 =>
          let b := S (mbeg m) mod LengthSY p in
          transport_mem (tr e) (LengthSY p - 1) b (set_beg m1 b)
      | None => None
      end
    else Some m
  else transport_mem (tr e) (mlen m) 0 m.

(** A whole sequence of iterations. *)
Fixpoint lupdates (m : lmem) (l : list step) : option lmem :=
  match l with
  | [] => Some m
  | e :: l => match lupdate m e with Some m' => lupdates m' l | None => None end
  end.

(** ** Dense updates *)
Definition ope := V -> V.
(** HaddScaledRank1OPE, Manifold.cpp 232-249: H + a u w^T. *)
Definition rank1 (H : ope) (a : F) (u w : V) : ope := fun v => qaxpy G (a * qdot G w v) u (H v).
(** ScaledIdOPE, Element.cpp 2854-2872. *)
Definition scaled_id (a : F) : ope := fun v => qscal G a v.

(** RBFGS.cpp 151-157 (also RWRBFGS.cpp 148-152): the two-sided update, in three rank-one
    steps. *)
Definition bfgs_update (H : ope) (s y : V) (inpsy : F) : ope :=
  let Hy := H y in
  let H1 := rank1 H (lit (-1) / inpsy) s Hy in
  let Hy1 := H1 y in
  let H2 := rank1 H1 (lit (-1) / inpsy) Hy1 s in
  rank1 H2 (lit 1 / inpsy) s s.

(** UpdateDataRBFGS, RBFGS.cpp 136-163. [tranH] is TranHInvTran(x1, eta2, x2, .), [first] is
    iter == 1. *)
Definition rbfgs (tranH : ope -> ope) (first : bool) (H : ope) (e : step) : ope * bool :=
  let s := pair_s e in
  let y := pair_y e in
  let inpsy := qmet G s y in
  let H0 := if isconvex p && first && (inpsy >? lit 0) then scaled_id (inpsy / qmet G y y) else H in
  let H1 := tranH H0 in
  let inpss := qmet G s s in
  if curvature_ok (sngf2 e) (sngf0 e) inpsy inpss then (bfgs_update H1 s y inpsy, true) else (H1, false).

(** UpdateDataRWRBFGS, RWRBFGS.cpp 134-161. [cot] is coTangentVector(x1, eta2, x2, gf2). *)
Definition rwrbfgs (tranH : ope -> ope) (first : bool) (H : ope) (e : step) (cot : V) : ope * bool :=
  let s := seta e in
  let y := qcomb G (lit (-1)) (sgf1 e) (lit 1) cot in
  let inpsy := qmet G s y in
  let H0 := if isconvex p && first && (inpsy >? lit 0) then scaled_id (inpsy / qmet G y y) else H in
  let inpss := qmet G s s in
  if curvature_ok (sngf2 e) (sngf0 e) inpsy inpss then (tranH (bfgs_update H0 s y inpsy), true) else (tranH H0, false).

(** A sequence of iterations; [k] is iter, 1 at the first UpdateData (SolversSMLS.cpp
    104-108). *)
Fixpoint rbfgs_run (k : nat) (H : ope) (l : list ((ope -> ope) * step)) : ope :=
  match l with
  | [] => H
  | (T, e) :: l => rbfgs_run (S k) (fst (rbfgs T (Nat.eqb k 1) H e)) l
  end.
Fixpoint rwrbfgs_run (k : nat) (H : ope) (l : list ((ope -> ope) * step * V)) : ope :=
  match l with
  | [] => H
  | (T, e, c) :: l => rwrbfgs_run (S k) (fst (rwrbfgs T (Nat.eqb k 1) H e c)) l
  end.

(** RBroydenFamily.cpp 152-160. [phi] is the value of Phi. *)
Definition broyden_update (H : ope) (s y : V) (inpsy phi : F) : ope :=
  let Hy := H y in
  let yHy := qmet G y Hy in
  let u := qcomb G (lit 1 / inpsy) s (lit (-1) / yHy) Hy in
  let H1 := rank1 H (lit (-1) / yHy) Hy Hy in
  let H2 := rank1 H1 (lit 1 / inpsy) s s in
  rank1 H2 (phi * yHy) u u.

(** UpdateDataRBroydenFamily, RBroydenFamily.cpp 135-167; Phi returns 1 (169-172). *)
Definition rbroyden (tranH : ope -> ope) (first : bool) (H : ope) (e : step) : ope * bool :=
  let s := pair_s e in
  let y := pair_y e in
  let inpsy := qmet G s y in
  let H0 := if isconvex p && first && (inpsy >? lit 0) then scaled_id (inpsy / qmet G y y) else H in
  let H1 := tranH H0 in
  let inpss := qmet G s s in
  if curvature_ok (sngf2 e) (sngf0 e) inpsy inpss then (broyden_update H1 s y inpsy (lit 1), true) else (H1, false).
Fixpoint rbroyden_run (k : nat) (H : ope) (l : list ((ope -> ope) * step)) : ope :=
  match l with
  | [] => H
  | (T, e) :: l => rbroyden_run (S k) (fst (rbroyden T (Nat.eqb k 1) H e)) l
  end.

(** UpdateDataRTRSR1, RTRSR1.cpp 76-105. [ginv] is InverseVectorTransport(x1, eta2, x2, gf2);
    [Heta2] the product computed by the trust-region loop with the operator B of that time
    (SolversSMTR.cpp 47); [second] is iter == 1. *)
Definition sr1 (second : bool) (B : ope) (Heta2 ginv : V) (e : step) : ope * bool :=
  let y := qaxpy G (lit (-1)) (sgf1 e) ginv in
  let s := seta e in
  let zeta := qaxpy G (lit (-1)) Heta2 y in
  let den := qmet G s zeta in
  let B1 := if second then scaled_id (qmet G y y / qmet G s y) else B in
  let inpss := qmet G s s in
  let n2 := qmet G zeta zeta in
  if (den * den >=? fepsv * inpss * n2) && ((n2 >=? fepsv) || (sngf2 e / sngf0 e <? lit (1#1000)))
  then (rank1 B1 (lit 1 / den) zeta zeta, true) else (B1, false).

(** A sequence of iterations; [k] is iter, 0 at the first UpdateData (SolversSMTR.cpp). Each
    iteration gives ginv, the step and, if accepted, TranHInvTran (Acceptence, RTRSR1.cpp
    66-69). *)
Fixpoint sr1_run (k : nat) (B : ope) (l : list (V * step * option (ope -> ope))) : ope :=
  match l with
  | [] => B
  | (g, e, acc) :: l =>
      let B' := fst (sr1 (Nat.eqb k 1) B (B (seta e)) g e) in
      sr1_run (S k) (match acc with Some T => T B' | None => B' end) l
  end.
End qn.
