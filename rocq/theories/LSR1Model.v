(** Model of the limited memory of LRTRSR1: Solvers/LRTRSR1.cpp, Run, the first part of tCG_TR,
    HvLRTRSR1, UpdateDataLRTRSR1 and Acceptence.

    Arithmetic, tangent vectors and arrays are those of QuasiNewtonModel.v: any [arith], one vector
    set for all points, [rd]/[wr] fail outside an array or on an entry never written. *)
From Coq Require Import QArith List Bool Arith.
From Verif Require Import Arith QuasiNewtonModel.
Import ListNotations.

Section lsr1.
Context (A : arith).
Notation F := (F A).
Local Open Scope arith_scope.
Notation lit q := (@fq A q).
Context (G : qspace A).
Notation V := (QV A G).
(** LengthSY and LMrestart. *)
Context (L : nat) (restart : bool).

(** S, Y, SS, SY (LengthSY by LengthSY, column-major), Currentlength, beginidx, gamma, isupdated. *)
Record smem := mkSmem {
  sS : list (option V); sY : list (option V); sSS : list (option F); sSY : list (option F);
  slen : nat; sbeg : nat; sgam : F; supd : bool
}.

(** Run, LRTRSR1.cpp 73-89, on a solver fresh from SetDefaultParams 21-40; isupdated has no initial
    value in the code: [u] is whatever it holds. *)
Definition smem0 (u : bool) : smem :=
  mkSmem (repeat None L) (repeat None L) (repeat None (L * L)) (repeat None (L * L)) 0 0 (lit 1) u.

(** Run on a solver that has run before: fresh arrays, old length, index and gamma. *)
Definition smem_rerun (m : smem) : smem :=
  mkSmem (repeat None L) (repeat None L) (repeat None (L * L)) (repeat None (L * L))
         (slen m) (sbeg m) (sgam m) (supd m).

(** One pass of SolversSMTR::Run (SolversSMTR.cpp 37-103) as far as the memory is concerned: eta2, gf1,
    InverseVectorTransport(x1, eta2, x2, gf2), Heta2, ngf2, ngf0, and, if the candidate is accepted,
    VectorTransport(x1, eta2, x2, .). *)
Record pass := mkPass {
  peta : V; pgf1 : V; pginv : V; pHeta : V; pngf2 : F; pngf0 : F; pacc : option (V -> V)
}.

(** Assignments in sequence, stopping at the first failure. *)
Definition bnd {X Y} (o : option X) (f : X -> option Y) : option Y :=
  match o with Some x => f x | None => None end.

(** A table entry SS[i + j * LengthSY]. *)
Definition cell (t : list (option F)) (i j : nat) : option F := rd t (i + j * L).
Definition wcell (t : list (option F)) (i j : nat) (v : F) : option (list (option F)) := wr t (i + j * L) v.

(** Lines 549-555: entries [i], [i]+1, ... ([k] of them) of the row and the column of the new pair
    at position [n], with indices into S and Y without wrapping. *)
Fixpoint new_row (m : smem) (n k i : nat) (ss sy : list (option F)) :
  option (list (option F) * list (option F)) :=
  match k with
  | O => Some (ss, sy)
  | S k =>
      bnd (rd (sS m) n) (fun sn => bnd (rd (sS m) i) (fun si => bnd (rd (sY m) i) (fun yi =>
      bnd (wcell ss n i (qmet A G sn si)) (fun ss => bnd (cell ss n i) (fun a =>
      bnd (wcell ss i n a) (fun ss =>
      bnd (wcell sy n i (qmet A G sn yi)) (fun sy => bnd (cell sy n i) (fun b =>
      bnd (wcell sy i n b) (fun sy => new_row m n k (S i) ss sy)))))))))
  end.

(** Lines 543-557: a pair is appended at position Currentlength. *)
Definition append_pair (m : smem) (s y : V) : option smem :=
  let n := slen m in
  bnd (wr (sS m) n s) (fun S' => bnd (wr (sY m) n y) (fun Y' =>
  let m := mkSmem S' Y' (sSS m) (sSY m) n (sbeg m) (sgam m) (supd m) in
  bnd (rd S' n) (fun sn => bnd (rd Y' n) (fun yn =>
  bnd (wcell (sSS m) n n (qmet A G sn sn)) (fun ss =>
  bnd (wcell (sSY m) n n (qmet A G sn yn)) (fun sy =>
  bnd (new_row m n n 0 ss sy) (fun t =>
  Some (mkSmem S' Y' (fst t) (snd t) (S n) (sbeg m) (sgam m) (supd m))))))))).

(** Lines 564-571: entry (i, j) becomes entry (i + 1, j + 1), for i and j below LengthSY - 1;
    [k] entries of row [i] left, starting with column [j]. *)
Fixpoint shift_row (i k j : nat) (t : list (option F)) : option (list (option F)) :=
  match k with
  | O => Some t
  | S k => bnd (cell t (i + 1) (j + 1)) (fun v => bnd (wcell t i j v) (fun t => shift_row i k (S j) t))
  end.
(** [k] rows left, starting with row [i]; SS and SY are shifted independently, which the model does
    one after the other. *)
Fixpoint shift_rows (k i : nat) (t : list (option F)) : option (list (option F)) :=
  match k with
  | O => Some t
  | S k => bnd (shift_row i (L - 1) 0 t) (fun t => shift_rows k (S i) t)
  end.

(** Lines 575-582: the last row and column. *)
Fixpoint last_row (m : smem) (k i : nat) (ss sy : list (option F)) :
  option (list (option F) * list (option F)) :=
  match k with
  | O => Some (ss, sy)
  | S k =>
      let idx := (i + sbeg m + 1) mod L in
      bnd (rd (sS m) idx) (fun si => bnd (rd (sY m) idx) (fun yi => bnd (rd (sS m) (sbeg m)) (fun sb =>
      bnd (wcell ss i (L - 1) (qmet A G si sb)) (fun ss => bnd (cell ss i (L - 1)) (fun a =>
      bnd (wcell ss (L - 1) i a) (fun ss =>
      bnd (wcell sy i (L - 1) (qmet A G yi sb)) (fun sy => bnd (cell sy i (L - 1)) (fun b =>
      bnd (wcell sy (L - 1) i b) (fun sy => last_row m k (S i) ss sy)))))))))
  end.

(** Lines 562-583: the oldest pair is replaced. *)
Definition replace_pair (m : smem) (s y : V) : option smem :=
  bnd (wr (sS m) (sbeg m) s) (fun S' => bnd (wr (sY m) (sbeg m) y) (fun Y' =>
  let m := mkSmem S' Y' (sSS m) (sSY m) (slen m) (sbeg m) (sgam m) (supd m) in
  bnd (shift_rows (L - 1) 0 (sSS m)) (fun ss => bnd (shift_rows (L - 1) 0 (sSY m)) (fun sy =>
  bnd (rd S' (sbeg m)) (fun sb => bnd (rd Y' (sbeg m)) (fun yb =>
  bnd (wr ss (L * L - 1) (qmet A G sb sb)) (fun ss =>
  bnd (wr sy (L * L - 1) (qmet A G sb yb)) (fun sy =>
  bnd (last_row m (L - 1) 0 ss sy) (fun t =>
  Some (mkSmem S' Y' (fst t) (snd t) (slen m) (S (sbeg m) mod L) (sgam m) (supd m))))))))))).

Definition set_slen (m : smem) (n : nat) := mkSmem (sS m) (sY m) (sSS m) (sSY m) n (sbeg m) (sgam m) (supd m).
Definition set_sgam (m : smem) (g : F) := mkSmem (sS m) (sY m) (sSS m) (sSY m) (slen m) (sbeg m) g (supd m).
Definition set_supd (m : smem) (u : bool) := mkSmem (sS m) (sY m) (sSS m) (sSY m) (slen m) (sbeg m) (sgam m) u.

(** UpdateDataLRTRSR1, LRTRSR1.cpp 508-593; [first] is iter == 0. *)
Definition supdate (first : bool) (m : smem) (e : pass) : option smem :=
  let s := peta e in
  let y := qcomb A G (lit 1) (pginv e) (lit (-1)) (pgf1 e) in
  let m := if first then set_sgam m (qmet A G y y / qmet A G s y) else m in
  let Heta := if first then qscal A G (sgam m) s else pHeta e in
  let zeta := qaxpy A G (lit (-1)) Heta y in
  let den := qmet A G s zeta in
  let n2 := qmet A G zeta zeta in
  let inpss := qmet A G s s in
  let inpsy := qmet A G s y in
  if (den * den >=? fepsv * inpss * n2) &&
     ((n2 >=? fepsv) || (pngf2 e / pngf0 e <? lit (1#1000))) &&
     (negb first || (fabs (sgam m - inpsy / inpss) >? fsqrt fepsv))
  then
    let m := if supd m then set_sgam m (qmet A G y y / inpsy) else m in
    let m := if restart && Nat.leb L (slen m) then set_slen m 0 else m in
    bnd (if Nat.ltb (slen m) L then append_pair m s y
         else if Nat.ltb 0 L then replace_pair m s y
         else Some m)
        (fun m => Some (set_supd m true))
  else Some (set_supd m false).

(** Acceptence, LRTRSR1.cpp 448-455: entries [i], [i]+1, ... ([k] of them) are transported in place. *)
Fixpoint carry (T : V -> V) (k i : nat) (l : list (option V)) : option (list (option V)) :=
  match k with
  | O => Some l
  | S k => bnd (rd l i) (fun v => bnd (wr l i (T v)) (fun l => carry T k (S i) l))
  end.
Definition accept (m : smem) (T : V -> V) : option smem :=
  bnd (carry T (slen m) 0 (sS m)) (fun S' => bnd (carry T (slen m) 0 (sY m)) (fun Y' =>
  Some (mkSmem S' Y' (sSS m) (sSY m) (slen m) (sbeg m) (sgam m) (supd m)))).

(** A whole run; [k] is iter. *)
Definition one_pass (first : bool) (m : smem) (e : pass) : option smem :=
  bnd (supdate first m e) (fun m => match pacc e with Some T => accept m T | None => Some m end).
Fixpoint passes (k : nat) (m : smem) (l : list pass) : option smem :=
  match l with
  | [] => Some m
  | e :: l => bnd (one_pass (Nat.eqb k 0) m e) (fun m => passes (S k) m l)
  end.

(** tCG_TR, LRTRSR1.cpp 111-116: the vectors YMGS[i], [k] of them from [i]. *)
Fixpoint ymgs_from (m : smem) (k i : nat) : option (list V) :=
  match k with
  | O => Some []
  | S k =>
      let idx := (i + sbeg m) mod L in
      bnd (rd (sS m) idx) (fun s => bnd (rd (sY m) idx) (fun y =>
      bnd (ymgs_from m k (S i)) (fun r => Some (qaxpy A G (- sgam m) s y :: r))))
  end.
Definition ymgs (m : smem) : option (list V) := ymgs_from m (slen m) 0.

(** tCG_TR, LRTRSR1.cpp 118-124: the entry (i, j) of PMGQ. *)
Definition pmgq (m : smem) (i j : nat) : option F :=
  bnd (cell (sSY m) i j) (fun p => bnd (cell (sSS m) i j) (fun q => Some (p - sgam m * q))).

(** HvLRTRSR1, LRTRSR1.cpp 488-504: gamma Eta + sum of v2[i] YMGS[i], where v2 solves PMGQ v2 = v for
    v[i] = <YMGS[i], Eta>; [solve] is the LU solve (operator%, Element.cpp 442-487) with that matrix. *)
Definition hv_lsr1 (solve : (nat -> nat -> option F) -> list F -> list F) (m : smem) (eta : V) : option V :=
  bnd (ymgs m) (fun c =>
  let v2 := solve (pmgq m) (map (fun u => qmet A G u eta) c) in
  Some (fold_left (fun r vu => qaxpy A G (fst vu) (snd vu) r) (combine v2 c) (qscal A G (sgam m) eta))).
End lsr1.
