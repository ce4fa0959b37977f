(** What the theorems about the memory of LRTRSR1 speak of; [lastn], [ip], [qn_space], [symmetric],
    [maps] are those of QuasiNewtonSpec.v. *)
From Coq Require Import QArith Reals List Bool Arith.
From Verif Require Import Arith QuasiNewtonModel QuasiNewtonSpec LSR1Model.
Import ListNotations.

Section mem.
Context {A : arith} (G : qspace A).
Notation V := (QV A G). Notation F := (F A).
Local Open Scope arith_scope.

(** The pair of a pass: the step, and the gradient difference taken back to x1. *)
Definition pair_of (e : pass A G) : V * V :=
  (peta A G e, qcomb A G (fq 1) (pginv A G e) (fq (-1)) (pgf1 A G e)).
(** <y,y>/<s,y>. *)
Definition quotient (e : pass A G) : F := let '(s, y) := pair_of e in qmet A G y y / qmet A G s y.

(** Whether a pass stores its pair: with z = y - B s, <s,z>^2 >= eps <s,s> <z,z>, z not tiny or the
    gradient reduced a thousandfold, and, in the first pass (where B is the quotient times the
    identity), the quotient is not <s,y>/<s,s>. *)
Definition stored (first : bool) (e : pass A G) : bool :=
  let '(s, y) := pair_of e in
  let Bs := if first then qscal A G (quotient e) s else pHeta A G e in
  let z := qaxpy A G (fq (-1)) Bs y in
  (fepsv * qmet A G s s * qmet A G z z <=? qmet A G s z * qmet A G s z) &&
  ((fepsv <=? qmet A G z z) || (pngf2 A G e / pngf0 A G e <? fq (1#1000))) &&
  (negb first || (fsqrt fepsv <? fabs (quotient e - qmet A G s y / qmet A G s s))).

Definition both (T : V -> V) (c : V * V) : V * V := (T (fst c), T (snd c)).

(** The pairs after a pass: the new one, if stored, is the last; all move when the candidate is
    accepted. *)
Definition after (first : bool) (cs : list (V * V)) (e : pass A G) : list (V * V) :=
  let cs := cs ++ (if stored first e then [pair_of e] else []) in
  match pacc A G e with Some T => map (both T) cs | None => cs end.
(** All pairs stored in a run, oldest first. *)
Definition pairs (l : list (pass A G)) : list (V * V) :=
  match l with [] => [] | e :: l => fold_left (after false) l (after true [] e) end.

(** What a memory of L pairs keeps: the last L, or with restart those since it was last full. *)
Definition kept (L : nat) (restart : bool) (l : list (pass A G)) : list (V * V) :=
  let cs := pairs l in
  if Nat.eqb L 0 then [] else if restart then skipn (L * ((length cs - 1) / L)) cs else lastn L cs.

(** The scaling: the quotient of the most recent pass that was the first or was stored right after
    another stored one; 1 before any pass. *)
Fixpoint scaling_from (prev : bool) (g : F) (l : list (pass A G)) : F :=
  match l with
  | [] => g
  | e :: l => scaling_from (stored false e) (if stored false e && prev then quotient e else g) l
  end.
Definition gamma_of (l : list (pass A G)) : F :=
  match l with [] => fq 1 | e :: l => scaling_from (stored true e) (quotient e) l end.

(** Every accepted pass of the run transports isometrically. *)
Definition isometric (l : list (pass A G)) : Prop :=
  forall e T, In e l -> pacc A G e = Some T -> forall v w, qmet A G (T v) (T w) = qmet A G v w.

(** The entry (i, j) of the middle matrix for pairs cs: <s_max, y_min> - gamma <s_i, s_j>. *)
Definition middle (gamma : F) (cs : list (V * V)) (i j : nat) : option F :=
  match nth_error cs i, nth_error cs j with
  | Some (si, yi), Some (sj, yj) =>
      Some ((if Nat.leb j i then qmet A G si yj else qmet A G sj yi) - gamma * qmet A G si sj)
  | _, _ => None
  end.
(** What the trust-region subproblem is given by memory m: the vectors y - gamma s, oldest first, and
    the middle matrix, for the pairs cs. *)
Definition represents (L : nat) (m : smem A G) (gamma : F) (cs : list (V * V)) : Prop :=
  slen A G m = length cs /\ sgam A G m = gamma /\
  ymgs A G L m = Some (map (fun c => qaxpy A G (- gamma) (fst c) (snd c)) cs) /\
  forall i j, (i < length cs)%nat -> (j < length cs)%nat -> pmgq A G L m i j = middle gamma cs i j.
End mem.

(** ** Exact arithmetic *)
Section exact.
Context {big eps : R}.
Notation A := (R_arith big eps).
Context (G : qspace A).
Notation V := (QV A G).
Local Open Scope R_scope.

(** The sum of f 0, ..., f (k-1). *)
Fixpoint sum (k : nat) (f : nat -> R) : R := match k with O => 0 | S k => sum k f + f k end.
Definition entry (M : nat -> nat -> option R) (i j : nat) : R := match M i j with Some x => x | None => 0 end.
(** x solves M x = b. *)
Definition solution (k : nat) (M : nat -> nat -> option R) (b x : nat -> R) : Prop :=
  forall i, (i < k)%nat -> sum k (fun j => entry M i j * x j) = b i.
(** The system has one solution only. *)
Definition nonsingular (k : nat) (M : nat -> nat -> option R) : Prop :=
  forall x, solution k M (fun _ => 0) x -> forall i, (i < k)%nat -> x i = 0.
(** A linear solver that is right for the k by k matrix M: the answer has the length of the right-hand
    side, and solves the system if M is nonsingular. *)
Definition solves (solve : (nat -> nat -> option R) -> list R -> list R) (k : nat) (M : nat -> nat -> option R) : Prop :=
  forall b, length b = k -> length (solve M b) = k /\
    (nonsingular k M -> solution k M (fun i => nth i b 0) (fun i => nth i (solve M b) 0)).

(** The symmetric rank-one recursion: B_0 = gamma I and
    B_{i+1} v = B_i v + <z_i,v>/<z_i,s_i> z_i with z_i = y_i - B_i s_i. Pairs newest first. *)
Fixpoint sr1_rec (gamma : R) (cs : list (V * V)) (v : V) : V :=
  match cs with
  | [] => qscal A G gamma v
  | (s, y) :: older =>
      let z := qaxpy A G (-1) (sr1_rec gamma older s) y in
      qaxpy A G (ip G z v / ip G z s) z (sr1_rec gamma older v)
  end.
(** No denominator of the recursion vanishes. *)
Fixpoint sr1_defined (gamma : R) (cs : list (V * V)) : Prop :=
  match cs with
  | [] => True
  | (s, y) :: older => sr1_defined gamma older /\ ip G (qaxpy A G (-1) (sr1_rec gamma older s) y) s <> 0
  end.
(** Equal as far as the inner product can tell. *)
Definition same (v w : V) : Prop := forall u, ip G v u = ip G w u.
End exact.
