(** What a line search should achieve, in terms of the objective along the curve
    t |-> R_x(t * eta) only. *)
From Coq Require Import QArith Reals List Bool.
From Verif Require Import Arith LineSearchModel.
Import ListNotations.

Section spec.
Context {A : arith} {G : geometry A} (c : lsctx A G).
Notation F := (F A).

(** Tangent vector, point, objective and slope belonging to the step size [t]. *)
Definition tangent (t : F) : T A G := scal A G t (leta1 A G c).
Definition trial (t : F) : P A G := retr A G (lx1 A G c) (tangent t).
Definition phi (t : F) : F := fobj A G (trial t).
Definition dphi (t : F) : F :=
  metric A G (trial t) (grad A G (trial t))
         (dretr A G (lx1 A G c) (tangent t) (trial t) (leta1 A G c)).

(** The reported point, value and step belong together. *)
Definition point_at (s : ls A G) (t : F) : Prop :=
  eta2 A G s = tangent t /\ x2 A G s = trial t /\ f2 A G s = phi t.
(** ... and so does the reported gradient. *)
Definition grad_at (s : ls A G) (t : F) : Prop := gf2 A G s = grad A G (trial t).

(** A value that is not above any element of an (arbitrary) list, for C++ comparisons. *)
Definition no_larger (m : F) (l : list F) : Prop := forall v, In v l -> flt m v = false.
End spec.

(** Largest element of a list of reals. *)
Definition is_max (m : R) (l : list R) : Prop := In m l /\ forall v, In v l -> (v <= m)%R.

(** Finite, not NaN. *)
Definition finite (x : xr) : Prop := exists r, x = Fin r.
