(** Vocabulary for the spline theorems. *)
From Coq Require Import Reals List Arith.
From Verif Require Import Arith SplineModel.
Import ListNotations.

(** The cells off, off+1, ..., off+k-1 of a memory hold f 0, f 1, ..., f (k-1). *)
Definition holds_array {A : arith} (m : mem A) (off k : nat) (f : nat -> F A) : Prop :=
  forall i, (i < k)%nat -> m (off + i)%nat = Some (f i).
Definition disjoint (a ka b kb : nat) : Prop :=
  forall i j, (i < ka)%nat -> (j < kb)%nat -> (a + i <> b + j)%nat.

Local Open Scope R_scope.
(** x solves the tridiagonal system with diagonal D, superdiagonal U, subdiagonal L and right
    hand side V, all indexed from 0: row i is L(i-1) x(i-1) + D(i) x(i) + U(i) x(i+1) = V(i). *)
Definition solves (n : nat) (D U L V x : nat -> R) : Prop :=
  forall i, (i < n)%nat ->
  (match i with O => 0 | S j => L j * x j end) + D i * x i + (if Nat.eqb (S i) n then 0 else U i * x (S i)) = V i.

(** x(1), ..., x(n) solve the cyclic system: row i (from 0) is
    L(i) x(i) + D(i) x(i+1) + U(i) x(i+2) = V(i), where x(0) = x(n) and x(n+1) = x(1). *)
Definition solves_cyclic (n : nat) (D U L V x : nat -> R) : Prop :=
  x O = x n /\ forall i, (i < n)%nat ->
  L i * x i + D i * x (S i) + U i * x (if Nat.eqb (S i) n then 1%nat else S (S i)) = V i.

(** A cubic a u^3 + b u^2 + e u + f with its first and second derivative. *)
Record cubic := mkCubic { ca : R; cb : R; ce : R; cf : R }.
Definition value (p : cubic) (u : R) : R := ca p * u ^ 3 + cb p * u ^ 2 + ce p * u + cf p.
Definition slope (p : cubic) (u : R) : R := 3 * ca p * u ^ 2 + 2 * cb p * u + ce p.
Definition bend (p : cubic) (u : R) : R := 6 * ca p * u + 2 * cb p.

(** Piece i of a coefficient array for nn pieces. *)
Definition piece {big eps} (c : mem (R_arith big eps)) (nn i : nat) (p : cubic) : Prop :=
  c (0 * nn + i)%nat = Some (ca p) /\ c (1 * nn + i)%nat = Some (cb p) /\
  c (2 * nn + i)%nat = Some (ce p) /\ c (3 * nn + i)%nat = Some (cf p).

(** Entry i of a list. *)
Definition pt (l : list R) (i : nat) : R := nth i l 0.

(** p interpolates between abscissae at distance h. *)
Definition interpolates (p : cubic) (h y0 y1 : R) : Prop := value p 0 = y0 /\ value p h = y1.
(** q continues p, which has length h. *)
Definition smooth_join (p : cubic) (h : R) (q : cubic) : Prop :=
  value p h = value q 0 /\ slope p h = slope q 0 /\ bend p h = bend q 0.

Definition increasing (X : list R) (n : nat) : Prop := forall i, (S i < n)%nat -> pt X i < pt X (S i).

(** A conversion to an integer type that truncates, where it is defined. *)
Definition truncating (cast : R -> option Z) : Prop := forall x z, cast x = Some z ->
  (0 <= x -> IZR z <= x < IZR z + 1) /\ (x <= 0 -> IZR z - 1 < x <= IZR z).

(** The cubics p are the pieces stored in c, and piece i takes the values Y i and Y (i+1) at
    the ends of an interval of length h i. *)
Definition fits {big eps} (c : mem (R_arith big eps)) (nn : nat) (h : nat -> R) (Y : list R) (p : nat -> cubic) : Prop :=
  forall i, (i < nn)%nat -> piece c nn i (p i) /\ interpolates (p i) (h i) (pt Y i) (pt Y (S i)).
Definition gap (X : list R) (i : nat) : R := pt X (S i) - pt X i.
