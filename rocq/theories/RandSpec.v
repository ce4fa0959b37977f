(** What the theorems about the random number generator speak of. *)
From Coq Require Import Reals ZArith.
Local Open Scope R_scope.

(** The C library's promise: integers from 0 to RAND_MAX, which is at least 32767. *)
Definition library_rand (rand : nat -> Z) (rmax : Z) : Prop :=
  (32767 <= rmax)%Z /\ forall j, (0 <= rand j <= rmax)%Z.
(** The j-th number as a fraction of RAND_MAX. *)
Definition fraction (rand : nat -> Z) (rmax : Z) (j : nat) : R := IZR (rand j) / IZR rmax.
(** k is the first draw from pos on that is not the largest number. *)
Definition first_below (rand : nat -> Z) (rmax : Z) (pos k : nat) : Prop :=
  (pos <= k)%nat /\ rand k <> rmax /\ forall j, (pos <= j < k)%nat -> rand j = rmax.
(** The Box-Muller formula for a pair of uniform numbers: the radius from the first, the angle, as a
    fraction of a full turn, from the second. *)
Definition box_muller (turn u1 u2 : R) : R := sqrt (-2 * ln (1 - u1)) * cos ((1 - u2) * turn).
