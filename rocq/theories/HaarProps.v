(** Theorems for C10 (Haar wavelet transforms).  [fuel] only bounds the while loops; any value
    above the sizes will do. *)
From Coq Require Import QArith Reals List Arith Lia.
From Verif Require Import Arith SplineModel HaarModel HaarSpec HaarProofs HaarLevels HaarFacts.
Import ListNotations.
Local Close Scope Q_scope.
Local Open Scope nat_scope.

(** In any arithmetic the forward transform of n values stays inside its arrays, ends, and
    computes the textbook transform. *)
Theorem C10_transform : forall (A : arith) fuel n (z : nat -> F A * F A) (v : mem A),
  n < fuel -> holds v n z ->
  exists v1, haar1 A fuel n v = Some v1 /\ holds v1 n (haar n z).
Proof. exact @haar1_is. Qed.
Print Assumptions C10_transform.

Theorem C10_transform_2d : forall (A : arith) fuel n1 n2 (Z : nat -> nat -> F A * F A) (v : mem A),
  n1 < fuel -> n2 < fuel -> holds2 v n1 n2 Z ->
  exists v1, haar2 A fuel n1 n2 v = Some v1 /\ holds2 v1 n1 n2 (haar2d n1 n2 Z).
Proof. exact @haar2_is. Qed.
Print Assumptions C10_transform_2d.

(** In any arithmetic the inverse stays inside its arrays, ends and leaves a full array. *)
Theorem C10_inverse_defined : forall (A : arith) fuel n (z : nat -> F A * F A) (v : mem A),
  n < fuel -> holds v n z ->
  exists v1, ihaar1 A fuel n v = Some v1 /\ exists z1, holds v1 n z1.
Proof. exact @ihaar1_defined. Qed.
Print Assumptions C10_inverse_defined.

Theorem C10_inverse_defined_2d : forall (A : arith) fuel n1 n2 (Z : nat -> nat -> F A * F A) (v : mem A),
  n1 < fuel -> n2 < fuel -> holds2 v n1 n2 Z ->
  exists v1, ihaar2 A fuel n1 n2 v = Some v1 /\ exists Z1, holds2 v1 n1 n2 Z1.
Proof. exact @ihaar2_defined. Qed.
Print Assumptions C10_inverse_defined_2d.

(** Exact arithmetic: forward then inverse, and inverse then forward, give the input back. *)
Theorem C10_round_trip : forall big eps fuel n (z : nat -> R * R) (v : mem (R_arith big eps)),
  n < fuel -> holds (A := R_arith big eps) v n z ->
  (exists v1 v2, haar1 (R_arith big eps) fuel n v = Some v1 /\ ihaar1 (R_arith big eps) fuel n v1 = Some v2
     /\ holds (A := R_arith big eps) v2 n z)
  /\ (exists v1 v2, ihaar1 (R_arith big eps) fuel n v = Some v1 /\ haar1 (R_arith big eps) fuel n v1 = Some v2
     /\ holds (A := R_arith big eps) v2 n z).
Proof. exact round_trip. Qed.
Print Assumptions C10_round_trip.

Theorem C10_round_trip_2d : forall big eps fuel n1 n2 (Z : nat -> nat -> R * R) (v : mem (R_arith big eps)),
  n1 < fuel -> n2 < fuel -> holds2 (A := R_arith big eps) v n1 n2 Z ->
  (exists v1 v2, haar2 (R_arith big eps) fuel n1 n2 v = Some v1 /\ ihaar2 (R_arith big eps) fuel n1 n2 v1 = Some v2
     /\ holds2 (A := R_arith big eps) v2 n1 n2 Z)
  /\ (exists v1 v2, ihaar2 (R_arith big eps) fuel n1 n2 v = Some v1 /\ haar2 (R_arith big eps) fuel n1 n2 v1 = Some v2
     /\ holds2 (A := R_arith big eps) v2 n1 n2 Z).
Proof. exact round_trip_2d. Qed.
Print Assumptions C10_round_trip_2d.

(** Exact arithmetic: the sum of the squared moduli is preserved. *)
Theorem C10_energy : forall big eps fuel n (z z1 : nat -> R * R) (v v1 : mem (R_arith big eps)),
  n < fuel -> holds (A := R_arith big eps) v n z ->
  haar1 (R_arith big eps) fuel n v = Some v1 -> holds (A := R_arith big eps) v1 n z1 ->
  sum n (fun i => norm2 (z1 i)) = sum n (fun i => norm2 (z i)).
Proof. exact energy1. Qed.
Print Assumptions C10_energy.

Theorem C10_energy_2d : forall big eps fuel n1 n2 (Z Z1 : nat -> nat -> R * R) (v v1 : mem (R_arith big eps)),
  n1 < fuel -> n2 < fuel -> holds2 (A := R_arith big eps) v n1 n2 Z ->
  haar2 (R_arith big eps) fuel n1 n2 v = Some v1 -> holds2 (A := R_arith big eps) v1 n1 n2 Z1 ->
  sum n1 (fun i => sum n2 (fun j => norm2 (Z1 i j))) = sum n1 (fun i => sum n2 (fun j => norm2 (Z i j))).
Proof. exact energy2. Qed.
Print Assumptions C10_energy_2d.

(** Five complex numbers, and a 3 by 2 complex matrix: both have untouched entries. *)
Example C10_example : forall big eps,
  holds (A := R_arith big eps) (fun c => nth_error [1; 0; 2; -1; 3; 5; 4; 0; 5; 7]%R c) 5
    (fun i => nth i [(1, 0); (2, -1); (3, 5); (4, 0); (5, 7)]%R (0, 0)%R) := example1.
Example C10_example_2d : forall big eps,
  holds2 (A := R_arith big eps) (fun c => nth_error [1; 0; 2; -1; 3; 5; 4; 0; 5; 7; 6; 8]%R c) 3 2
    (fun i j => nth i (nth j [[(1, 0); (2, -1); (3, 5)]; [(4, 0); (5, 7); (6, 8)]]%R []) (0, 0)%R) := example2.
