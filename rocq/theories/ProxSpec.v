(** What the theorems about the proximal mapping speak of. *)
From Coq Require Import List Reals.
Import ListNotations.
Local Open Scope R_scope.

(** The function that the proximal mapping minimises: the 1-norm of u times lambda, plus half the
    squared distance from u to x, entry k weighted with the weight of its block. *)
Definition weight_of (W : list R) (blocksize k : nat) : R := nth (k / blocksize) W 0.
Definition prox_objective (lambda : R) (W : list R) (blocksize : nat) (x u : list R) : R :=
  fold_right Rplus 0 (map (fun k =>
    lambda * Rabs (nth k u 0) + weight_of W blocksize k / 2 * (nth k u 0 - nth k x 0) ^ 2)
    (seq 0 (length x))).
(** x + s e. *)
Definition move (x e : list R) (s : R) : list R := map (fun p => fst p + s * snd p) (combine x e).
