(** What the theorems about tangent vectors and transports speak of: lists of real numbers. *)
From Coq Require Import List Arith Reals.
Import ListNotations.
Local Open Scope R_scope.

(** The dot product, a u + v, and the zero vector. *)
Fixpoint inner (u v : list R) : R :=
  match u, v with a :: u, b :: v => a * b + inner u v | _, _ => 0 end.
Fixpoint comb (a : R) (u v : list R) : list R :=
  match u, v with x :: u, y :: v => a * x + y :: comb a u v | _, _ => [] end.
Definition zero (d : nat) : list R := repeat 0 d.

(** An inner product on the vectors of length d. *)
Record inner_product (d : nat) (g : list R -> list R -> R) : Prop := {
  ip_comb : forall a u v w, length u = d -> length v = d -> length w = d ->
    g (comb a u v) w = a * g u w + g v w;
  ip_sym : forall u v, length u = d -> length v = d -> g u v = g v u;
  ip_pos : forall v, length v = d -> v <> zero d -> 0 < g v v }.
(** A map of vectors of length d to vectors of length d that preserves inner products. *)
Definition isometry (d : nat) (gx gy : list R -> list R -> R) (T : list R -> list R) : Prop :=
  forall u v, length u = d -> length v = d -> length (T u) = d /\ gy (T u) (T v) = gx u v.

(** Matrix times vector. *)
Definition entry_sum (n : nat) (f : nat -> R) : R := fold_right Rplus 0 (map f (seq 0 n)).
Definition times (n : nat) (H : nat -> nat -> R) (v : list R) : list R :=
  map (fun i => entry_sum n (fun j => H i j * nth j v 0)) (seq 0 n).
(** v with the entries start, start + 1, ... replaced by those of w. *)
Definition replace (start : nat) (w v : list R) : list R :=
  firstn start v ++ w ++ skipn (start + length w) v.
(** The entries start ... start + n - 1 of v. *)
Definition block (start n : nat) (v : list R) : list R := firstn n (skipn start v).

(** Points of the unit sphere and tangent vectors. *)
Definition unit_vec (x : list R) : Prop := inner x x = 1.
Definition tangent (x v : list R) : Prop := length v = length x /\ inner x v = 0.
