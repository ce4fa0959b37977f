(** What the theorems about the unit sphere of a tangent space speak of. *)
From Coq Require Import List Reals.
Import ListNotations.
From Verif Require Import TangentSpec.
Local Open Scope R_scope.

(** A tangent space: the image of the orthogonal projection P of an inner product space. *)
Record tangent_space (d : nat) (g : list R -> list R -> R) (P : list R -> list R) : Prop := {
  ts_ip : inner_product d g;
  ts_length : forall v, length v = d -> length (P v) = d;
  ts_comb : forall a u v, length u = d -> length v = d -> P (comb a u v) = comb a (P u) (P v);
  ts_idem : forall v, length v = d -> P (P v) = P v;
  ts_adj : forall u v, length u = d -> length v = d -> g (P u) v = g u (P v) }.
Definition in_space (d : nat) (P : list R -> list R) (v : list R) : Prop := length v = d /\ P v = v.
(** Its unit sphere, and the tangent vectors of that. *)
Definition on_sphere d g P (x : list R) : Prop := in_space d P x /\ g x x = 1.
Definition tangent_at d g P (x v : list R) : Prop := in_space d P v /\ g x v = 0.
(** The great circle through x with velocity u, and the end point of the one with velocity eta
    after time 1. *)
Definition great_circle (x u : list R) (t : R) : list R := comb (cos t) x (comb (sin t) u (zero (length u))).
Definition end_point (g : list R -> list R -> R) (x eta : list R) : list R :=
  let n := sqrt (g eta eta) in comb (cos n) x (comb (sin n / n) eta (zero (length eta))).
Definition opposite (x : list R) : list R := comb (-1) x (zero (length x)).
(** A self-adjoint operator of the tangent space. *)
Record operator d (g : list R -> list R -> R) P (H : list R -> list R) : Prop := {
  op_in : forall v, in_space d P v -> in_space d P (H v);
  op_comb : forall a u v, in_space d P u -> in_space d P v -> H (comb a u v) = comb a (H u) (H v);
  op_sym : forall u v, in_space d P u -> in_space d P v -> g (H u) v = g u (H v) }.
