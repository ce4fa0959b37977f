(** What the theorems about the proximal mapping on a tangent space speak of: lists of real numbers. *)
From Coq Require Import List Arith Reals.
From Verif Require Import TangentSpec.
Import ListNotations.
Local Open Scope R_scope.

(** The weight of entry k of a vector of d entries: the weights are spread over equal blocks. *)
Definition entry_weight (W : list R) (d k : nat) : R := nth (k / (d / length W)) W 0.
(** The squared weighted norm. *)
Definition wsq (W : list R) (v : list R) : R :=
  entry_sum (length v) (fun k => entry_weight W (length v) k * nth k v 0 ^ 2).
Definition good_weights (W : list R) (d : nat) : Prop :=
  W <> [] /\ (forall w, In w W -> 0 < w) /\ Nat.divide (length W) d.

(** The model that the step is to minimise: <g, v> + |v|_W^2 / 2 + h(x + v). *)
Definition objective (g W : list R) (h : list R -> R) (x v : list R) : R :=
  inner g v + wsq W v / 2 + h (comb 1 v x).
Definition convex (d : nat) (h : list R -> R) : Prop :=
  forall t u v, 0 <= t <= 1 -> length u = d -> length v = d ->
    h (comb t (comb (-1) v u) v) <= t * h u + (1 - t) * h v.
(** P is the proximal mapping of h in the weighted norm. *)
Definition is_prox (d : nat) (W : list R) (h : list R -> R) (P : list R -> list R) : Prop :=
  forall b, length b = d -> length (P b) = d /\
    forall u, length u = d ->
      h (P b) + wsq W (comb (-1) b (P b)) / 2 <= h u + wsq W (comb (-1) b u) / 2.

(** Orthonormal coordinates of the normal space at a point: N takes a vector of length d to the m
    coordinates of its normal part, E expands coordinates, proj is the projection to the tangent
    space.  A vector is tangent if its coordinates are zero. *)
Record normal_space (d m : nat) (N E proj : list R -> list R) : Prop := {
  ns_len : forall v, length v = d -> length (N v) = m;
  ns_lenE : forall w, length w = m -> length (E w) = d;
  ns_lin : forall a u v, length u = d -> length v = d -> N (comb a u v) = comb a (N u) (N v);
  ns_adj : forall v w, length v = d -> length w = m -> inner (N v) w = inner v (E w);
  ns_unit : forall w, length w = m -> N (E w) = w;
  ns_proj : forall v, length v = d -> proj v = comb (-1) (E (N v)) v }.

(** A symmetric positive semidefinite linear map of vectors of length m. *)
Record psd_map (m : nat) (H : list R -> list R) : Prop := {
  pm_len : forall v, length v = m -> length (H v) = m;
  pm_lin : forall a u v, length u = m -> length v = m -> H (comb a u v) = comb a (H u) (H v);
  pm_sym : forall u v, length u = m -> length v = m -> inner (H u) v = inner u (H v);
  pm_pos : forall v, length v = m -> 0 <= inner v (H v) }.
(** J multiplies the entries of its argument with numbers that are not negative. *)
Definition diagonal (d : nat) (J : list R -> list R) : Prop :=
  exists c : nat -> R, (forall k, 0 <= c k) /\
    forall v, length v = d -> J v = map (fun k => c k * nth k v 0) (seq 0 d).
(** 1-norm *)
Definition norm1 (v : list R) : R := fold_right Rplus 0 (map Rabs v).
