(** What the numerical derivatives should be. *)
From Coq Require Import List Arith.
Import ListNotations.

(** The point x with its entry i replaced. *)
Definition replaced {X} (x : list X) (i : nat) (v : X) : list X := firstn i x ++ v :: skipn (S i) x.

(** An objective that is right whatever earlier evaluations at the same point left behind. *)
Definition faithful {V R K} (f : list V -> option K -> R * option K) (value : list V -> R) (good : list V -> option K -> Prop) : Prop :=
  (forall x, good x None) /\
  (forall x k, good x k -> fst (f x k) = value x /\ good x (snd (f x k))).
