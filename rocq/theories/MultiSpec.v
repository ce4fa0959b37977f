(** What the theorems about products of manifolds speak of. *)
From Coq Require Import List Arith Bool QArith Reals.
From Verif Require Import Arith MultiModel.
Import ListNotations.

(** A product is a list of component manifolds, each with the setting of its type: [counts] says
    how often each type occurs. *)
Fixpoint components {A E} (manis : list (mani A E)) (flags : list bool) (counts : list nat)
    : list (mani A E * bool) :=
  match manis, flags, counts with
  | m :: ms, b :: bs, c :: cs => repeat (m, b) c ++ components ms bs cs
  | _, _, _ => []
  end.
(** Lists of components of which all are there. *)
Definition full {E} (l : list E) : list (option E) := map Some l.
(** Componentwise operations. *)
Fixpoint map2 {C X Y Z} (f : C -> X -> Y -> Z) (cs : list C) (xs : list X) (ys : list Y) : list Z :=
  match cs, xs, ys with
  | c :: cs, x :: xs, y :: ys => f c x y :: map2 f cs xs ys
  | _, _, _ => []
  end.
Fixpoint map4 {C X Z} (f : C -> X -> X -> X -> X -> Z) (cs : list C) (a b c d : list X) : list Z :=
  match cs, a, b, c, d with
  | k :: cs, a1 :: a, b1 :: b, c1 :: c, d1 :: d => f k a1 b1 c1 d1 :: map4 f cs a b c d
  | _, _, _, _, _ => []
  end.
(** Sum in the order of the components. *)
Definition total (A : arith) (l : list (F A)) : F A := fold_left fadd l (fq 0).
Fixpoint rsum (n : nat) (f : nat -> R) : R :=
  match n with O => 0%R | S n => (rsum n f + f n)%R end.
(** Multiplication of the columns [s .. s + l) of H by P from the right, and of the rows by Q from
    the left. *)
Definition rmat := nat -> nat -> R.
Definition right_block (s l : nat) (P H : rmat) : rmat := fun r c =>
  if (s <=? c)%nat && (c <? s + l)%nat then rsum l (fun k => (H r (s + k)%nat * P k (c - s)%nat)%R) else H r c.
Definition left_block (s l : nat) (Q H : rmat) : rmat := fun r c =>
  if (s <=? r)%nat && (r <? s + l)%nat then rsum l (fun k => (Q (r - s)%nat k * H (s + k)%nat c)%R) else H r c.
(** The first coordinate of component j. *)
Definition offset (lens : list nat) (j : nat) : nat := fold_left Nat.add (firstn j lens) 0%nat.
