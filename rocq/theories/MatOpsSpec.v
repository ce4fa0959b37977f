(** Entries of matrices stored column by column. *)
From Coq Require Import List Arith Reals.
Import ListNotations.
Local Open Scope nat_scope.

Section spec.
Context {B : Type}.
(** Entry (i, j) of a real matrix with [m] rows. *)
Definition rentry (m : nat) (a : list B) (i j : nat) : option B := nth_error a (i + j * m).
(** Real and imaginary part of entry (i, j) of a complex matrix with [m] rows. *)
Definition re (m : nat) (a : list B) (i j : nat) : option B := nth_error a (2 * (i + j * m)).
Definition im (m : nat) (a : list B) (i j : nat) : option B := nth_error a (2 * (i + j * m) + 1).
End spec.


(** Complex numbers, and the numbers an array of alternating parts stands for. *)
Definition complex := (R * R)%type.
Definition cadd (z w : complex) : complex := ((fst z + fst w)%R, (snd z + snd w)%R).
Definition csub (z w : complex) : complex := ((fst z - fst w)%R, (snd z - snd w)%R).
Definition cmul (z w : complex) : complex :=
  ((fst z * fst w - snd z * snd w)%R, (fst z * snd w + snd z * fst w)%R).
Definition cconj (z : complex) : complex := (fst z, (- snd z)%R).
Definition czero : complex := (0%R, 0%R).

Inductive stands_for : list R -> list complex -> Prop :=
| stands_nil : stands_for [] []
| stands_cons x y a zs : stands_for a zs -> stands_for (x :: y :: a) ((x, y) :: zs).

Fixpoint zipc {B C D} (f : B -> C -> D) (l : list B) (l' : list C) : list D :=
  match l, l' with x :: l, y :: l' => f x y :: zipc f l l' | _, _ => [] end.

Definition sum (l : list R) : R := fold_right Rplus 0%R l.
