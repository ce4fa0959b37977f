(** Vocabulary for the Haar transform theorems. *)
From Coq Require Import QArith Reals List Arith.
From Verif Require Import Arith SplineModel HaarModel.

(** The block m holds the n complex numbers z 0, ..., z (n-1). *)
Definition holds {A : arith} (m : mem A) (n : nat) (z : nat -> F A * F A) : Prop :=
  forall i, (i < n)%nat -> cget A m i = Some (z i).
(** The block holds the n1 by n2 complex matrix Z, column by column. *)
Definition holds2 {A : arith} (m : mem A) (n1 n2 : nat) (Z : nat -> nat -> F A * F A) : Prop :=
  forall i j, (i < n1)%nat -> (j < n2)%nat -> cget A m (i + j * n1) = Some (Z i j).

Local Close Scope Q_scope.
Local Open Scope R_scope.
Fixpoint sum (n : nat) (f : nat -> R) : R := match n with O => 0 | S n => sum n f + f n end.
Definition norm2 (z : R * R) : R := fst z ^ 2 + snd z ^ 2.
Local Close Scope R_scope.

(** The textbook transform.  One step halves a signal into scaled sums and scaled differences;
    [approx l z] is the signal after l halvings, [detail l z] the differences split off at the
    l-th halving. *)
Section textbook.
Context {A : arith}.
Notation C := (F A * F A)%type.
Definition half (s : F A) (a b : C) (op : F A -> F A -> F A) : C :=
  (fdiv (op (fst a) (fst b)) s, fdiv (op (snd a) (snd b)) s).
Fixpoint approx (l : nat) (z : nat -> C) (i : nat) : C :=
  match l with
  | O => z i
  | S l => half (fsqrt (fq 2%Q)) (approx l z (2 * i)) (approx l z (2 * i + 1)) fadd
  end.
Definition detail (l : nat) (z : nat -> C) (i : nat) : C :=
  half (fsqrt (fq 2%Q)) (approx (l - 1) z (2 * i)) (approx (l - 1) z (2 * i + 1)) fsub.
(** The transform of n values, with 2^m the largest power of two within n: entry 0 is the last
    approximation, entries 2^b .. 2^(b+1)-1 are the details of halving m-b, entries from 2^m on
    are untouched. *)
Definition haar (n : nat) (z : nat -> C) (i : nat) : C :=
  let m := Nat.log2 n in
  if Nat.eqb i 0 then approx m z 0
  else if Nat.ltb i (2 ^ m) then detail (m - Nat.log2 i) z (i - 2 ^ Nat.log2 i)
  else z i.
(** Two dimensions: every column, then every row. *)
Definition haar2d (n1 n2 : nat) (Z : nat -> nat -> C) (i j : nat) : C :=
  haar n2 (fun j' => haar n1 (fun i' => Z i' j') i) j.
End textbook.
