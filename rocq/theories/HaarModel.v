(** Model of Others/wavelet/wavelet.cpp. Element::GetHaarFWT and Element::GetInvHaarFWT
    (Manifolds/Element.cpp 2004-2081, 2083-2156) are the same loops as haarFWT_2d and
    haarFWT_2d_inverse, applied to a copy of the object.

    A complex array is a block of real cells: element i has its real part in cell 2 i and its
    imaginary part in cell 2 i + 1 (the layout of realdpcomplex).  Reading a cell that was never
    written or writing outside a block gives [None].  Not modelled: overflow of the integer
    indices. *)
From Coq Require Import QArith List Bool Arith Lia.
From Verif Require Import Arith SplineModel.
Import ListNotations.

Section haar.
Context (A : arith).
Notation F := (F A).
Notation mem := (mem A).
Local Open Scope arith_scope.
Notation "'do' x <- a ; b" := (bind a (fun x => b)) (at level 60, x name, a at level 59, b at level 60, right associativity).
Notation "'dop' ' p <- a ; b" := (bind a (fun p => b)) (at level 60, p pattern, a at level 59, b at level 60, right associativity).

(** realdp r2 = sqrt(2.0) *)
Definition r2 : F := fsqrt (@fq A 2).

(** v[i].r, v[i].i *)
Definition cget (m : mem) (i : nat) : option (F * F) :=
  do x <- m (2 * i)%nat; do y <- m (2 * i + 1)%nat; Some (x, y).
(** v[i].r = x; v[i].i = y, in an array of n complex numbers. *)
Definition cput (n : nat) (m : mem) (i : nat) (z : F * F) : option mem :=
  do m <- wr A (2 * n) m (2 * i) (fst z); wr A (2 * n) m (2 * i + 1) (snd z).

(** (a + b) / r2 and (a - b) / r2 on both parts. *)
Definition avg (a b : F * F) : F * F := ((fst a + fst b) / r2, (snd a + snd b) / r2).
Definition dif (a b : F * F) : F * F := ((fst a - fst b) / r2, (snd a - snd b) / r2).

(** while (j * 2 <= n) j = j * 2 (wavelet.cpp 10-14, 81-85, 113-117). *)
Fixpoint double (fuel n j : nat) : option nat :=
  match fuel with
  | O => None
  | S fuel => if Nat.leb (j * 2) n then double fuel n (j * 2) else Some j
  end.

(** for (...) tmp[i] = 0 over 2 n cells (lines 7-8, 42-43). *)
Definition zeros (n : nat) : mem := fun c => if Nat.ltb c (2 * n) then Some (@fq A 0) else None.

(** ** One dimension *)
(** Lines 19-30: one level with j (already halved). The state is (v, tmp). *)
Definition level1 (n j : nat) (st : mem * mem) : option (mem * mem) :=
  let v := fst st in
  do tmp <- for_ j 0 (fun i tmp =>
     do a <- cget v (2 * i); do b <- cget v (2 * i + 1);
     do tmp <- cput n tmp i (avg a b); cput n tmp (i + j) (dif a b)) (snd st);
  do v <- for_ (2 * j) 0 (fun i v => do a <- cget tmp i; cput n v i a) v;
  Some (v, tmp).
(** while (1 < j) { j = j / 2; level } *)
Fixpoint down (level : nat -> mem * mem -> option (mem * mem)) (fuel j : nat) (st : mem * mem) : option (mem * mem) :=
  match fuel with
  | O => None
  | S fuel => if Nat.ltb 1 j then do st <- level (j / 2)%nat st; down level fuel (j / 2) st else Some st
  end.
(** haarFWT_1d, lines 3-36. *)
Definition haar1 (fuel n : nat) (v : mem) : option mem :=
  do j <- double fuel n 1;
  do st <- down (level1 n) fuel j (v, zeros n);
  Some (fst st).

(** Lines 48-60: one level of the inverse with j. *)
Definition ilevel1 (n j : nat) (st : mem * mem) : option (mem * mem) :=
  let v := fst st in
  do tmp <- for_ j 0 (fun i tmp =>
     do a <- cget v i; do b <- cget v (i + j);
     do tmp <- cput n tmp (2 * i) (avg a b); cput n tmp (2 * i + 1) (dif a b)) (snd st);
  do v <- for_ (j * 2) 0 (fun i v => do a <- cget tmp i; cput n v i a) v;
  Some (v, tmp).
(** while (j * 2 <= n) { level; j = j * 2 } *)
Fixpoint up (level : nat -> mem * mem -> option (mem * mem)) (fuel n j : nat) (st : mem * mem) : option (mem * mem) :=
  match fuel with
  | O => None
  | S fuel => if Nat.leb (j * 2) n then do st <- level j st; up level fuel n (j * 2) st else Some st
  end.
(** haarFWT_1d_inverse, lines 38-66. *)
Definition ihaar1 (fuel n : nat) (v : mem) : option mem :=
  do st <- up (ilevel1 n) fuel n 1 (v, zeros n);
  Some (fst st).

(** ** Two dimensions: n1 rows, n2 columns, column-major *)
(** for (i) tmp[i] = vv[i] (lines 74-78, 146-152). *)
(** The inverse copies with two nested loops over the same indices. *)
Definition copy_all (n : nat) (vv : mem) : option mem :=
  for_ n 0 (fun i t => do a <- cget vv i; cput n t i a) (fresh A).

(** Lines 89-107: transform along the columns (first index) with k. *)
Definition row_level (n1 n2 k : nat) (st : mem * mem) : option (mem * mem) :=
  let N := (n1 * n2)%nat in let vv := fst st in
  do tmp <- for_ n2 0 (fun j => for_ k 0 (fun i tmp =>
     do a <- cget vv (2 * i + j * n1); do b <- cget vv (2 * i + 1 + j * n1);
     do tmp <- cput N tmp (i + j * n1) (avg a b); cput N tmp (k + i + j * n1) (dif a b))) (snd st);
  do vv <- for_ n2 0 (fun j => for_ (2 * k) 0 (fun i vv => do a <- cget tmp (i + j * n1); cput N vv (i + j * n1) a)) vv;
  Some (vv, tmp).
(** Lines 120-136: along the rows (second index). *)
Definition col_level (n1 n2 k : nat) (st : mem * mem) : option (mem * mem) :=
  let N := (n1 * n2)%nat in let vv := fst st in
  do tmp <- for_ k 0 (fun j => for_ n1 0 (fun i tmp =>
     do a <- cget vv (i + 2 * j * n1); do b <- cget vv (i + (2 * j + 1) * n1);
     do tmp <- cput N tmp (i + j * n1) (avg a b); cput N tmp (i + (k + j) * n1) (dif a b))) (snd st);
  do vv <- for_ (2 * k) 0 (fun j => for_ n1 0 (fun i vv => do a <- cget tmp (i + j * n1); cput N vv (i + j * n1) a)) vv;
  Some (vv, tmp).
(** haarFWT_2d, lines 68-138. *)
Definition haar2 (fuel n1 n2 : nat) (vv : mem) : option mem :=
  do tmp <- copy_all (n1 * n2) vv;
  do k <- double fuel n1 1;
  do st <- down (row_level n1 n2) fuel k (vv, tmp);
  do k <- double fuel n2 1;
  do st <- down (col_level n1 n2) fuel k st;
  Some (fst st).

(** Lines 157-174. *)
Definition icol_level (n1 n2 k : nat) (st : mem * mem) : option (mem * mem) :=
  let N := (n1 * n2)%nat in let vv := fst st in
  do tmp <- for_ k 0 (fun j => for_ n1 0 (fun i tmp =>
     do a <- cget vv (i + j * n1); do b <- cget vv (i + (k + j) * n1);
     do tmp <- cput N tmp (i + (2 * j) * n1) (avg a b); cput N tmp (i + (2 * j + 1) * n1) (dif a b))) (snd st);
  do vv <- for_ (2 * k) 0 (fun j => for_ n1 0 (fun i vv => do a <- cget tmp (i + j * n1); cput N vv (i + j * n1) a)) vv;
  Some (vv, tmp).
(** Lines 181-200. *)
Definition irow_level (n1 n2 k : nat) (st : mem * mem) : option (mem * mem) :=
  let N := (n1 * n2)%nat in let vv := fst st in
  do tmp <- for_ n2 0 (fun j => for_ k 0 (fun i tmp =>
     do a <- cget vv (i + j * n1); do b <- cget vv (k + i + j * n1);
     do tmp <- cput N tmp (2 * i + j * n1) (avg a b); cput N tmp (2 * i + 1 + j * n1) (dif a b))) (snd st);
  do vv <- for_ n2 0 (fun j => for_ (2 * k) 0 (fun i vv => do a <- cget tmp (i + j * n1); cput N vv (i + j * n1) a)) vv;
  Some (vv, tmp).
(** haarFWT_2d_inverse, lines 140-204. *)
Definition ihaar2 (fuel n1 n2 : nat) (vv : mem) : option mem :=
  do tmp <- copy_all (n1 * n2) vv;
  do st <- up (icol_level n1 n2) fuel n2 1 (vv, tmp);
  do st <- up (irow_level n1 n2) fuel n1 1 st;
  Some (fst st).
End haar.
