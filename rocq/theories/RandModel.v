(** Model of the random number generator, Others/randgen.cpp.

    [rand j] is the j-th number the C library's rand returns after srand 8, [rmax] is RAND_MAX.  A
    function gets the number of draws already made and returns it increased.  Real arithmetic: rounding
    is left out. *)
From Coq Require Import Reals ZArith.
Local Open Scope R_scope.

Section model.
Variables (rand : nat -> Z) (rmax : Z).
(** genrandreal 11-14. *)
Definition genrandreal (pos : nat) : R * nat := (IZR (rand pos) / IZR rmax, S pos).
(** What a call of genrandnormal leads to: a number, a logarithm of a number that is not positive, or
    more passes of the loop 20-21 than [fuel]. *)
Inductive outcome := Returns (v : R) (pos : nat) | BadLog | Running.
(** 6.2831853071795864769252866, line 23. *)
Definition tau : R := IZR 62831853071795864769252866 / IZR 10000000000000000000000000.
(** 22-24, after the loop. *)
Definition normal_from (tmp : R) (pos : nat) : outcome :=
  if Rlt_dec 0 (1 - tmp) then
    let rand1 := -2 * ln (1 - tmp) in
    let (u, pos) := genrandreal pos in
    let rand2 := (1 - u) * tau in
    Returns (sqrt rand1 * cos rand2) pos
  else BadLog.
(** The loop 20-21. *)
Fixpoint normal_loop (fuel : nat) (tmp : R) (pos : nat) : outcome :=
  if Req_EM_T tmp 1 then
    match fuel with
    | O => Running
    | S fuel => let (tmp, pos) := genrandreal pos in normal_loop fuel tmp pos
    end
  else normal_from tmp pos.
(** genrandnormal 16-25. *)
Definition genrandnormal (fuel pos : nat) : outcome :=
  let (tmp, pos) := genrandreal pos in normal_loop fuel tmp pos.
End model.
