(** The random number generator, C171-C172: theorems only.  The statements use RandSpec.v. *)
From Coq Require Import Reals ZArith Lia.
From Verif Require Import RandModel RandSpec RandProofs.
Local Open Scope R_scope.

(** C171: genrandreal returns the next number of the library as a fraction of RAND_MAX, in [0, 1]. *)
Theorem C171_uniform (rand : nat -> Z) (rmax : Z) (pos : nat) : library_rand rand rmax ->
  0 <= fst (genrandreal rand rmax pos) <= 1 /\ snd (genrandreal rand rmax pos) = S pos /\
  fst (genrandreal rand rmax pos) = fraction rand rmax pos.
Proof. exact (fun H => fact_uniform rand rmax H pos). Qed.
Print Assumptions C171_uniform.
Example C171_example : library_rand wrand 32767.
Proof. exact (proj1 wrand_ok). Qed.

(** C172: genrandnormal skips the draws equal to RAND_MAX, so that the logarithm is that of a positive
    number, and returns the Box-Muller formula of the next two draws, up to the rounding of the constant
    2 pi; the result is at most sqrt (2 ln RAND_MAX) in modulus.  It fails to return only if all further
    draws are RAND_MAX. *)
Theorem C172_normal (rand : nat -> Z) (rmax : Z) (pos k : nat) : library_rand rand rmax -> first_below rand rmax pos k ->
  0 < 1 - fraction rand rmax k <= 1 /\
  exists v, (forall fuel, (k - pos <= fuel)%nat -> genrandnormal rand rmax fuel pos = Returns v (S (S k))) /\
    v ^ 2 <= 2 * ln (IZR rmax) /\
    Rabs (v - box_muller (2 * PI) (fraction rand rmax k) (fraction rand rmax (S k))) <= sqrt (2 * ln (IZR rmax)) * / 10 ^ 20.
Proof. exact (fun H => fact_normal rand rmax H pos k). Qed.
Print Assumptions C172_normal.
Theorem C172_never_returns (rand : nat -> Z) (rmax : Z) (pos : nat) : library_rand rand rmax ->
  (forall j, (pos <= j)%nat -> rand j = rmax) -> forall fuel, genrandnormal rand rmax fuel pos = Running.
Proof. exact (fun H => fact_stuck rand rmax H pos). Qed.
Print Assumptions C172_never_returns.
Example C172_never_returns_example : library_rand (fun _ => 32767%Z) 32767 /\ forall j, (0 <= j)%nat -> (fun _ : nat => 32767%Z) j = 32767%Z.
Proof. exact wstuck_ok. Qed.
Example C172_example : library_rand wrand 32767 /\ first_below wrand 32767 0 2.
Proof. exact wrand_ok. Qed.
