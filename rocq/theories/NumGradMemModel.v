(** What the numerical gradient does to storage, Problem.cpp 106-136, as a program over the
    operations of SmartSpaceModel.v. *)
From stdpp Require Import list.
From Coq Require Import Arith.
From Verif Require Import SmartSpaceModel.
Open Scope nat_scope.

Section model.
Context {V : Type}.
Notation op := (@op V).

(** p[i] = w and p[i] = step(p[i]) through a pointer obtained before. *)
Definition poke (h i : nat) (w : V) : op := ORawUpdate h (fun j v => if j =? i then w else v).
Definition bump (h i : nat) (step : V -> V) : op := ORawUpdate h (fun j v => if j =? i then step v else v).

(** x is the point with entries [lx], xe is x_eps, r the result.  [step] adds _eps, [vals i] is the
    quotient (fp - fx) / _eps of iteration i; the evaluation f(x_eps) is the read.  Simplified: the
    uninitialised contents of *result after ObtainWriteEntireData are the numbers [g0]; the unused
    copy egf is left out; f does not keep a copy of its argument. *)
Definition num_iter (xe r : nat) (lx : list V) (step : V -> V) (vals : nat -> V) (i : nat) : list op :=
  [bump xe i step; ORead xe; poke r i (vals i)] ++
  match lx !! i with Some v => [poke xe i v] | None => [] end.
Definition num_grad_ops (x xe r : nat) (lx g0 : list V) (step : V -> V) (vals : nat -> V) : list op :=
  [OCopy xe x; OWriteAll xe lx; OWriteAll r g0] ++
  concat (map (num_iter xe r lx step vals) (seq 0 (length lx))).
End model.
