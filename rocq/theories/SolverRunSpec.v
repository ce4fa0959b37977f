(** Vocabulary for statements about a whole run. *)
From Coq Require Import QArith List Bool.
From Verif Require Import Arith LineSearchModel SolverRunModel.
Import ListNotations.

Section spec.
Context {A : arith} {G : geometry A} {X : Type}.
Context (q : rparams A) (e : env A G (X:=X)) (fuel : nat).
Notation rs := (rs A G (X:=X)).

(** [visited s0 s b l]: starting in [s0], the loop passed through the states of [l] (newest
    first, ending with [s0]); [s] is the newest and [b] its stopping flag. *)
Inductive visited (s0 : rs) : rs -> bool -> list rs -> Prop :=
| visited_start : visited s0 s0 (is_stopped A G q e s0) [s0]
| visited_step s b l s' b' :
    visited s0 s b l -> goes_on A G q s b = true -> body A G q e fuel s = inl (s', b') ->
    visited s0 s' b' (s' :: l).

(** The values whose maximum an Armijo search started in [s] compares with
    (SolversSMLS.cpp 311-324; see C23_armijo_success for the comparison itself). *)
Definition reference (s : rs) : list (F A) :=
  rf1 A G s :: firstn (Num_pre_funs A q) (removelast (rpre A G s)).

(** How a run ends: the loop condition fails at the newest state, or the candidate
    computed from the newest state has a NaN or infinite value. *)
Inductive ends (s0 : rs) : rs -> list rs -> Prop :=
| ends_normal s b l : visited s0 s b l -> goes_on A G q s b = false -> ends s0 s l
| ends_bad s b l sf : visited s0 s b l -> goes_on A G q s b = true ->
    body A G q e fuel s = inr (Done A G sf) -> ends s0 sf l.
End spec.
