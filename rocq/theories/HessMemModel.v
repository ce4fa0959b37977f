(** What the quasi-Newton solvers do to the storage of the matrix H (B) they are given.

    A solver is a program over the storage operations of SmartSpaceModel.v: the values that are
    written are parameters, so that nothing is assumed of the arithmetic. *)
From stdpp Require Import gmap list.
From Coq Require Import QArith_base.
From Verif Require Import Arith SmartSpaceModel.
Open Scope nat_scope.

Section model.
Context {V : Type}.
Notation op := (@op V).

(** Manifold::TranHInvTran with result equal to Hx, Manifold.cpp 219-230: "*result = Hx" when the
    transport is the identity in coordinates (default, parallelization; Stiefel.cpp 291-313 for all
    its transports without HasHHR); LCTranHInvTran 824-861 does the same and then multiplies in
    place through ObtainWritePartialData. *)
Inductive transport := Keep | Conj (g : nat -> V -> V).
Definition tran_ops (h : nat) (t : transport) : list op :=
  match t with
  | Keep => [OAssign h h]
  | Conj g => [OAssign h h; OUpdate h g]
  end.
(** Manifold::HaddScaledRank1OPE with result equal to Hx, Manifold.cpp 232-249: "*result = Hx", then
    HaddRankone writes through the raw pointer (Element.cpp 1611-1623). *)
Definition rank1_ops (h : nat) (gs : list (nat -> V -> V)) : list op :=
  concat (map (fun g => [OAssign h h; ORawUpdate h g]) gs).

(** What one call of UpdateData decides: the scalar of ScaledIdOPE if it is called, the transport,
    the rank-one updates if the curvature test passes. *)
Record hiter := mkIter {
  it_rescale : option V;
  it_tran : transport;
  it_update : option (list (nat -> V -> V)) }.
Definition rescale_ops (h : nat) (z : V) (r : option V) : list op :=
  match r with Some a => [OScaledId h a z] | None => [] end.
Definition update_ops (h : nat) (u : option (list (nat -> V -> V))) : list op :=
  match u with Some gs => rank1_ops h gs | None => [] end.

(** RBFGS::UpdateDataRBFGS 136-163 and RBroydenFamily::UpdateDataRBroydenFamily 135-165 (three
    rank-one updates each). *)
Definition rbfgs_ops (z : V) (h : nat) (i : hiter) : list op :=
  rescale_ops h z (it_rescale i) ++ tran_ops h (it_tran i) ++ update_ops h (it_update i).
(** RWRBFGS::UpdateDataRWRBFGS 134-161; RTRSR1::UpdateDataRTRSR1 75-101 (one update) followed by
    Acceptence 65-68. *)
Definition rwrbfgs_ops (z : V) (h : nat) (i : hiter) : list op :=
  rescale_ops h z (it_rescale i) ++ update_ops h (it_update i) ++ tran_ops h (it_tran i).
(** RBFGSSub::UpdateDataRBFGSSub 66-99: without update H becomes the identity. *)
Definition rbfgssub_ops (one z : V) (h : nat) (i : hiter) : list op :=
  rescale_ops h z (it_rescale i) ++ tran_ops h (it_tran i) ++
  match it_update i with Some gs => rank1_ops h gs | None => [OScaledId h one z] end.

(** The member H is constructed empty (Element.cpp 2297-2312) and SetProbX assigns the user's
    matrix: RBFGS.cpp 36, RBFGSSub.cpp 35, RBroydenFamily.cpp 34, RWRBFGS.cpp 34, RTRSR1.cpp 35. *)
Definition setup (h u : nat) : list op := [ONew h (0, 0, 0); OAssign h u].
Definition solver (iter : nat -> hiter -> list op) (h u : nat) (its : list hiter) : list op :=
  setup h u ++ concat (map (iter h) its).
End model.

(** The decisions of RBFGSSub 79-80, 84. *)
Definition sub_rescale {A : arith} (iter : nat) (inpsy inpyy : F A) : option (F A) :=
  if Nat.eqb iter 1 && flt (fq (0#1)%Q) inpsy then Some (fdiv inpsy inpyy) else None.
Definition sub_update {A : arith} (lambdaLower inpsy inpss : F A) : bool := flt lambdaLower (fdiv inpsy inpss).
