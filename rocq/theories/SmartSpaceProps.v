(** Property theorems C01-C05 (storage of array objects). *)
From stdpp Require Import gmap list.
From Coq Require Import ZArith.
From Verif Require Import SmartSpaceModel SmartSpaceSpec SmartSpaceFacts.

(** C01: every program makes the observations it would make with private arrays. *)
Theorem C01_value_semantics :
  forall (V FV : Type) (D : nat -> shape -> list (option V) -> FV) (ops : list (op (V := V))) m outs,
    Forall value_op ops -> spec_run D ∅ ops = Some (m, outs) ->
    exists s, run D init_st ops = Ok (s, outs) /\ forall n, reads D s n = m !! n.
Proof. exact @value_semantics. Qed.
Print Assumptions C01_value_semantics.

(** C02: no released memory is touched or released again, whatever the program. *)
Theorem C02_no_dangling_access :
  forall (V FV : Type) (D : nat -> shape -> list (option V) -> FV) (ops : list (op (V := V))),
    run D init_st ops <> Err Undef.
Proof. exact @no_undefined. Qed.
Print Assumptions C02_no_dangling_access.

(** C02: counters count the owners, every block has an owner, and nothing is left allocated
    when the last variable dies. *)
Theorem C02_counts_and_no_leak :
  forall (V FV : Type) (D : nat -> shape -> list (option V) -> FV) (ops : list (op (V := V))) s outs,
    run D init_st ops = Ok (s, outs) ->
    (forall n o c, objs s !! n = Some o -> o_share o = Some c ->
       counts s !! c = Some (Z.of_nat (size (filter (fun p => o_share p.2 = Some c) (objs s)))) ) /\
    (forall n o, objs s !! n = Some o -> is_Some (o_share o) <-> is_Some (o_space o)) /\
    (forall c, is_Some (counts s !! c) -> exists n o, objs s !! n = Some o /\ o_share o = Some c) /\
    (forall d, is_Some (datas s !! d) -> exists n o, objs s !! n = Some o /\ o_space o = Some d) /\
    (objs s = ∅ -> counts s = ∅ /\ datas s = ∅).
Proof. exact @ownership. Qed.
Print Assumptions C02_counts_and_no_leak.

(** C03, contents: true of every program, including those that reshape.
    Missing for the full property: the shape of the target when it already shares storage
    with a reshaped source (refuted below). *)
Theorem C03_assign_contents_partial :
  forall (V FV : Type) (D : nat -> shape -> list (option V) -> FV) (ops : list (op (V := V))) s outs n m vn szm lm,
    run D init_st ops = Ok (s, outs) -> reads D s n = Some vn -> reads D s m = Some (szm, lm) ->
    exists s' szn, step D s (OAssign n m) = Ok (s', ONone) /\
      reads D s' n = Some (szn, lm) /\ (szn = szm \/ szn = fst vn) /\ volume szn = volume szm.
Proof. exact @assign_contents. Qed.
Print Assumptions C03_assign_contents_partial.

(** C03, shape included, for programs that do not reshape in place. *)
Theorem C03_assign_exact_partial :
  forall (V FV : Type) (D : nat -> shape -> list (option V) -> FV) (ops : list (op (V := V))) s outs n m v vn,
    Forall cache_op ops -> spec_run D ∅ ops = Some (v, outs) ->
    run D init_st ops = Ok (s, outs) -> reads D s n = Some vn -> forall vm, reads D s m = Some vm ->
    exists s', step D s (OAssign n m) = Ok (s', ONone) /\ reads D s' n = Some vm /\ reads D s' m = Some vm.
Proof. exact @assign_exact. Qed.
Print Assumptions C03_assign_exact_partial.

(** C03 is false: after x(2x3); y(x); y.Reshape(3,2); x = y, x still has shape 2x3. *)
Theorem C03_assign_shape_refuted :
  exists s outs, run wD init_st w_reshape = Ok (s, outs) /\
    option_map fst (reads wD s 1) = Some (3,2,1) /\ option_map fst (reads wD s 0) = Some (2,3,1).
Proof. exact assign_shape_witness. Qed.
Print Assumptions C03_assign_shape_refuted.

(** C04 for every operation except the two that write through the raw pointer. *)
Theorem C04_isolation_partial :
  forall (V FV : Type) (D : nat -> shape -> list (option V) -> FV) (ops : list (op (V := V))) s outs o s' out n,
    run D init_st ops = Ok (s, outs) -> ~ is_raw o -> step D s o = Ok (s', out) -> n <> target o ->
    reads D s' n = reads D s n.
Proof. exact @isolation. Qed.
Print Assumptions C04_isolation_partial.

(** C04 is false of HaddRankone and Conj: they change every sharer. *)
Theorem C04_raw_update_refuted :
  exists s outs s', run wD init_st w_raw = Ok (s, outs) /\
    step wD s (ORawUpdate 1 (fun i x => if Nat.odd i then (- x)%Z else x)) = Ok (s', ONone) /\
    reads wD s 0 = Some ((2,1,1), Some [Some 1; Some 2]%Z) /\
    reads wD s' 0 = Some ((2,1,1), Some [Some 1; Some (-2)]%Z).
Proof. exact raw_witness. Qed.
Print Assumptions C04_raw_update_refuted.

(** C05 for programs using the write-access methods, copies and assignments. *)
Theorem C05_decompositions_current_partial :
  forall (V FV : Type) (D : nat -> shape -> list (option V) -> FV) (ops : list (op (V := V))) m outs,
    Forall cache_op ops -> spec_run D ∅ ops = Some (m, outs) ->
    exists s, run D init_st ops = Ok (s, outs) /\ forall n, reads D s n = m !! n.
Proof. exact @cache_semantics. Qed.
Print Assumptions C05_decompositions_current_partial.

(** C05 is false after Reshape, HaddRankone/Conj and ScaledIdOPE. *)
Theorem C05_reshape_refuted :
  exists s outs, run wD init_st (w_stale (OReshape 0 (4,1,1))) = Ok (s, outs) /\ stale outs.
Proof. exact stale_reshape. Qed.
Print Assumptions C05_reshape_refuted.

Theorem C05_raw_update_refuted :
  exists s outs, run wD init_st (w_stale (ORawUpdate 0 (fun _ x => x + 1)%Z)) = Ok (s, outs) /\ stale outs.
Proof. exact stale_raw. Qed.
Print Assumptions C05_raw_update_refuted.

Theorem C05_scaled_identity_refuted :
  exists s outs, run wD init_st (w_stale (OScaledId 0 1 0)%Z) = Ok (s, outs) /\ stale outs.
Proof. exact stale_scaledid. Qed.
Print Assumptions C05_scaled_identity_refuted.

(** C07, storage part: SubmatrixAssignment keeps the entries outside the block when the
    storage is not shared ... *)
Theorem C07_sub_assign_unshared_partial :
  forall (V FV : Type) (D : nat -> shape -> list (option V) -> FV) (ops : list (op (V := V))) s outs n ws sz l l',
    run D init_st ops = Ok (s, outs) -> reads D s n = Some (sz, Some l) ->
    (forall o c, objs s !! n = Some o -> o_share o = Some c -> counts s !! c = Some 1%Z) ->
    put l ws = Some l' ->
    exists s', step D s (OSubAssign n ws) = Ok (s', ONone) /\ reads D s' n = Some (sz, Some l').
Proof. exact @sub_assign_unshared. Qed.
Print Assumptions C07_sub_assign_unshared_partial.

(** ... and loses them when it is. *)
Theorem C07_sub_assign_shared_refuted :
  exists s outs s', run wD init_st w_raw = Ok (s, outs) /\
    step wD s (OSubAssign 1 [(0, 5%Z)]) = Ok (s', ONone) /\
    reads wD s 1 = Some ((2,1,1), Some [Some 1; Some 2]%Z) /\
    reads wD s' 1 = Some ((2,1,1), Some [Some 5%Z; None]).
Proof. exact sub_assign_witness. Qed.
Print Assumptions C07_sub_assign_shared_refuted.
