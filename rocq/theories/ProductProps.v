(** Properties of product objects. *)
From stdpp Require Import gmap list.
From Coq Require Import ZArith.
From Verif Require Import SmartSpaceModel ProductModel ProductSpec ProductProofs ProductWitness.
Open Scope nat_scope.

(** C08: after any sequence of allowed steps every component is the slice of its parent's
    entries it was declared to be.  Missing: programs that copy a component out, or write a
    component of an object without storage; for those it is false, see below. *)
Theorem C08_slices_partial : forall (V : Type) (s : @pst V), reached s -> slices s.
Proof. exact @reached_slices. Qed.
Print Assumptions C08_slices_partial.

(** ... and no allowed step uses released or foreign memory. *)
Theorem C08_memory_partial : forall (V : Type) (s : @pst V) (o : @pop V),
  reached s -> allowed s o -> pstep s o <> Err Undef.
Proof. exact @no_undef. Qed.
Print Assumptions C08_memory_partial.

(** ... every block of entries and every counter belongs to some live variable or component of
    one, so when the last variable is gone no memory is left. *)
Theorem C08_owned_partial : forall (V : Type) (s : @pst V), reached s ->
  (forall d l, m_datas (ps_mem s) !! d = Some l ->
     exists n e o, ps_objs s !! n = Some e /\ h_ptr (e_self e) = Some (d, o)) /\
  (forall c k, m_counts (ps_mem s) !! c = Some k ->
     exists n e h, ps_objs s !! n = Some e /\ (h = e_self e \/ h ∈ e_comps e) /\ h_share h = Some c).
Proof. exact @reached_owned. Qed.
Print Assumptions C08_owned_partial.

Theorem C08_no_leak_partial : forall (V : Type) (s : @pst V), reached s ->
  ps_objs s = ∅ -> m_datas (ps_mem s) = ∅ /\ m_counts (ps_mem s) = ∅.
Proof. exact @reached_no_leak. Qed.
Print Assumptions C08_no_leak_partial.

Example C08_example : exists s : @pst nat, reached s /\ prun init_pst prog_fine = Ok s.
Proof. exact fine_reached. Qed.

(** Copying a component out and then writing the component detaches it from its parent. *)
Theorem C08_copied_out_refuted : exists s, prun init_pst prog_detach = Ok s /\ ~ slices s.
Proof. exact detach_refuted. Qed.
Print Assumptions C08_copied_out_refuted.

(** Writing a component before the product has storage gives the component storage of its own. *)
Theorem C08_no_storage_refuted : exists s, prun init_pst prog_null = Ok s /\ ~ slices s.
Proof. exact null_refuted. Qed.
Print Assumptions C08_no_storage_refuted.

(** A copy of a component does not keep the entries alive: it dangles when the product dies, and
    its own destruction then releases memory that is not its to release. *)
Theorem C08_dangling_refuted : exists s, prun init_pst prog_dangle = Ok s /\
  preads s (Var 1) = Err Undef /\ pstep s (PDestroy 1) = Err Undef.
Proof. exact dangle_refuted. Qed.
Print Assumptions C08_dangling_refuted.

(** C72: variables hold values of their own and a component is a range of its parent's value:
    whatever allowed step is taken, every variable has the value it would have if nothing were
    shared.  Missing: writing a component while its parent's storage is shared, see below. *)
Theorem C72_values_partial : forall (V : Type) (s : @pst V) (o : @pop V) (s' : @pst V),
  reached s -> allowed s o -> unshared s o -> pstep s o = Ok s' ->
  forall n, view s' n = vstep (view s) o n.
Proof. exact @step_view. Qed.
Print Assumptions C72_values_partial.

(** A variable that was just written is the only owner of its storage, so its components may be
    written next. *)
Theorem C72_write_parent_first : forall (V : Type) (s : @pst V) n i v (s' : @pst V),
  reached s -> pstep s (PWritePartial (Var n) i v) = Ok s' -> sole_owner s' n.
Proof. exact @write_sole. Qed.
Print Assumptions C72_write_parent_first.

Example C72_example : obs prog_fine [Var 0; Var 1; Comp 1 0; Comp 1 1; Comp 1 2]
  = Ok [Some [Some 1; Some 2; Some 3; Some 4; Some 5; Some 6; Some 7];
        Some [Some 3; Some 4; Some 3; Some 4; Some 8; Some 8; Some 8];
        Some [Some 3; Some 4]; Some [Some 3; Some 4]; Some [Some 8; Some 8; Some 8]].
Proof. exact fine_obs. Qed.

(** y = x followed by a write into y.GetElement(0) changes x. *)
Theorem C72_shared_refuted : exists (s : @pst nat) o s' l l',
  reached s /\ allowed s o /\ o = PWriteEntire (Comp 1 0) [8; 9] /\ pstep s o = Ok s' /\
  preads s (Var 0) = Ok (Some l) /\ preads s' (Var 0) = Ok (Some l') /\ l <> l'.
Proof. exact shared_refuted. Qed.
Print Assumptions C72_shared_refuted.
