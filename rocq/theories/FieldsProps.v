(** C06: attached data of copies. *)
From Coq Require Import String List.
From Verif Require Import FieldsModel FieldsSpec FieldsProofs FieldsWitness.
Import ListNotations.
Local Open Scope string_scope.
Local Open Scope list_scope.

(** Assigning an element without components: the target, whatever it was, then carries exactly
    the data of the source, at every depth of attached elements. *)
Theorem C06_plain_partial : forall (V : Type) (a b : elem V),
  plain a -> proper a -> proper b -> same a (copy_to a b).
Proof. exact (fun V a b => copy_plain a b). Qed.
Print Assumptions C06_plain_partial.
Example C06_plain_example : plain nested /\ proper nested /\ proper dst /\
  copy_to nested dst = vec [1; 2] [("Q", vec [3] [("R", vec [4] [])]); ("S", vec [5] [])].
Proof. exact nested_ok. Qed.

(** The copy constructor: exact when components are not products themselves. *)
Theorem C06_copy_constructor_partial : forall (V : Type) (a : elem V),
  flat a -> proper a -> same a (copy_new a).
Proof. exact @copy_new_flat. Qed.
Print Assumptions C06_copy_constructor_partial.
Example C06_copy_constructor_example : flat src2 /\ proper src2.
Proof. exact (conj src2_flat src2_proper). Qed.

(** Assignment between products of the same kind: exact if no component of the target carries a
    name that the source's component does not. *)
Theorem C06_same_kind_partial : forall (V : Type) (a b : elem V),
  proper a -> proper b -> types a = types b ->
  Forall2 (fun ca cb => meta ca = meta cb /\ comps ca = [] /\ comps cb = [] /\
             (forall n, get n (fields ca) = None -> get n (fields cb) = None)) (comps a) (comps b) ->
  Forall (fun c => Forall (fun p => plain (snd p)) (fields c)) (comps a) ->
  Forall (fun p => plain (snd p)) (fields a) ->
  same a (copy_to a b).
Proof. exact @copy_same_kind. Qed.
Print Assumptions C06_same_kind_partial.
Example C06_same_kind_example : proper src2 /\ proper dst2 /\ types src2 = types dst2 /\
  copy_to src2 dst2 = two [1; 2] [3] cached [("EGrad", vec [5] [])].
Proof. exact (conj src2_proper (conj dst2_proper (conj eq_refl eq_refl))). Qed.

(** For every source and target: entries, size and the names at the top are exactly the source's,
    and components have the source's entries and at least its attached data. *)
Theorem C06_all_partial : forall (V : Type) (a b : elem V),
  proper a -> proper b -> covers true a (copy_to a b).
Proof. exact (fun V a b => copy_covers a b). Qed.
Print Assumptions C06_all_partial.

(** The operations that attach, remove, copy and write keep elements in the form the theorems
    above ask for. *)
Theorem C06_proper : forall (V : Type) (a b : elem V) n l, proper a -> proper b ->
  proper (copy_to a b) /\ proper (copy_new a) /\ proper (add_field n a b) /\
  proper (remove_field n a) /\ proper (remove_all a) /\ proper (overwrite l a).
Proof.
  exact (fun V a b n l Ha Hb =>
    conj (copy_proper a b Ha Hb) (conj (copy_proper a (blank a) Ha (proper_blank a))
    (conj (add_field_proper n a b Ha Hb) (conj (remove_field_proper n a Ha)
    (conj (remove_all_proper a Ha) (proj1 (overwrite_ok l a Ha))))))).
Qed.
Print Assumptions C06_proper.

(** What AddToFields and RemoveFromFields do to the names: the one named, and no other. *)
Theorem C06_add : forall (V : Type) n (x e : elem V) k, proper e -> proper x ->
  get k (fields (add_field n x e)) =
  if String.eqb k n
  then Some (copy_to x (match get n (fields e) with Some y => y | None => blank x end))
  else get k (fields e).
Proof. exact @add_field_get. Qed.
Print Assumptions C06_add.
Theorem C06_remove : forall (V : Type) n (e : elem V) k,
  get k (fields (remove_field n e)) = if String.eqb k n then None else get k (fields e).
Proof. exact @remove_field_get. Qed.
Print Assumptions C06_remove.

(** A write drops everything attached to the element and to its components, at every depth. *)
Theorem C06_write : forall (V : Type) l (e : elem V), proper e ->
  proper (overwrite l e) /\ bare (overwrite l e) /\ data (overwrite l e) = Some l /\
  meta (overwrite l e) = meta e /\ types (overwrite l e) = types e.
Proof. exact @overwrite_ok. Qed.
Print Assumptions C06_write.
Example C06_write_example : overwrite [7; 8; 9] dst = two [7; 8] [9] [] [].
Proof. reflexivity. Qed.

(** AddToFields copies its argument once more when called from CopyTo; that is no different. *)
Theorem C06_copy_of_copy : forall (V : Type) (a : elem V), proper a -> copy_new (copy_new a) = copy_new a.
Proof. exact @copy_copy. Qed.
Print Assumptions C06_copy_of_copy.

(** The full property fails.  A component of the target keeps what was attached to it: here a
    factor of its previous contents. *)
Theorem C06_stale_refuted : proper src /\ proper dst /\ ~ same src (copy_to src dst) /\
  get "HHR" (fields (vec [1; 2] [])) = None /\
  (exists c, nth_error (comps (copy_to src dst)) 0 = Some c /\ data c = Some [1; 2] /\
             field "HHR" c = Some (vec [7; 7] [("tau", vec [9] [])])).
Proof. exact (conj src_proper (conj dst_proper stale)). Qed.
Print Assumptions C06_stale_refuted.

(** What is attached to components of components is not copied. *)
Theorem C06_nested_lost_refuted : proper deep /\ ~ same deep (copy_new deep) /\
  exists c cc, nth_error (comps (copy_new deep)) 0 = Some c /\ nth_error (comps c) 0 = Some cc /\
    field "HHR" cc = None.
Proof. exact (conj deep_proper deep_lost). Qed.
Print Assumptions C06_nested_lost_refuted.

(** Components of equal length keep their old shape. *)
Theorem C06_shape_refuted :
  let a := one_mat 2 3 [1; 2; 3; 4; 5; 6] in
  let b := copy_to a (one_mat 3 2 [0; 0; 0; 0; 0; 0]) in
  ~ same a b /\
  (exists c, nth_error (comps b) 0 = Some c /\ em_size (meta c) = [3; 2; 1] /\ data c = Some [1; 2; 3; 4; 5; 6]).
Proof. exact shape_kept. Qed.
Print Assumptions C06_shape_refuted.
