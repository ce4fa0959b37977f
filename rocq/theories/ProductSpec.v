(** What the components of a product object should be. *)
From stdpp Require Import gmap list.
From Coq Require Import ZArith.
From Verif Require Import SmartSpaceModel ProductModel.
Open Scope nat_scope.

Section spec.
Context {V : Type}.
Notation pst := (@pst V).
Notation pop := (@pop V).

(** The lengths of the components of variable [n]. *)
Definition comp_lens (s : pst) (n : nat) : list nat :=
  match ps_objs s !! n with Some e => h_len <$> e_comps e | None => [] end.

(** Component [j] is the slice of the parent's entries that starts at the total length of the
    components before it; the lengths of the components of a product add up to the parent's. *)
Definition slices (s : pst) : Prop :=
  forall n, is_Some (ps_objs s !! n) ->
  exists data, preads s (Var n) = Ok data /\
    (forall l, data = Some l -> comp_lens s n <> [] -> length l = sum_list (comp_lens s n)) /\
    forall j len, comp_lens s n !! j = Some len ->
      preads s (Comp n j)
      = Ok (option_map (fun l => take len (drop (sum_list (take j (comp_lens s n))) l)) data).

(** The object has storage. *)
Definition has_data (s : pst) (r : ref) (l : list (option V)) : Prop := preads s r = Ok (Some l).

(** No component is copied out into a variable, and components are written or assigned in place
    only: the product has storage and the source has data of the component's length. *)
Definition allowed (s : pst) (o : pop) : Prop :=
  match o with
  | PCopyNew _ (Comp _ _) => False
  | PAssign (Var _) (Comp _ _) => False
  | PAssign (Comp n j) src =>
      exists l l', has_data s (Comp n j) l /\ has_data s src l' /\ length l = length l'
  | PWriteEntire (Comp n j) _ | PWritePartial (Comp n j) _ _ => exists l, has_data s (Comp n j) l
  | _ => True
  end.

(** States reached by programs all of whose steps are allowed. *)
Inductive reached : pst -> Prop :=
| reached_init : reached init_pst
| reached_step s o s' : reached s -> allowed s o -> pstep s o = Ok s' -> reached s'.

(** ** Values
    What a program with these variables would do if every variable held its own copy of its
    entries and a component were nothing but a range of its parent's entries. *)
Record vobj := mkV { v_data : option (list (option V)); v_lens : list nat; v_len : nat }.

Definition view (s : pst) (n : nat) : option vobj :=
  match ps_objs s !! n with
  | Some e => Some (mkV (match preads s (Var n) with Ok d => d | Err _ => None end)
                      (comp_lens s n) (h_len (e_self e)))
  | None => None
  end.

Definition vupd (σ : nat -> option vobj) (n : nat) (x : option vobj) : nat -> option vobj :=
  fun k => if Nat.eqb k n then x else σ k.
Definition v_set (x : vobj) (d : list (option V)) : vobj := mkV (Some d) (v_lens x) (v_len x).
Definition v_off (x : vobj) (j : nat) : nat := sum_list (take j (v_lens x)).
(** Entries [o], [o+1], ... of [l] replaced by [vs]. *)
Definition splice (l : list (option V)) (o : nat) (vs : list (option V)) : list (option V) :=
  take o l ++ vs ++ drop (o + length vs) l.
(** The entries before the first write are unspecified. *)
Definition entries (x : vobj) : list (option V) :=
  match v_data x with Some l => l | None => replicate (v_len x) None end.
Definition vread (σ : nat -> option vobj) (r : ref) : list (option V) :=
  match r with
  | Var n => match σ n with Some x => entries x | None => [] end
  | Comp n j =>
      match σ n with
      | Some x => take (nth j (v_lens x) 0) (drop (v_off x j) (entries x))
      | None => []
      end
  end.

Definition vstep (σ : nat -> option vobj) (o : pop) : nat -> option vobj :=
  match o with
  | PVector n len => vupd σ n (Some (mkV None [] len))
  | PProduct n types => vupd σ n (Some (mkV None (expand types) (sum_list (expand types))))
  | PCopyNew n (Var k) | PAssign (Var n) (Var k) => vupd σ n (σ k)
  | PWriteEntire (Var n) vs => vupd σ n (option_map (fun x => v_set x (Some <$> vs)) (σ n))
  | PWritePartial (Var n) i v => vupd σ n (option_map (fun x => v_set x (splice (entries x) i [Some v])) (σ n))
  | PWriteEntire (Comp n j) vs =>
      vupd σ n (option_map (fun x => v_set x (splice (entries x) (v_off x j) (Some <$> vs))) (σ n))
  | PWritePartial (Comp n j) i v =>
      vupd σ n (option_map (fun x => v_set x (splice (entries x) (v_off x j + i) [Some v])) (σ n))
  | PAssign (Comp n j) src =>
      vupd σ n (option_map (fun x => v_set x (splice (entries x) (v_off x j) (vread σ src))) (σ n))
  | PDestroy n => vupd σ n None
  | PCopyNew _ (Comp _ _) | PAssign (Var _) (Comp _ _) => σ
  end.

(** [*x.GetSharedTimes() == 1] (SmartSpace.h 72). *)
Definition sole_owner (s : pst) (n : nat) : Prop :=
  exists e c, ps_objs s !! n = Some e /\ h_share (e_self e) = Some c /\
    m_counts (ps_mem s) !! c = Some 1%Z.
(** A component is written only while its parent's storage is not shared. *)
Definition unshared (s : pst) (o : pop) : Prop :=
  match o with
  | PAssign (Comp n _) _ | PWriteEntire (Comp n _) _ | PWritePartial (Comp n _) _ _ => sole_owner s n
  | _ => True
  end.
End spec.
