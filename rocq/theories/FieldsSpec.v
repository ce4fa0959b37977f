(** What "the same attached data" means. *)
From Coq Require Import String List.
From Verif Require Import FieldsModel.
Import ListNotations.
Local Open Scope list_scope.

Section spec.
Context {V : Type}.
Implicit Types a b : elem V.

(** Two elements carry the same data: size, length, iscomplex, entries and grouping agree, the
    components agree one by one, and the same names are attached, with elements that carry the
    same data themselves. *)
Inductive same : elem V -> elem V -> Prop :=
| same_intro a b :
    meta a = meta b -> data a = data b -> types a = types b ->
    Forall2 same (comps a) (comps b) ->
    (forall n x, get n (fields a) = Some x -> exists y, get n (fields b) = Some y /\ same x y) ->
    (forall n, get n (fields a) = None -> get n (fields b) = None) ->
    same a b.

(** The weaker relation: [b] has the entries of [a] and at least its attached data.  At
    the top ([top = true], and for every attached element) size, iscomplex and the set of names
    agree exactly; of a component ([top = false]) only length, entries and the names of [a]. *)
Inductive covers : bool -> elem V -> elem V -> Prop :=
| covers_intro top a b :
    elen a = elen b -> data a = data b ->
    (top = true -> meta a = meta b) ->
    (top = true -> Forall2 (covers false) (comps a) (comps b)) ->
    (forall n x, get n (fields a) = Some x ->
       exists y, get n (fields b) = Some y /\ covers true x y) ->
    (top = true -> forall n, get n (fields a) = None -> get n (fields b) = None) ->
    covers top a b.

(** The components of [cs] are the consecutive pieces of the entries [d]. *)
Fixpoint pieces (cs : list (elem V)) (d : option (list V)) : Prop :=
  match cs with
  | [] => True
  | c :: cs => data c = option_map (firstn (elen c)) d /\ pieces cs (option_map (skipn (elen c)) d)
  end.

(** Elements as programs make them: names are distinct (std::map), a product has at least one
    type, and components are the pieces of their parent (C08). *)
Inductive proper : elem V -> Prop :=
| proper_intro a :
    NoDup (map fst (fields a)) ->
    (types a = [] <-> comps a = []) ->
    pieces (comps a) (data a) ->
    Forall proper (comps a) ->
    Forall (fun p => proper (snd p)) (fields a) ->
    proper a.

(** No components, in the element and everything attached to it. *)
Inductive plain : elem V -> Prop :=
| plain_intro a : comps a = [] -> Forall (fun p => plain (snd p)) (fields a) -> plain a.

(** Components that are not products themselves, in the element and everything attached. *)
Inductive flat : elem V -> Prop :=
| flat_intro a :
    Forall (fun c => comps c = [] /\ Forall (fun p => flat (snd p)) (fields c)) (comps a) ->
    Forall (fun p => flat (snd p)) (fields a) -> flat a.

(** Nothing is attached to it or to its components, at any depth. *)
Inductive bare : elem V -> Prop :=
| bare_intro a : fields a = [] -> Forall bare (comps a) -> bare a.
End spec.
