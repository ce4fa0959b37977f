(** Model of the data an element carries besides its entries: the named fields (Element's Fields
    map, used to cache factorisations and the like) and the components of a product, with
    Element::CopyTo, CopyFieldsTo, AddToFields, Field, RemoveFromFields, RemoveAllFromFields and
    ResetMultiElementsParams (Manifolds/Element.cpp).

    An element is a value here: entries are copied.  That storage sharing behaves like copying is
    the subject of SmartSpaceModel.v and ProductModel.v.  A field is an element with fields of
    its own.  std::map is a list of pairs with distinct names; its order is not observable
    through the operations modelled. *)
From Coq Require Import String List Bool Arith.
Import ListNotations.
Local Open Scope string_scope.
Local Open Scope list_scope.

Local Open Scope nat_scope.

Section model.
Context {V : Type}.

(** size, length and iscomplex of an element (SmartSpace.h 105-107, Element.h 560). *)
Record emeta := mkMeta { em_size : list nat; em_len : nat; em_cplx : bool }.

(** [None] for the entries: no storage.  [t] lists the number of components of each type
    (powsinterval, its length is numoftypes), nothing when there are no components. *)
Inductive elem := Elem (m : emeta) (d : option (list V)) (t : list nat) (cs : list elem)
                       (fs : list (string * elem)).

Definition meta e := match e with Elem m _ _ _ _ => m end.
Definition data e := match e with Elem _ d _ _ _ => d end.
Definition types e := match e with Elem _ _ t _ _ => t end.
Definition comps e := match e with Elem _ _ _ cs _ => cs end.
Definition fields e := match e with Elem _ _ _ _ fs => fs end.
Definition elen e := em_len (meta e).

(** Fields.find *)
Fixpoint get (n : string) (fs : list (string * elem)) : option elem :=
  match fs with
  | [] => None
  | (k, x) :: fs => if String.eqb k n then Some x else get n fs
  end.
(** The element found is overwritten in place. *)
Fixpoint put (n : string) (y : elem) (fs : list (string * elem)) : list (string * elem) :=
  match fs with
  | [] => []
  | (k, x) :: fs => if String.eqb k n then (k, y) :: fs else (k, x) :: put n y fs
  end.

(** The component loops of ResetMultiElementsParams: each component is given the next piece of
    the entries.  Components keep everything else: the second case, Element.cpp 2942-2968 (and
    the first, 2900-2921). *)
Fixpoint rebind (e : elem) (d : option (list V)) : elem :=
  match e with
  | Elem m _ t cs fs =>
      Elem m d t
        ((fix go cs d := match cs with
                         | [] => []
                         | c :: cs => rebind c (option_map (firstn (elen c)) d)
                                        :: go cs (option_map (skipn (elen c)) d)
                         end) cs d) fs
  end.
Fixpoint rebind_list (cs : list elem) (d : option (list V)) : list elem :=
  match cs with
  | [] => []
  | c :: cs => rebind c (option_map (firstn (elen c)) d) :: rebind_list cs (option_map (skipn (elen c)) d)
  end.

(** The third case, Element.cpp 2970-3010: new components with the source's size, length,
    iscomplex and components, without fields.  (All components of one type are given the size
    array of its first one; here each has its own, which is the same thing for elements the
    constructors make, Element.cpp 2382-2486.) *)
Fixpoint fresh (e : elem) (d : option (list V)) : elem :=
  match e with
  | Elem m _ t cs _ =>
      Elem m d t
        ((fix go cs d := match cs with
                         | [] => []
                         | c :: cs => fresh c (option_map (firstn (elen c)) d)
                                        :: go cs (option_map (skipn (elen c)) d)
                         end) cs d) []
  end.
Fixpoint fresh_list (cs : list elem) (d : option (list V)) : list elem :=
  match cs with
  | [] => []
  | c :: cs => fresh c (option_map (firstn (elen c)) d) :: fresh_list cs (option_map (skipn (elen c)) d)
  end.

(** ResetMultiElementsParams of [b], whose entries have become [d], with [a]'s parameters. *)
Definition same_shape (ta : list nat) (csa : list elem) (b : elem) : bool :=
  Nat.eqb (List.length (types b)) (List.length ta) &&
  (if list_eq_dec Nat.eq_dec (map elen (comps b)) (map elen csa) then true else false).
Definition reset_comps (ta : list nat) (csa : list elem) (d : option (list V)) (b : elem) : list elem :=
  if Nat.eqb (List.length ta) 0 then []
  else if same_shape ta csa b then rebind_list (comps b) d
  else fresh_list csa d.
Definition reset_types (ta : list nat) (csa : list elem) (b : elem) : list nat :=
  if Nat.eqb (List.length ta) 0 then []
  else if same_shape ta csa b then types b
  else ta.

(** An element just constructed with the size of [e] (Element.h 179-184). *)
Definition blank (e : elem) : elem := Elem (meta e) None [] [] [].

(** The loop of CopyFieldsTo (2632-2649) and of CopyTo (2603-2615): a field that exists in the
    target is assigned, others are added as copies.  AddToFields copies the copy once more;
    see [copy_copy] in FieldsProofs.v for why one copy is the same. *)
Section loop.
Variable copy : elem -> elem -> elem.
Fixpoint copy_fields (fsa fsb : list (string * elem)) : list (string * elem) :=
  match fsa with
  | [] => fsb
  | (n, x) :: fsa =>
      copy_fields fsa (match get n fsb with
                       | Some y => put n (copy x y) fsb
                       | None => fsb ++ [(n, copy x (blank x))]
                       end)
  end.
(** 2592-2598: the components' own fields. *)
Fixpoint copy_comps (csa base : list elem) : list elem :=
  match csa, base with
  | Elem _ _ _ _ fsa :: csa, Elem m d t cs fs :: base =>
      Elem m d t cs (copy_fields fsa fs) :: copy_comps csa base
  | _, _ => base
  end.
End loop.

(** 2616-2630: names that the source does not have are removed. *)
Definition prune (fsa fsb : list (string * elem)) : list (string * elem) :=
  if Nat.ltb (List.length fsa) (List.length fsb)
  then filter (fun p => match get (fst p) fsa with Some _ => true | None => false end) fsb
  else fsb.

(** Element::CopyTo, Element.cpp 2587-2630: [a.CopyTo(b)], [a] and [b] different. *)
Fixpoint copy_to (a b : elem) {struct a} : elem :=
  match a with
  | Elem ma da ta csa fsa =>
      Elem ma da (reset_types ta csa b) (copy_comps copy_to csa (reset_comps ta csa da b))
        (prune fsa (copy_fields copy_to fsa (fields b)))
  end.

(** Element(const Element &), Element.h 179-185. *)
Definition copy_new (a : elem) : elem := copy_to a (blank a).

(** AddToFields, Element.cpp 2770-2798. *)
Definition add_field (n : string) (x e : elem) : elem :=
  match e with
  | Elem m d t cs fs =>
      Elem m d t cs (match get n fs with
                     | Some y => put n (copy_to x y) fs
                     | None => fs ++ [(n, copy_new x)]
                     end)
  end.
(** Field, 2800-2814: [None] is the failed assertion. *)
Definition field (n : string) (e : elem) : option elem := get n (fields e).
(** RemoveFromFields, 2816-2825. *)
Definition remove_field (n : string) (e : elem) : elem :=
  match e with
  | Elem m d t cs fs => Elem m d t cs (filter (fun p => negb (String.eqb (fst p) n)) fs)
  end.
(** RemoveAllFromFields, 2827-2841: also of the components, at every depth. *)
Fixpoint remove_all (e : elem) : elem :=
  match e with Elem m d t cs fs => Elem m d t (map remove_all cs) [] end.

(** ObtainWriteEntireData 2672-2676: the fields are removed, the entries may then be anything. *)
Definition overwrite (l : list V) (e : elem) : elem := rebind (remove_all e) (Some l).
End model.
Arguments elem : clear implicits.
