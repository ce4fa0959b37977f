(** Executable model of product elements: an Element whose components are Elements that point
    into its storage (Manifolds/Element.cpp, Manifolds/SmartSpace.cpp).

    Memory is modelled as in SmartSpaceModel.v, with pointers that carry an offset into the
    array, since a component's [Space] is the parent's plus a shift.  Outcomes: [Undef] is
    undefined behaviour, [Misuse] an error of the caller (dead variable, index outside the
    object, failed assert).

    Simplifications: sizes are represented by the length (all objects are columns); fields are
    the subject of FieldsModel.v; a component is not itself a product; complex data is not
    distinguished. *)
From stdpp Require Import gmap list.
From Coq Require Import ZArith Lia.
From Verif Require Import SmartSpaceModel.
Open Scope nat_scope.

Section model.
Context {V : Type}.
Notation cell := (option V).

Record mem := mkMem {
  m_counts : gmap nat Z;
  m_datas : gmap nat (list cell);
  m_next : nat
}.

(** The SmartSpace part of an object: length, sharedtimes, Space (SmartSpace.h 105-110). *)
Record hdl := mkHdl {
  h_len : nat;
  h_share : option nat;
  h_ptr : option (nat * nat)      (* array and offset *)
}.

(** ** SmartSpace *)

Definition palloc (m : mem) (len : nat) : mem * (nat * nat) :=
  (mkMem (m_counts m) (<[m_next m := replicate len None]> (m_datas m)) (S (m_next m)), (m_next m, 0)).
Definition calloc (m : mem) : mem * nat :=
  (mkMem (<[m_next m := 1%Z]> (m_counts m)) (m_datas m) (S (m_next m)), m_next m).

Definition pcount (m : mem) (c : nat) : res Z := from_opt Undef (m_counts m !! c).
Definition pset_count (m : mem) (c : nat) (k : Z) : res mem :=
  match m_counts m !! c with
  | Some _ => Ok (mkMem (<[c := k]> (m_counts m)) (m_datas m) (m_next m))
  | None => Err Undef
  end.
(** delete sharedtimes *)
Definition pfree_count (m : mem) (c : nat) : res mem :=
  match m_counts m !! c with
  | Some _ => Ok (mkMem (delete c (m_counts m)) (m_datas m) (m_next m))
  | None => Err Undef
  end.
(** delete[] Space: only a pointer to the start of a live array may be released. *)
Definition pfree_data (m : mem) (p : nat * nat) : res mem :=
  match p.2, m_datas m !! p.1 with
  | 0, Some _ => Ok (mkMem (m_counts m) (delete p.1 (m_datas m)) (m_next m))
  | _, _ => Err Undef
  end.

(** [len] entries from pointer [p]. *)
Definition pread (m : mem) (p : nat * nat) (len : nat) : res (list cell) :=
  match m_datas m !! p.1 with
  | Some l => if length l <? p.2 + len then Err Undef else Ok (take len (drop p.2 l))
  | None => Err Undef
  end.
Definition pwrite (m : mem) (p : nat * nat) (vs : list cell) : res mem :=
  match m_datas m !! p.1 with
  | Some l =>
      if length l <? p.2 + length vs then Err Undef
      else Ok (mkMem (m_counts m)
                (<[p.1 := take p.2 l ++ vs ++ drop (p.2 + length vs) l]> (m_datas m)) (m_next m))
  | None => Err Undef
  end.

(** SmartSpace::NewMemoryOnWrite, SmartSpace.cpp 24-40. *)
Definition p_new_memory (m : mem) (h : hdl) : res (mem * hdl) :=
  match h_share h with
  | None =>
      let '(m, p) := palloc m (h_len h) in
      let '(m, c) := calloc m in
      Ok (m, mkHdl (h_len h) (Some c) (Some p))
  | Some c0 =>
      k <-! pcount m c0;
      if (1 <? k)%Z then
        let '(m, p) := palloc m (h_len h) in
        m <-! pset_count m c0 (k - 1)%Z;
        let '(m, c) := calloc m in
        Ok (m, mkHdl (h_len h) (Some c) (Some p))
      else Ok (m, h)
  end.

(** SmartSpace::CopyOnWrite, SmartSpace.cpp 42-62. *)
Definition p_copy_on_write (m : mem) (h : hdl) : res (mem * hdl) :=
  match h_share h with
  | None =>
      let '(m, p) := palloc m (h_len h) in
      let '(m, c) := calloc m in
      Ok (m, mkHdl (h_len h) (Some c) (Some p))
  | Some c0 =>
      k <-! pcount m c0;
      if (1 <? k)%Z then
        q <-! from_opt Undef (h_ptr h);
        old <-! pread m q (h_len h);
        let '(m, p) := palloc m (h_len h) in
        m <-! pset_count m c0 (k - 1)%Z;
        let '(m, c) := calloc m in
        m <-! pwrite m p old;
        Ok (m, mkHdl (h_len h) (Some c) (Some p))
      else Ok (m, h)
  end.

Definition same_ptr (a b : option (nat * nat)) : bool :=
  match a, b with Some x, Some y => bool_decide (x = y) | _, _ => false end.

(** SmartSpace.cpp 135-150. *)
Definition p_share (m : mem) (src : hdl) : res (mem * hdl) :=
  match h_share src with
  | Some c => k <-! pcount m c; m <-! pset_count m c (k + 1)%Z; Ok (m, src)
  | None => Ok (m, src)
  end.

(** SmartSpace::CopyTo, SmartSpace.cpp 86-151: [src.CopyTo(dst)], the objects being different. *)
Definition p_copy_to (m : mem) (src dst : hdl) : res (mem * hdl) :=
  if same_ptr (h_ptr dst) (h_ptr src) then Ok (m, dst) else
  match h_share dst with
  | None => p_share m src
  | Some cd =>
      k <-! pcount m cd;
      if (k =? 1)%Z && (h_len dst =? h_len src) then
        match h_ptr src with
        | Some q =>
            p <-! from_opt Undef (h_ptr dst);
            vs <-! pread m q (h_len src);
            m <-! pwrite m p vs;
            Ok (m, dst)
        | None =>
            p <-! from_opt Undef (h_ptr dst);
            m <-! pfree_count m cd;
            m <-! pfree_data m p;
            Ok (m, mkHdl (h_len dst) None None)
        end
      else if (1 <? k)%Z then
        m <-! pset_count m cd (k - 1)%Z;
        p_share m src
      else if (k =? 1)%Z then
        p <-! from_opt Undef (h_ptr dst);
        m <-! pfree_count m cd;
        m <-! pfree_data m p;
        p_share m src
      else p_share m src
  end.

(** SmartSpace::~SmartSpace, SmartSpace.cpp 181-202. *)
Definition p_destroy (m : mem) (h : hdl) : res mem :=
  match h_share h with
  | None => Ok m
  | Some c =>
      k <-! pcount m c;
      m <-! pset_count m c (k - 1)%Z;
      match h_ptr h with
      | Some p =>
          if (k - 1 =? 0)%Z then
            m <-! pfree_count m c; pfree_data m p
          else Ok m
      | None => Ok m
      end
  end.

(** ** Element *)

(** numoftypes and elements (Element.h 566-570); [e_comps] empty: not a product. *)
Record elt := mkElt { e_self : hdl; e_types : nat; e_comps : list hdl }.

Definition shift_ptr (p : option (nat * nat)) (k : nat) : option (nat * nat) :=
  match p with Some (d, o) => Some (d, o + k) | None => None end.

(** ResetMultiElementsParams with the object's own arguments (Element.cpp 2900-2921, [own]) and
    with a source of the same sizes (2942-2968): point the components into [sp]. *)
Fixpoint rebind (own : bool) (m : mem) (sp : option (nat * nat)) (shift : nat) (cs : list hdl)
  : res (mem * list hdl) :=
  match cs with
  | [] => Ok (m, [])
  | k :: cs =>
      mc <-! match h_share k, sp with
             | None, None => if own then let '(m, c) := calloc m in Ok (m, Some c) else Ok (m, None)
             | None, Some _ => let '(m, c) := calloc m in Ok (m, Some c)
             | Some c, None => if own then Ok (m, Some c) else m <-! pfree_count m c; Ok (m, None)
             | Some c, Some _ => Ok (m, Some c)
             end;
      let '(m, c) := mc in
      let k' := mkHdl (h_len k) c (shift_ptr sp shift) in
      r <-! rebind own m sp (match sp with Some _ => shift + h_len k | None => shift end) cs;
      let '(m, cs') := r in
      Ok (m, k' :: cs')
  end.

(** The third case, Element.cpp 2970-3010: new components. *)
Fixpoint fresh_comps (m : mem) (sp : option (nat * nat)) (shift : nat) (cs : list hdl)
  : mem * list hdl :=
  match cs with
  | [] => (m, [])
  | k :: cs =>
      let '(m, c) := match sp with Some _ => let '(m, c) := calloc m in (m, Some c) | None => (m, None) end in
      let '(m, cs') := fresh_comps m sp (match sp with Some _ => shift + h_len k | None => shift end) cs in
      (m, mkHdl (h_len k) c (shift_ptr sp shift) :: cs')
  end.

(** DeleteMultiElements, Element.cpp 3014-3044: give up the components' counters. *)
Fixpoint delete_multi (m : mem) (cs : list hdl) : res mem :=
  match cs with
  | [] => Ok m
  | k :: cs =>
      match h_share k with
      | Some c =>
          n <-! pcount m c;
          m <-! pset_count m c (n - 1)%Z;
          m <-! (if (n - 1 =? 0)%Z then pfree_count m c else Ok m);
          delete_multi m cs
      | None => delete_multi m cs
      end
  end.

Definition lens (cs : list hdl) : list nat := h_len <$> cs.

(** ResetMultiElementsParams with another object's arguments, Element.cpp 2890-3012. *)
Definition reset_from (m : mem) (self : hdl) (dst src : elt) : res (mem * elt) :=
  if e_types src =? 0 then
    m <-! delete_multi m (e_comps dst); Ok (m, mkElt self 0 [])
  else if (e_types dst =? e_types src) && bool_decide (lens (e_comps dst) = lens (e_comps src)) then
    r <-! rebind false m (h_ptr self) 0 (e_comps dst);
    let '(m, cs) := r in Ok (m, mkElt self (e_types dst) cs)
  else
    m <-! delete_multi m (e_comps dst);
    let '(m, cs) := fresh_comps m (h_ptr self) 0 (e_comps src) in
    Ok (m, mkElt self (e_types src) cs).

(** ... with its own. *)
Definition reset_own (m : mem) (self : hdl) (e : elt) : res (mem * elt) :=
  if e_types e =? 0 then
    m <-! delete_multi m (e_comps e); Ok (m, mkElt self 0 [])
  else
    r <-! rebind true m (h_ptr self) 0 (e_comps e);
    let '(m, cs) := r in Ok (m, mkElt self (e_types e) cs).

(** Element::CopyTo without the fields, Element.cpp 2587-2599. *)
Definition e_copy_to (m : mem) (src dst : elt) : res (mem * elt) :=
  r <-! p_copy_to m (e_self src) (e_self dst);
  let '(m, h) := r in reset_from m h dst src.

(** Element::NewMemoryOnWrite 2684-2689 and CopyOnWrite 2691-2695 (virtual, so also called by
    ObtainWriteEntireData and ObtainWritePartialData, SmartSpace.cpp 169-179). *)
Definition e_new_memory (m : mem) (e : elt) : res (mem * elt) :=
  r <-! p_new_memory m (e_self e); let '(m, h) := r in reset_own m h e.
Definition e_copy_on_write (m : mem) (e : elt) : res (mem * elt) :=
  r <-! p_copy_on_write m (e_self e); let '(m, h) := r in reset_own m h e.

(** Element::~Element 2581-2585, then ~SmartSpace. *)
Definition e_destroy (m : mem) (e : elt) : res mem :=
  m <-! delete_multi m (e_comps e); p_destroy m (e_self e).

(** ** Programs *)
Record pst := mkPst { ps_mem : mem; ps_objs : gmap nat elt }.
Definition init_pst : pst := mkPst (mkMem ∅ ∅ 0) ∅.

(** A variable or a component of one (GetElement, Element.h 555). *)
Inductive ref := Var (n : nat) | Comp (n j : nat).

Definition get_elt (s : pst) (n : nat) : res elt := from_opt Misuse (ps_objs s !! n).
Definition get_comp (s : pst) (n j : nat) : res hdl :=
  e <-! get_elt s n; from_opt Misuse (e_comps e !! j).
(** A reference as an Element: a component is not a product. *)
Definition get_ref (s : pst) (r : ref) : res elt :=
  match r with
  | Var n => get_elt s n
  | Comp n j => h <-! get_comp s n j; Ok (mkElt h 0 [])
  end.
Definition put_ref (s : pst) (m : mem) (r : ref) (e : elt) : res pst :=
  match r with
  | Var n => Ok (mkPst m (<[n := e]> (ps_objs s)))
  | Comp n j =>
      p <-! get_elt s n;
      Ok (mkPst m (<[n := mkElt (e_self p) (e_types p) (<[j := e_self e]> (e_comps p))]> (ps_objs s)))
  end.

Inductive pop :=
| PVector (n len : nat)                        (* Element n(len); *)
| PProduct (n : nat) (types : list (nat * nat))(* Element n(k, types, powsinterval): length and number *)
| PCopyNew (n : nat) (src : ref)               (* Element n(src); *)
| PAssign (dst src : ref)                      (* dst = src; *)
| PWriteEntire (r : ref) (vs : list V)         (* p = r.ObtainWriteEntireData(); fill *)
| PWritePartial (r : ref) (i : nat) (v : V)    (* r.ObtainWritePartialData()[i] = v; *)
| PDestroy (n : nat).                          (* end of the variable's life *)

Definition null_hdl (len : nat) : hdl := mkHdl len None None.

(** The component lengths of Element(numberoftypes, ElementsTypes, powsinterval),
    Element.cpp 2382-2430. *)
Definition expand (types : list (nat * nat)) : list nat :=
  concat ((fun t => replicate t.2 t.1) <$> types).

Definition pfresh (s : pst) (n : nat) : res unit :=
  match ps_objs s !! n with Some _ => Err Misuse | None => Ok tt end.

Definition ref_eqb (a b : ref) : bool :=
  match a, b with
  | Var n, Var m => n =? m
  | Comp n j, Comp m i => (n =? m) && (j =? i)
  | _, _ => false
  end.

Definition pstep (s : pst) (o : pop) : res pst :=
  match o with
  | PVector n len =>
      _ <-! pfresh s n;
      Ok (mkPst (ps_mem s) (<[n := mkElt (null_hdl len) 0 []]> (ps_objs s)))
  | PProduct n types =>
      _ <-! pfresh s n;
      if bool_decide (types = []) then Err Misuse else
      Ok (mkPst (ps_mem s)
            (<[n := mkElt (null_hdl (sum_list (expand types))) (length types)
                      (null_hdl <$> expand types)]> (ps_objs s)))
  | PCopyNew n src =>                            (* Element.h 179-185 *)
      _ <-! pfresh s n;
      e <-! get_ref s src;
      r <-! e_copy_to (ps_mem s) e (mkElt (null_hdl (h_len (e_self e))) 0 []);
      let '(m, e') := r in Ok (mkPst m (<[n := e']> (ps_objs s)))
  | PAssign dst src =>                           (* Element.h 187-195 *)
      d <-! get_ref s dst;
      e <-! get_ref s src;
      if ref_eqb dst src then Ok s else
      (* a component cannot become a product; assigning a variable's own component to it is
         left out *)
      if match dst with Comp _ _ => negb (e_types e =? 0) | Var n => match src with Comp m _ => n =? m | _ => false end end
      then Err Misuse else
      r <-! e_copy_to (ps_mem s) e d;
      let '(m, d') := r in put_ref s m dst d'
  | PWriteEntire r vs =>
      e <-! get_ref s r;
      if negb (length vs =? h_len (e_self e)) then Err Misuse else
      w <-! e_new_memory (ps_mem s) e;
      let '(m, e') := w in
      p <-! from_opt Undef (h_ptr (e_self e'));
      m <-! pwrite m p (Some <$> vs);
      put_ref s m r e'
  | PWritePartial r i v =>
      e <-! get_ref s r;
      if h_len (e_self e) <=? i then Err Misuse else
      w <-! e_copy_on_write (ps_mem s) e;
      let '(m, e') := w in
      p <-! from_opt Undef (h_ptr (e_self e'));
      m <-! pwrite m (p.1, p.2 + i) [Some v];
      put_ref s m r e'
  | PDestroy n =>
      e <-! get_elt s n;
      m <-! e_destroy (ps_mem s) e;
      Ok (mkPst m (delete n (ps_objs s)))
  end.

Fixpoint prun (s : pst) (ops : list pop) : res pst :=
  match ops with
  | [] => Ok s
  | o :: ops => s <-! pstep s o; prun s ops
  end.

(** ObtainReadData: the entries of a variable or component; [None]: no storage yet. *)
Definition preads (s : pst) (r : ref) : res (option (list cell)) :=
  e <-! get_ref s r;
  match h_ptr (e_self e) with
  | None => Ok None
  | Some p => l <-! pread (ps_mem s) p (h_len (e_self e)); Ok (Some l)
  end.
End model.
