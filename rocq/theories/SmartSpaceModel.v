(** Executable model of the copy-on-write storage of dense arrays
    (class SmartSpace and the parts of class Element that decide who owns which memory).

    Sources: Manifolds/SmartSpace.cpp, Manifolds/SmartSpace.h,
             Manifolds/Element.cpp, Manifolds/Element.h.

    The C++ heap is modelled by two finite maps, one for the integers pointed to by
    [sharedtimes] and one for the arrays pointed to by [Space]; an address missing from the
    map is released memory and touching it is the outcome [Undef] (undefined behaviour).
    A failed assert, an index outside the array or the use of a dead variable by the
    *caller* is the different outcome [Misuse]. *)
From stdpp Require Import gmap list.
From Coq Require Import ZArith Lia.
Open Scope nat_scope.

(** Outcomes of an operation. *)
Inductive err := Misuse | Undef.
Inductive res (A : Type) := Ok (a : A) | Err (e : err).
Arguments Ok {A} a.
Arguments Err {A} e.

Definition rbind {A B} (r : res A) (f : A -> res B) : res B :=
  match r with Ok a => f a | Err e => Err e end.
Notation "x <-! r ; k" := (rbind r (fun x => k))
  (at level 100, r at next level, k at level 200, right associativity).

Definition from_opt {A} (e : err) (o : option A) : res A :=
  match o with Some a => Ok a | None => Err e end.

(** Sizes: every Element constructor calls Initialization(3, r, l, n)
    (Element.cpp 2297-2380, Element.h 179-185), so [ls] is always 3.
    Simplification: the [iscomplex] flag is not modelled (it is copied with the size). *)
Definition shape : Type := nat * nat * nat.

(** SmartSpace.cpp 17-19: length is the product of the sizes. *)
Definition volume (sz : shape) : nat := let '(r, c, n) := sz in r * c * n.

Section model.
(** [V]: entries (realdp); [FV]: values attached to an object as fields.
    [D k sz l] is the decomposition number [k] (LU, Cholesky, QR, ...) of a matrix of shape
    [sz] and contents [l]; it is an arbitrary function, standing for LAPACK. *)
Context {V FV : Type}.
Context (D : nat -> shape -> list (option V) -> FV).

(** [None] is a cell of freshly allocated, never written memory. *)
Notation cell := (option V).

(** An Element variable: size, length, sharedtimes, Space (SmartSpace.h 105-110) and the
    cached decompositions stored in its Fields map (Element.h 562).
    Simplification: a cached field holds its value; field objects are themselves copied by
    Element copy construction only (AddToFields, Element.cpp 2770-2798). *)
Record obj := mkObj {
  o_size : shape;
  o_len : nat;
  o_share : option nat;
  o_space : option nat;
  o_cache : gmap nat FV
}.

(** Memory plus the live Element variables, by name. [next]: first unused address. *)
Record st := mkSt {
  counts : gmap nat Z;
  datas : gmap nat (list cell);
  objs : gmap nat obj;
  next : nat
}.

Definition init_st : st := mkSt ∅ ∅ ∅ 0.

Definition set_obj (s : st) (n : nat) (o : obj) : st :=
  mkSt (counts s) (datas s) (<[n := o]> (objs s)) (next s).

(** [new realdp[len]]: SmartSpace.cpp 153-162 (NewMemory). Allocation failure is not modelled. *)
Definition alloc_data (s : st) (l : list cell) : st * nat :=
  (mkSt (counts s) (<[next s := l]> (datas s)) (objs s) (S (next s)), next s).

(** [new integer] initialised to 1: SmartSpace.cpp 29-30, 37-38, 47-48, 56-57. *)
Definition alloc_count (s : st) : st * nat :=
  (mkSt (<[next s := 1%Z]> (counts s)) (datas s) (objs s) (S (next s)), next s).

(** Reads and writes through [sharedtimes] / [Space]. *)
Definition get_count (s : st) (c : nat) : res Z := from_opt Undef (counts s !! c).
Definition set_count (s : st) (c : nat) (k : Z) : res st :=
  match counts s !! c with
  | Some _ => Ok (mkSt (<[c := k]> (counts s)) (datas s) (objs s) (next s))
  | None => Err Undef
  end.
Definition get_data (s : st) (d : nat) : res (list cell) := from_opt Undef (datas s !! d).
Definition set_data (s : st) (d : nat) (l : list cell) : res st :=
  match datas s !! d with
  | Some _ => Ok (mkSt (counts s) (<[d := l]> (datas s)) (objs s) (next s))
  | None => Err Undef
  end.

(** [delete sharedtimes; delete[] Space]: releasing twice is undefined. *)
Definition free_pair (s : st) (c d : nat) : res st :=
  match counts s !! c, datas s !! d with
  | Some _, Some _ => Ok (mkSt (delete c (counts s)) (delete d (datas s)) (objs s) (next s))
  | _, _ => Err Undef
  end.

(** The object named [n]; using a dead name is the caller's error. *)
Definition get_obj (s : st) (n : nat) : res obj := from_opt Misuse (objs s !! n).

(** A dereference of a null pointer. *)
Definition deref (p : option nat) : res nat := from_opt Undef p.

Definition with_mem (o : obj) (c d : nat) : obj :=
  mkObj (o_size o) (o_len o) (Some c) (Some d) (o_cache o).

(** SmartSpace::NewMemoryOnWrite, SmartSpace.cpp 24-40. *)
Definition new_memory_on_write (s : st) (n : nat) : res st :=
  o <-! get_obj s n;
  match o_share o with
  | None =>
      let '(s1, d) := alloc_data s (replicate (o_len o) None) in
      let '(s2, c) := alloc_count s1 in
      Ok (set_obj s2 n (with_mem o c d))
  | Some c0 =>
      k <-! get_count s c0;
      if (1 <? k)%Z then
        let '(s1, d) := alloc_data s (replicate (o_len o) None) in
        s2 <-! set_count s1 c0 (k - 1)%Z;
        let '(s3, c) := alloc_count s2 in
        Ok (set_obj s3 n (with_mem o c d))
      else Ok s
  end.

(** SmartSpace::CopyOnWrite, SmartSpace.cpp 42-62. [copy_] copies [length] entries. *)
Definition copy_on_write (s : st) (n : nat) : res st :=
  o <-! get_obj s n;
  match o_share o with
  | None =>
      let '(s1, d) := alloc_data s (replicate (o_len o) None) in
      let '(s2, c) := alloc_count s1 in
      Ok (set_obj s2 n (with_mem o c d))
  | Some c0 =>
      k <-! get_count s c0;
      if (1 <? k)%Z then
        ptr <-! deref (o_space o);
        let '(s1, d) := alloc_data s (replicate (o_len o) None) in
        s2 <-! set_count s1 c0 (k - 1)%Z;
        let '(s3, c) := alloc_count s2 in
        old <-! get_data s3 ptr;
        if length old <? o_len o then Err Undef else
        s4 <-! set_data s3 d (take (o_len o) old);
        Ok (set_obj s4 n (with_mem o c d))
      else Ok s
  end.

(** Pointer equality test of SmartSpace.cpp 88:
    [eta.Space == Space && !(eta.Space == nullptr && Space == nullptr)]. *)
Definition same_space (a b : option nat) : bool :=
  match a, b with Some x, Some y => bool_decide (x = y) | _, _ => false end.

(** The tail of SmartSpace::CopyTo, SmartSpace.cpp 135-150: share the source's memory. *)
Definition share_into (s : st) (dst src : obj) (ndst : nat) : res st :=
  s1 <-! match o_share src with
         | Some c => k <-! get_count s c; set_count s c (k + 1)%Z
         | None => Ok s
         end;
  Ok (set_obj s1 ndst
        (mkObj (o_size src) (o_len src) (o_share src) (o_space src) (o_cache dst))).

(** SmartSpace::CopyTo, SmartSpace.cpp 86-151: [src.CopyTo(dst)] for two different variables
    (the case [this == &eta] returns at once, line 88). *)
Definition copy_to (s : st) (nsrc ndst : nat) : res st :=
  src <-! get_obj s nsrc;
  dst <-! get_obj s ndst;
  if bool_decide (nsrc = ndst) then Ok s else
  if same_space (o_space dst) (o_space src) then Ok s else
  let same_size := bool_decide (o_size dst = o_size src) in
  match o_share dst with
  | None => share_into s dst src ndst
  | Some cd =>
      k <-! get_count s cd;
      dd <-! deref (o_space dst);
      if (k =? 1)%Z && same_size then
        match o_space src with
        | Some ds =>                                   (* line 113 *)
            old <-! get_data s ds;
            tgt <-! get_data s dd;
            if (length old <? o_len src) || (length tgt <? o_len src) then Err Undef else
            set_data s dd (take (o_len src) old ++ drop (o_len src) tgt)
        | None =>                                      (* lines 116-117 *)
            s1 <-! free_pair s cd dd;
            Ok (set_obj s1 ndst (mkObj (o_size dst) (o_len dst) None None (o_cache dst)))
        end
      else if (1 <? k)%Z then                          (* lines 121-124 *)
        s1 <-! set_count s cd (k - 1)%Z;
        share_into s1 dst src ndst
      else if (k =? 1)%Z then                          (* lines 126-133 *)
        s1 <-! free_pair s cd dd;
        share_into s1 dst src ndst
      else share_into s dst src ndst
  end.

(** Element::RemoveAllFromFields, Element.cpp 2827-2841 (non-product objects). *)
Definition remove_fields (s : st) (n : nat) : res st :=
  o <-! get_obj s n;
  Ok (set_obj s n (mkObj (o_size o) (o_len o) (o_share o) (o_space o) ∅)).

(** Element::CopyTo, Element.cpp 2587-2630: SmartSpace::CopyTo, then the fields of the
    target are made equal to those of the source (the field-by-field synchronisation of
    lines 2600-2629 is modelled and proved in FieldsModel.v). *)
Definition element_copy_to (s : st) (nsrc ndst : nat) : res st :=
  s1 <-! copy_to s nsrc ndst;
  src <-! get_obj s1 nsrc;
  dst <-! get_obj s1 ndst;
  Ok (set_obj s1 ndst (mkObj (o_size dst) (o_len dst) (o_share dst) (o_space dst) (o_cache src))).

(** Element::ObtainWriteEntireData / NewMemoryOnWrite, Element.cpp 2672-2676, 2684-2689. *)
Definition obtain_write_entire (s : st) (n : nat) : res st :=
  s1 <-! remove_fields s n; new_memory_on_write s1 n.

(** Element::ObtainWritePartialData, Element.cpp 2678-2682. *)
Definition obtain_write_partial (s : st) (n : nat) : res st :=
  s1 <-! remove_fields s n; copy_on_write s1 n.

(** The array an object currently points to. *)
Definition data_of (s : st) (n : nat) : res (nat * list cell) :=
  o <-! get_obj s n;
  d <-! deref (o_space o);
  l <-! get_data s d;
  Ok (d, l).

(** SmartSpace::~SmartSpace, SmartSpace.cpp 181-202 (with RemoveAllFromFields,
    Element.cpp 2581-2585). *)
Definition destroy (s : st) (n : nat) : res st :=
  o <-! get_obj s n;
  s1 <-! match o_share o with
         | None => Ok s
         | Some c =>
             k <-! get_count s c;
             s1 <-! set_count s c (k - 1)%Z;
             if (k - 1 =? 0)%Z then
               match o_space o with
               | Some d => free_pair s1 c d
               | None => Ok s1
               end
             else Ok s1
         end;
  Ok (mkSt (counts s1) (datas s1) (delete n (objs s1)) (next s1)).

(** Operations a program performs on its Element variables. *)
Inductive op :=
| ONew (n : nat) (sz : shape)             (* Element x(r, c, n);           Element.cpp 2313 *)
| OCopy (n m : nat)                       (* Element x(y);                 Element.h 179-185 *)
| OAssign (n m : nat)                     (* x = y;                        Element.h 187-195 *)
| ODestroy (n : nat)                      (* end of the lifetime of x *)
| OWriteAll (n : nat) (l : list V)        (* p = x.ObtainWriteEntireData(); fill p *)
| OWriteAt (n i : nat) (v : V)            (* p = x.ObtainWritePartialData(); p[i] = v *)
| OZeros (n : nat) (z : V)                (* x.SetToZeros();               Element.cpp 2665 *)
| OUpdate (n : nat) (g : nat -> V -> V)   (* x.ScalarTimesThis(a) and the like, 1660 *)
| OZip (n m : nat) (g : V -> V -> V)      (* x.AlphaXaddThis(a, y);        Element.cpp 1641 *)
| OScaledId (n : nat) (a z : V)           (* x.ScaledIdOPE(a);             Element.cpp 2854 *)
| OReshape (n : nat) (sz : shape)         (* x.Reshape(r, c, n);           Element.cpp 1810 *)
| ORawUpdate (n : nat) (g : nat -> V -> V)(* x.HaddRankone / x.Conj        1611, 1946 *)
| OSubAssign (n : nat) (ws : list (nat * V)) (* x.SubmatrixAssignment      2232-2260 *)
| ODecomp (n k : nat)                     (* x.QRDecom(); x.Field("_Q") etc. *)
| ORead (n : nat).                        (* x.ObtainReadData() and the sizes *)

(** What the program observes. *)
Inductive out :=
| ONone
| OData (sz : shape) (l : option (list cell))
| OField (v : FV).

(** Sequential stores p[i] = v; an index outside the array is the caller's error. *)
Fixpoint stores (l : list cell) (ws : list (nat * V)) : res (list cell) :=
  match ws with
  | [] => Ok l
  | (i, v) :: ws =>
      if i <? length l then stores (<[i := Some v]> l) ws else Err Misuse
  end.

(** Element::ScaledIdOPE, Element.cpp 2862-2871: the first [ell*ell] cells are written. *)
Definition id_cells (ell : nat) (a z : V) (l : list cell) : list cell :=
  imap (fun i x => if i <? ell * ell
                   then Some (if bool_decide (i mod ell = i / ell) then a else z) else x) l.

Definition fresh_name (s : st) (n : nat) : res unit :=
  match objs s !! n with Some _ => Err Misuse | None => Ok tt end.

Definition step (s : st) (o : op) : res (st * out) :=
  match o with
  | ONew n sz =>
      _ <-! fresh_name s n;
      Ok (set_obj s n (mkObj sz (volume sz) None None ∅), ONone)
  | OCopy n m =>
      _ <-! fresh_name s n;
      src <-! get_obj s m;
      let s1 := set_obj s n (mkObj (o_size src) (volume (o_size src)) None None ∅) in
      s2 <-! element_copy_to s1 m n;
      Ok (s2, ONone)
  | OAssign n m =>
      if bool_decide (n = m) then (_ <-! get_obj s n; Ok (s, ONone))
      else s1 <-! element_copy_to s m n; Ok (s1, ONone)
  | ODestroy n => s1 <-! destroy s n; Ok (s1, ONone)
  | OWriteAll n l =>
      s1 <-! obtain_write_entire s n;
      x <-! data_of s1 n;
      if bool_decide (length l = length (snd x)) then
        s2 <-! set_data s1 (fst x) (Some <$> l); Ok (s2, ONone)
      else Err Misuse
  | OWriteAt n i v =>
      s1 <-! obtain_write_partial s n;
      x <-! data_of s1 n;
      l <-! stores (snd x) [(i, v)];
      s2 <-! set_data s1 (fst x) l; Ok (s2, ONone)
  | OZeros n z =>
      s1 <-! remove_fields s n;
      s2 <-! new_memory_on_write s1 n;
      x <-! data_of s2 n;
      s3 <-! set_data s2 (fst x) ((fun _ => Some z) <$> snd x); Ok (s3, ONone)
  | OUpdate n g =>
      s1 <-! obtain_write_partial s n;
      x <-! data_of s1 n;
      s2 <-! set_data s1 (fst x) (imap (fun i c => g i <$> c) (snd x)); Ok (s2, ONone)
  | OZip n m g =>                         (* Xptr is taken before the write access, 1644-1645 *)
      on <-! get_obj s n;
      om <-! get_obj s m;
      if negb (bool_decide (o_len on = o_len om)) then Err Misuse else
      xp <-! from_opt Misuse (o_space om);
      s1 <-! obtain_write_partial s n;
      x <-! data_of s1 n;
      lx <-! get_data s1 xp;
      s2 <-! set_data s1 (fst x)
               (zip_with (fun a b => y ← a; w ← b; Some (g y w)) (snd x) lx);
      Ok (s2, ONone)
  | OScaledId n a z =>
      o <-! get_obj s n;
      let '(r, c, _) := o_size o in
      if bool_decide (r = c) then
        s1 <-! new_memory_on_write s n;
        x <-! data_of s1 n;
        s2 <-! set_data s1 (fst x) (id_cells r a z (snd x)); Ok (s2, ONone)
      else Ok (s, ONone)
  | OReshape n sz =>
      o <-! get_obj s n;
      if bool_decide (volume sz = o_len o) then
        Ok (set_obj s n (mkObj sz (o_len o) (o_share o) (o_space o) (o_cache o)), ONone)
      else Err Misuse
  | ORawUpdate n g =>
      o <-! get_obj s n;
      d <-! from_opt Misuse (o_space o);   (* assert(Space != nullptr) *)
      l <-! get_data s d;
      s1 <-! set_data s d (imap (fun i c => g i <$> c) l); Ok (s1, ONone)
  | OSubAssign n ws =>
      s1 <-! remove_fields s n;
      s2 <-! new_memory_on_write s1 n;
      x <-! data_of s2 n;
      l <-! stores (snd x) ws;
      s3 <-! set_data s2 (fst x) l; Ok (s3, ONone)
  | ODecomp n k =>
      o <-! get_obj s n;
      match o_cache o !! k with
      | Some v => Ok (s, OField v)
      | None =>
          d <-! from_opt Misuse (o_space o);
          l <-! get_data s d;
          let v := D k (o_size o) l in
          Ok (set_obj s n (mkObj (o_size o) (o_len o) (o_share o) (o_space o)
                                 (<[k := v]> (o_cache o))), OField v)
      end
  | ORead n =>
      o <-! get_obj s n;
      match o_space o with
      | None => Ok (s, OData (o_size o) None)
      | Some d => l <-! get_data s d; Ok (s, OData (o_size o) (Some l))
      end
  end.

(** A whole program: the observations it makes and the final memory. *)
Fixpoint run (s : st) (ops : list op) : res (st * list out) :=
  match ops with
  | [] => Ok (s, [])
  | o :: ops =>
      x <-! step s o;
      y <-! run (fst x) ops;
      Ok (fst y, snd x :: snd y)
  end.

End model.
