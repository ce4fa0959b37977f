(** Model of products of manifolds, Manifolds/MultiManifolds.cpp.

    [E] is the type of the components of points and vectors.  The component manifolds are records of
    functions; the first argument of those that read IsIntrApproach is its value at the time of the
    call.  Points and vectors of the product are slots of a store, so that [result] may be one of
    the arguments; a component of which the memory is newly allocated holds nothing ([None]) until it
    is written, and what is computed from nothing is nothing.  Attached fields are left out
    (FieldsModel.v, ProductModel.v). *)
From Coq Require Import List Arith Bool QArith.
From Verif Require Import Arith.
Import ListNotations.
Local Open Scope arith_scope.

Section model.
Variable A : arith.
Variable E : Type.

Record mani := mkMani {
  m_metric : bool -> E -> E -> E -> F A;        (* Metric *)
  m_dist : E -> E -> F A;                       (* Dist *)
  m_proj : bool -> E -> E -> E;                 (* Projection *)
  m_extrproj : E -> E -> E;                     (* ExtrProjection *)
  m_retr : bool -> E -> E -> E;                 (* Retraction *)
  m_invretr : bool -> E -> E -> E;              (* InvRetraction *)
  m_diff : bool -> E -> E -> E -> E -> E;       (* DiffRetraction *)
  m_cotan : bool -> E -> E -> E -> E -> E;      (* coTangentVector *)
  m_vt : bool -> E -> E -> E -> E -> E;         (* VectorTransport *)
  m_ivt : bool -> E -> E -> E -> E -> E;        (* InverseVectorTransport *)
  m_intr : E -> E -> E;                         (* ObtainIntr *)
  m_extr : E -> E -> E;                         (* ObtainExtr *)
  m_extrdim : nat;
  m_intrdim : nat }.

(** The object: the types with their IsIntrApproach, powsinterval, and its own IsIntrApproach. *)
Record prod := mkProd {
  p_manis : list mani;
  p_flags : list bool;
  p_pows : list nat;
  p_intr : bool }.

(** Constructor 6-57: powsinterval from the numbers of the types; the dimensions 25-30. *)
Fixpoint pows_from (s : nat) (counts : list nat) : list nat :=
  match counts with
  | [] => [s]
  | c :: cs => s :: pows_from (s + c) cs
  end.
Definition make (manis : list mani) (flags : list bool) (counts : list nat) : prod :=
  mkProd manis flags (pows_from 0 counts) true.
Definition dim_of (d : mani -> nat) (p : prod) : nat :=
  fold_left (fun acc i => acc + (nth (S i) (p_pows p) 0 - nth i (p_pows p) 0) *
      match nth_error (p_manis p) i with Some m => d m | None => 0 end)%nat
    (seq 0 (length (p_manis p))) 0%nat.
Definition extr_dim := dim_of m_extrdim.
Definition intr_dim := dim_of m_intrdim.
(** numoftotalmani 28. *)
Definition total_manis (p : prod) : nat :=
  fold_left (fun acc i => acc + (nth (S i) (p_pows p) 0 - nth i (p_pows p) 0))%nat
    (seq 0 (length (p_manis p))) 0%nat.

(** The two nested loops of every operation: i over the types, j from powsinterval[i] to
    powsinterval[i + 1] - 1. *)
Definition range (a b : nat) : list nat := seq a (b - a).
Definition ploop {S : Type} (p : prod) (body : nat -> mani -> nat -> S -> S) (s : S) : S :=
  fold_left (fun s i =>
      match nth_error (p_manis p) i with
      | Some m => fold_left (fun s j => body i m j s)
                    (range (nth i (p_pows p) 0%nat) (nth (i + 1) (p_pows p) 0%nat)) s
      | None => s
      end)
    (seq 0 (length (p_manis p))) s.
Definition flag (p : prod) (i : nat) : bool := nth i (p_flags p) false.

(** Slots: each holds the components of a point or vector. *)
Definition store := nat -> list (option E).
Definition comp (l : list (option E)) (j : nat) : option E := nth j l None.
Fixpoint list_upd {T : Type} (l : list T) (j : nat) (v : T) : list T :=
  match l, j with
  | [], _ => []
  | _ :: l', O => v :: l'
  | a :: l', S j' => a :: list_upd l' j' v
  end.
Definition st_set (st : store) (k : nat) (l : list (option E)) : store :=
  fun k' => if Nat.eqb k' k then l else st k'.
Definition st_write (st : store) (k j : nat) (v : option E) : store :=
  st_set st k (list_upd (st k) j v).
(** NewMemoryOnWrite *)
Definition new_memory (st : store) (k : nat) : store := st_set st k (map (fun _ => None) (st k)).
Definition op2 (f : E -> E -> E) (a b : option E) : option E :=
  match a, b with Some a, Some b => Some (f a b) | _, _ => None end.
Definition op4 (f : E -> E -> E -> E -> E) (a b c d : option E) : option E :=
  match a, b, c, d with Some a, Some b, Some c, Some d => Some (f a b c d) | _, _, _, _ => None end.
Definition num3 (f : E -> E -> E -> F A) (a b c : option E) : option (F A) :=
  match a, b, c with Some a, Some b, Some c => Some (f a b c) | _, _, _ => None end.
Definition num2 (f : E -> E -> F A) (a b : option E) : option (F A) :=
  match a, b with Some a, Some b => Some (f a b) | _, _ => None end.

(** Metric 128-139. *)
Definition prod_metric (p : prod) (st : store) (x eta xi : nat) : option (F A) :=
  ploop p (fun i m j acc =>
      match acc, num3 (m_metric m (flag p i)) (comp (st x) j) (comp (st eta) j) (comp (st xi) j) with
      | Some a, Some v => Some (a + v)
      | _, _ => None
      end) (Some (fq 0)).
(** Dist 335-347. *)
Definition prod_dist (p : prod) (st : store) (x1 x2 : nat) : option (F A) :=
  match ploop p (fun i m j acc =>
      match acc, num2 (m_dist m) (comp (st x1) j) (comp (st x2) j) with
      | Some a, Some tmp => Some (a + tmp * tmp)
      | _, _ => None
      end) (Some (fq 0)) with
  | Some r => Some (fsqrt r)
  | None => None
  end.
(** Projection 161-176, ExtrProjection 178-193: the vector is stored before result gets new memory. *)
Definition prod_proj (p : prod) (st : store) (x eta result : nat) : store :=
  let inetax := st eta in
  ploop p (fun i m j st => st_write st result j (op2 (m_proj m (flag p i)) (comp (st x) j) (comp inetax j)))
    (new_memory st result).
Definition prod_extrproj (p : prod) (st : store) (x eta result : nat) : store :=
  let inetax := st eta in
  ploop p (fun i m j st => st_write st result j (op2 (m_extrproj m) (comp (st x) j) (comp inetax j)))
    (new_memory st result).
(** Retraction 195-221 and InvRetraction 223-249.  In the extrinsic case SetIsIntrApproach changes
    the component's object, which stays changed. *)
Definition set_flag (p : prod) (i : nat) (b : bool) : prod :=
  mkProd (p_manis p) (list_upd (p_flags p) i b) (p_pows p) (p_intr p).
Definition prod_op2 (f : mani -> bool -> E -> E -> E) (p : prod) (st : store) (x eta result : nat) : prod * store :=
  let st := new_memory st result in
  if p_intr p then
    (p, ploop p (fun i m j st => st_write st result j (op2 (f m (flag p i)) (comp (st x) j) (comp (st eta) j))) st)
  else
    ploop p (fun i m j ps =>
      let p1 := set_flag (fst ps) i false in
      let st1 := st_write (snd ps) result j
                   (op2 (f m (flag p1 i)) (comp (snd ps x) j) (comp (snd ps eta) j)) in
      (set_flag p1 i true, st1)) (p, st).
Definition prod_retr := prod_op2 m_retr.
Definition prod_invretr := prod_op2 m_invretr.
(** coTangentVector 251-266, DiffRetraction 299-310, VectorTransport 349-366, InverseVectorTransport
    368-385, with HasHHR false. *)
Definition prod_op4 (f : mani -> bool -> E -> E -> E -> E -> E) (p : prod) (st : store) (x eta y xi result : nat) : store :=
  let inxi := st xi in
  ploop p (fun i m j st => st_write st result j
      (op4 (f m (flag p i)) (comp (st x) j) (comp (st eta) j) (comp (st y) j) (comp inxi j)))
    (new_memory st result).
Definition prod_cotan := prod_op4 m_cotan.
Definition prod_diff := prod_op4 m_diff.
Definition prod_vt := prod_op4 m_vt.
Definition prod_ivt := prod_op4 m_ivt.
(** ObtainIntr 426-444, ObtainExtr 446-463. *)
Definition prod_intr (p : prod) (st : store) (x eta result : nat) : store :=
  ploop p (fun i m j st => st_write st result j
      (if flag p i then op2 (m_intr m) (comp (st x) j) (comp (st eta) j) else comp (st eta) j))
    (new_memory st result).
Definition prod_extr (p : prod) (st : store) (x eta result : nat) : store :=
  ploop p (fun i m j st => st_write st result j
      (if flag p i then op2 (m_extr m) (comp (st x) j) (comp (st eta) j) else comp (st eta) j))
    (new_memory st result).

(** TranHInvTran 387-409, with HasHHR false.  [hinv j] and [tranh j] are HInvTran and TranH of the
    manifold of component j, called with the range of that component; [lens] are the lengths of the
    components of eta.  The matrices are slots too: the loop reads and writes *result; Hx is not
    read. *)
Variable mat : Type.
Definition mstore := nat -> mat.
Definition prod_tran (hinv tranh : nat -> nat -> nat -> mat -> mat) (p : prod) (lens : list nat)
    (st : mstore) (Hx result : nat) : mstore :=
  let H := snd (ploop p (fun i m j s =>
      let start := fst s in
      let end_ := (start + nth j lens 0)%nat in
      let H1 := hinv j start end_ (snd s) in
      (end_, tranh j start end_ H1)) (0%nat, st result)) in
  fun k => if Nat.eqb k result then H else st k.
End model.

Arguments mkMani {_ _}. Arguments mkProd {_ _}. Arguments p_manis {_ _}. Arguments p_flags {_ _}.
Arguments p_pows {_ _}. Arguments p_intr {_ _}. Arguments make {_ _}.
Arguments m_metric {_ _}. Arguments m_dist {_ _}. Arguments m_proj {_ _}. Arguments m_extrproj {_ _}.
Arguments m_retr {_ _}. Arguments m_invretr {_ _}. Arguments m_diff {_ _}. Arguments m_cotan {_ _}.
Arguments m_vt {_ _}. Arguments m_ivt {_ _}. Arguments m_intr {_ _}. Arguments m_extr {_ _}.
Arguments m_extrdim {_ _}. Arguments m_intrdim {_ _}.
Arguments extr_dim {_ _}. Arguments intr_dim {_ _}. Arguments total_manis {_ _}.
Arguments prod_metric {_ _}. Arguments prod_dist {_ _}. Arguments prod_proj {_ _}.
Arguments prod_extrproj {_ _}. Arguments prod_retr {_ _}. Arguments prod_invretr {_ _}.
Arguments prod_cotan {_ _}. Arguments prod_diff {_ _}. Arguments prod_vt {_ _}. Arguments prod_ivt {_ _}.
Arguments prod_intr {_ _}. Arguments prod_extr {_ _}. Arguments prod_tran {_ _ _}.
