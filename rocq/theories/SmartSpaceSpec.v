(** Specification of array variables: every variable owns a private array.
    Nothing here mentions sharing, counters or addresses.  The vocabulary of operations and
    observations ([op], [out]) is the one of SmartSpaceModel.v. *)
From stdpp Require Import gmap list.
From Coq Require Import ZArith.
From Verif Require Import SmartSpaceModel.

Section spec.
Context {V FV : Type}.
Context (D : nat -> shape -> list (option V) -> FV).

(** A private array: its shape, and its contents unless it was never allocated.
    [None] inside the contents is an entry that was never written. *)
Definition val : Type := shape * option (list (option V)).
Notation spec_st := (gmap nat val).

(** Contents seen by a write that keeps the other entries. *)
Definition contents (v : val) : list (option V) :=
  match snd v with Some l => l | None => replicate (volume (fst v)) None end.

Fixpoint put (l : list (option V)) (ws : list (nat * V)) : option (list (option V)) :=
  match ws with
  | [] => Some l
  | (i, v) :: ws => if i <? length l then put (<[i := Some v]> l) ws else None
  end.

(** The result of one operation; [None]: the program uses the interface wrongly
    (dead variable, wrong size, index out of range, ...). *)
Definition spec_step (m : spec_st) (o : op) : option (spec_st * out) :=
  match o with
  | ONew n sz => match m !! n with
                 | None => Some (<[n := (sz, None)]> m, ONone)
                 | Some _ => None end
  | OCopy n k => match m !! n, m !! k with
                 | None, Some v => Some (<[n := v]> m, ONone)
                 | _, _ => None end
  | OAssign n k => match m !! n, m !! k with
                   | Some _, Some v => Some (<[n := v]> m, ONone)
                   | _, _ => None end
  | ODestroy n => match m !! n with
                  | Some _ => Some (delete n m, ONone)
                  | None => None end
  | OWriteAll n l => match m !! n with
                     | Some v => if bool_decide (length l = volume (fst v))
                                 then Some (<[n := (fst v, Some (Some <$> l))]> m, ONone)
                                 else None
                     | None => None end
  | OWriteAt n i x => match m !! n with
                      | Some v => match put (contents v) [(i, x)] with
                                  | Some l => Some (<[n := (fst v, Some l)]> m, ONone)
                                  | None => None end
                      | None => None end
  | OZeros n z => match m !! n with
                  | Some v => Some (<[n := (fst v, Some (replicate (volume (fst v)) (Some z)))]> m, ONone)
                  | None => None end
  | OUpdate n g | ORawUpdate n g =>
      match m !! n with
      | Some v => Some (<[n := (fst v, Some (imap (fun i c => g i <$> c) (contents v)))]> m, ONone)
      | None => None end
  | OZip n k g =>
      match m !! n, m !! k with
      | Some v, Some (sz, Some l) =>
          if bool_decide (volume (fst v) = volume sz)
          then Some (<[n := (fst v, Some (zip_with (fun a b => y ← a; w ← b; Some (g y w)) (contents v) l))]> m, ONone)
          else None
      | _, _ => None end
  | OScaledId n a z =>
      match m !! n with
      | Some ((r, c, d), l) =>
          if bool_decide (r = c) then
            if bool_decide (d = 1) then
              Some (<[n := ((r, c, d),
                            Some (imap (fun i _ => Some (if bool_decide (i mod r = i / r) then a else z))
                                       (replicate (r * c) tt)))]> m, ONone)
            else None
          else Some (m, ONone)
      | None => None end
  | OReshape n sz =>
      match m !! n with
      | Some v => if bool_decide (volume sz = volume (fst v))
                  then Some (<[n := (sz, snd v)]> m, ONone) else None
      | None => None end
  | OSubAssign n ws =>
      match m !! n with
      | Some v => match put (contents v) ws with
                  | Some l => Some (<[n := (fst v, Some l)]> m, ONone)
                  | None => None end
      | None => None end
  | ODecomp n k =>
      match m !! n with
      | Some (sz, Some l) => Some (m, OField (D k sz l))
      | _ => None end
  | ORead n =>
      match m !! n with
      | Some (sz, l) => Some (m, OData sz l)
      | None => None end
  end.

Fixpoint spec_run (m : spec_st) (ops : list op) : option (spec_st * list out) :=
  match ops with
  | [] => Some (m, [])
  | o :: ops =>
      x ← spec_step m o;
      y ← spec_run (fst x) ops;
      Some (fst y, snd x :: snd y)
  end.

(** Operations whose effect on values is claimed to be that of private arrays (C01). *)
Definition value_op (o : op (V := V)) : Prop :=
  match o with
  | OReshape _ _ | ORawUpdate _ _ | OSubAssign _ _ | ODecomp _ _ => False
  | _ => True
  end.

(** Operations under which cached decompositions are claimed to be current (C05). *)
Definition cache_op (o : op (V := V)) : Prop :=
  match o with
  | OReshape _ _ | ORawUpdate _ _ | OSubAssign _ _ | OScaledId _ _ _ => False
  | _ => True
  end.
(** The variable an operation is applied to. *)
Definition target (o : op (V := V)) : nat :=
  match o with
  | ONew n _ | OCopy n _ | OAssign n _ | ODestroy n | OWriteAll n _ | OWriteAt n _ _ | OZeros n _
  | OUpdate n _ | OZip n _ _ | OScaledId n _ _ | OReshape n _ | ORawUpdate n _ | OSubAssign n _
  | ODecomp n _ | ORead n => n
  end.
(** The methods that write through the raw pointer (HaddRankone, Conj). *)
Definition is_raw (o : op (V := V)) : Prop := match o with ORawUpdate _ _ => True | _ => False end.

(** What a program sees when it reads variable [n]: shape and entries. *)
Definition reads (s : st (V := V) (FV := FV)) (n : nat) : option val :=
  match step D s (ORead n) with Ok (_, OData sz l) => Some (sz, l) | _ => None end.
End spec.
Arguments val : clear implicits.
