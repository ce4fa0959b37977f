(** Vocabulary for the sparse matrix theorems. *)
From Coq Require Import List Bool Arith ZArith Ring_theory Reals.
From Verif Require Import SparseModel.
Import ListNotations.

(** Exact arithmetic on T: a commutative ring with conjugation, division by non-zero elements and
    a correct equality test. *)
Record lawful (K : scal) : Prop := {
  law_ring : ring_theory (@s0 K) s1 sadd smul ssub sopp eq;
  law_conj_add : forall x y : K, sconj (sadd x y) = sadd (sconj x) (sconj y);
  law_conj_mul : forall x y : K, sconj (smul x y) = smul (sconj x) (sconj y);
  law_conj_conj : forall x : K, sconj (sconj x) = x;
  law_div : forall x y : K, y <> s0 -> smul (sdiv x y) y = x;
  law_one : (s1 : K) <> s0;
  law_eqb : forall x y : K, seqb x y = true <-> x = y }.

(** Real numbers and complex numbers. *)
Definition Reqb_ (x y : R) : bool := if Req_EM_T x y then true else false.
Definition real : scal := mkScal R 0%R 1%R Rplus Rminus Rmult Rdiv Ropp (fun x => x) Reqb_.
Definition cx := (R * R)%type.
Local Open Scope R_scope.
Definition cx_add (a b : cx) : cx := (fst a + fst b, snd a + snd b).
Definition cx_sub (a b : cx) : cx := (fst a - fst b, snd a - snd b).
Definition cx_mul (a b : cx) : cx := (fst a * fst b - snd a * snd b, fst a * snd b + snd a * fst b).
Definition cx_div (a b : cx) : cx :=
  let d := fst b * fst b + snd b * snd b in
  ((fst a * fst b + snd a * snd b) / d, (snd a * fst b - fst a * snd b) / d).
Definition complex : scal :=
  mkScal cx (0, 0) (1, 0) cx_add cx_sub cx_mul cx_div (fun a => (- fst a, - snd a)) (fun a => (fst a, - snd a))
    (fun a b => andb (Reqb_ (fst a) (fst b)) (Reqb_ (snd a) (snd b))).
Local Close Scope R_scope.

(** A value with its row and column index. *)
Notation triplet K := (T K * Z * Z)%type.

Section spec.
Context {K : scal}.
Local Open Scope Z_scope.
Fixpoint lsum (l : list K) : K := match l with [] => s0 | x :: l => sadd x (lsum l) end.
(** f 0 + ... + f (n-1) *)
Definition sumto (n : nat) (f : Z -> K) : K := lsum (map (fun i => f (Z.of_nat i)) (seq 0 n)).

(** The property list ps as set with BLAS_ussp before the first insertion. *)
Definition prop_eqb (a b : prop) : bool :=
  match a, b with
  | ZeroBase, ZeroBase | OneBase, OneBase | UnitDiag, UnitDiag | LowerTri, LowerTri | UpperTri, UpperTri
  | LowerSym, LowerSym | UpperSym, UpperSym | LowerHer, LowerHer | UpperHer, UpperHer => true
  | _, _ => false
  end.
Definition has (p : prop) (ps : list prop) : bool := existsb (prop_eqb p) ps.
Definition triangular ps := has LowerTri ps || has UpperTri ps.
Definition symmetric ps := has LowerSym ps || has UpperSym ps.
Definition hermitian ps := has LowerHer ps || has UpperHer ps.
(** Index base: the last one set, 0 by default. *)
Definition base (ps : list prop) : Z :=
  fold_left (fun b p => match p with ZeroBase => 0 | OneBase => 1 | _ => b end) ps 0.

(** Does the triplet refer to entry (i, j), counted from 0? *)
Definition hits (b i j : Z) (t : triplet K) : bool := let '(_, r, c) := t in Z.eqb (r - b) i && Z.eqb (c - b) j.
Definition value (t : triplet K) : K := fst (fst t).
(** The sum of all values given for entry (i, j). *)
Definition inserted (b : Z) (ts : list (triplet K)) (i j : Z) : K := lsum (map value (filter (hits b i j) ts)).
(** Some triplet lies inside an M by N matrix. *)
Definition in_range (b : Z) (M N : nat) (t : triplet K) : Prop :=
  let '(_, r, c) := t in 0 <= r - b < Z.of_nat M /\ 0 <= c - b < Z.of_nat N.

(** The matrix a user means by the properties ps and the triplets ts. *)
Definition dense (ps : list prop) (ts : list (triplet K)) (i j : Z) : K :=
  let e := inserted (base ps) ts in
  if triangular ps || symmetric ps then
    if Z.eqb i j then if has UnitDiag ps then s1 else e i i
    else if symmetric ps then sadd (e i j) (e j i) else e i j
  else e i j.

(** Create, set properties, insert, finish. *)
Definition build (ps : list prop) (M N : nat) (ts : list (triplet K)) : option (smat K) :=
  match insert_entries K ts (fold_left (fun m p => ussp K p m) ps (begin K M N)) with
  | Some m => Some (snd (end_ K m))
  | None => None
  end.

(** op(A) *)
Definition op (t : trans) (A : Z -> Z -> K) (i j : Z) : K :=
  match t with NoTrans => A i j | Trans => A j i | ConjTrans => sconj (A j i) end.
Definition op_rows (t : trans) (M N : nat) : nat := match t with NoTrans => M | _ => N end.
Definition op_cols (t : trans) (M N : nat) : nat := match t with NoTrans => N | _ => M end.

(** Addresses b, b + inc, ..., of the array m hold f 0, f 1, ..., f (n-1). *)
Definition view (m : vmem K) (b inc : Z) (n : nat) (f : Z -> K) : Prop :=
  forall k, 0 <= k < Z.of_nat n -> m (b + k * inc) = Some (f k).
(** m' agrees with m outside those addresses. *)
Definition same_outside (m m' : vmem K) (b inc : Z) (n : nat) : Prop :=
  forall a, (forall k, 0 <= k < Z.of_nat n -> a <> b + k * inc) -> m' a = m a.

(** An r by c matrix stored by columns from address 0. *)
Definition bycols (m : vmem K) (r c : nat) (A : Z -> Z -> K) : Prop :=
  forall i j, 0 <= i < Z.of_nat r -> 0 <= j < Z.of_nat c -> m (i + j * Z.of_nat r) = Some (A i j).
(** The value of an optional result satisfies P. *)
Definition succeeds {X} (o : option X) (P : X -> Prop) : Prop := exists x, o = Some x /\ P x.

(** Entry (i, k) of a matrix with leading dimension ld. *)
Definition addr (o : order) (ld i k : Z) : Z := match o with ColMajor => i + k * ld | RowMajor => i * ld + k end.

(** A triangular matrix of size n: some entry was inserted, everything inserted lies in the declared
    triangle (lower if both are declared), and no diagonal entry is zero. *)
Definition solvable (ps : list prop) (n : nat) (ts : list (triplet K)) : Prop :=
  hermitian ps = false /\ symmetric ps = false /\ triangular ps = true
  /\ (exists t, In t ts /\ in_range (base ps) n n t)
  /\ (forall i j, 0 <= i < Z.of_nat n -> 0 <= j < Z.of_nat n ->
        (if has LowerTri ps then i < j else j < i) -> dense ps ts i j = s0)
  /\ (forall i, 0 <= i < Z.of_nat n -> dense ps ts i i <> s0).

(** ** Indexed vectors *)
Definition base_of (one : bool) : Z := if one then 1 else 0.
Definition index_ok (n : nat) (one : bool) (k : Z) : Prop := 0 <= k - base_of one < Z.of_nat n.
(** The vector g after writing the values xi at their indices, the last one winning. *)
Definition scattered (one : bool) (xi : list (K * Z)) (g : Z -> K) (i : Z) : K :=
  fold_left (fun v p => if Z.eqb (snd p) (i + base_of one) then fst p else v) xi (g i).

(** ** Blocks *)
Definition range (n : nat) : list Z := map Z.of_nat (seq 0 n).
(** The k by l block B at block position (I, J), as triplets. *)
Definition place (k l : nat) (I J : Z) (B : Z -> Z -> K) : list (triplet K) :=
  flat_map (fun a => map (fun c => (B a c, I * Z.of_nat k + a, J * Z.of_nat l + c)) (range l)) (range k).

(** ** Histories of the handle table *)
Inductive hop := Create (m : smat K) | Destroy (h : Z) | Change (h : Z) (f : smat K -> option (smat K)).
(** One operation; the handle returned by Create. *)
Definition hstep (o : hop) (t : table K) : option (Z * table K) :=
  match o with
  | Create m => Some (table_insert K m t)
  | Destroy h => match usds K h t with Some t => Some (0, t) | None => None end
  | Change h f => match table_update K h f t with Some t => Some (0, t) | None => None end
  end.
(** None: an operation was undefined, or a change failed. *)
Fixpoint history (os : list hop) (t : table K) : option (table K) :=
  match os with
  | [] => Some t
  | o :: os => match hstep o t with Some (_, t) => history os t | None => None end
  end.
(** Does the operation name handle h? *)
Definition names (h : Z) (o : hop) : Prop := match o with Create _ => False | Destroy h' => h' = h | Change h' _ => h' = h end.
End spec.
