(** Model of the entry-by-entry code of Manifolds/Element.cpp: transposition, blocks, identities,
    diagonal scaling, and real and complex arithmetic.

    An array is the list of its cells; a cell of freshly allocated memory holds nothing ([None])
    until it is written.  The loops of the code are given as the assignments they perform, in
    order ([store]); an index outside the array, on either side, is undefined behaviour, the
    result [None] of [store].  Index arithmetic is in [nat] (the code's [integer] does not
    overflow for arrays that fit in memory). *)
From Coq Require Import List Arith QArith.
From Verif Require Import Arith.
Import ListNotations.
Local Open Scope nat_scope.
Local Open Scope list_scope.

Section model.
Context {A : arith}.
Notation F := (F A).

Definition cells := list (option F).
(** NewMemoryOnWrite, SmartSpace.cpp 24-40, when the storage is new. *)
Definition new (n : nat) : cells := repeat None n.
(** An array whose cells have all been written. *)
Definition filled (a : list F) : cells := map Some a.

Fixpoint set_nth {B} (l : list B) (p : nat) (v : B) : list B :=
  match l, p with
  | [], _ => []
  | _ :: l, 0 => v :: l
  | x :: l, S p => x :: set_nth l p v
  end.

(** r[p] = v for each (p, v); the value is [None] if it was read outside its array. *)
Fixpoint store (l : list (nat * option F)) (r : cells) : option cells :=
  match l with
  | [] => Some r
  | (p, Some v) :: l => if p <? length r then store l (set_nth r p (Some v)) else None
  | (_, None) :: _ => None
  end.

(** Reading a cell: nothing outside the array, nothing from a cell never written. *)
Definition read (sp : cells) (p : nat) : option F :=
  match nth_error sp p with Some (Some v) => Some v | _ => None end.

(** for(j = lo; j < hi; j++) *)
Definition range (lo hi : nat) : list nat := seq lo (hi - lo).
Definition for_ {B} (lo hi : nat) (body : nat -> list B) : list B := flat_map body (range lo hi).

(** GetTranspose of a real matrix of [m] rows and [n] columns, Element.cpp 2265-2273. *)
Definition transpose_real (m n : nat) (sp : list F) : option cells :=
  store (for_ 0 m (fun i => for_ 0 n (fun j => [(j + i * n, nth_error sp (i + j * m))]))) (new (n * m)).
(** ... complex, 2275-2288; [m] is size[0] / 2. *)
Definition transpose_complex (m n : nat) (sp : list F) : option cells :=
  store (for_ 0 n (fun i => for_ 0 m (fun j =>
    [(2 * i + 2 * j * n, nth_error sp (2 * j + i * 2 * m));
     (2 * i + 1 + 2 * j * n, option_map fopp (nth_error sp (2 * j + 1 + i * 2 * m)))])))
    (new (2 * n * m)).

(** GetSubmatrix, 2202-2230, of an array with [m] rows; the bounds are inclusive. *)
Definition submatrix_real (m : nat) (sp : cells) (r0 r1 c0 c1 : nat) : option cells :=
  let rows := r1 - r0 + 1 in
  store (for_ c0 (c1 + 1) (fun j => for_ r0 (r1 + 1) (fun i =>
    [((i - r0) + (j - c0) * rows, read sp (i + j * m))])))
    (new (rows * (c1 - c0 + 1))).
Definition submatrix_complex (m : nat) (sp : cells) (r0 r1 c0 c1 : nat) : option cells :=
  let rows := r1 - r0 + 1 in
  store (for_ c0 (c1 + 1) (fun j => for_ r0 (r1 + 1) (fun i =>
    [(2 * (i - r0) + (j - c0) * rows * 2, read sp (2 * i + j * (2 * m)));
     (2 * (i - r0) + 1 + (j - c0) * rows * 2, read sp (2 * i + 1 + j * (2 * m)))])))
    (new (2 * rows * (c1 - c0 + 1))).

(** The loops of SubmatrixAssignment, 2239-2258, into the array [r] with [m] rows: what [r] is at
    that point is the subject of SmartSpaceModel.v (NewMemoryOnWrite, 2238).  [mat] has
    [r1 - r0 + 1] rows (asserted in 2235). *)
Definition assign_real (m : nat) (r : cells) (r0 r1 c0 c1 : nat) (mat : list F) : option cells :=
  let rows := r1 - r0 + 1 in
  store (for_ c0 (c1 + 1) (fun j => for_ r0 (r1 + 1) (fun i =>
    [(i + j * m, nth_error mat ((i - r0) + (j - c0) * rows))]))) r.
Definition assign_complex (m : nat) (r : cells) (r0 r1 c0 c1 : nat) (mat : list F) : option cells :=
  let rows := r1 - r0 + 1 in
  store (for_ c0 (c1 + 1) (fun j => for_ r0 (r1 + 1) (fun i =>
    [(2 * i + j * (2 * m), nth_error mat (2 * (i - r0) + (j - c0) * rows * 2));
     (2 * i + 1 + j * (2 * m), nth_error mat (2 * (i - r0) + 1 + (j - c0) * rows * 2))]))) r.

(** SetToIdentity, 2567-2579: SetToZeros, then the diagonal. *)
Definition identity_real (m n : nat) : option cells :=
  store (for_ 0 (Nat.min m n) (fun i => [(i + i * m, Some (fq 1%Q))])) (filled (repeat (fq 0%Q) (m * n))).
Definition identity_complex (m n : nat) : option cells :=
  store (for_ 0 (Nat.min m n) (fun i => [(2 * i + i * (2 * m), Some (fq 1%Q))]))
    (filled (repeat (fq 0%Q) (2 * m * n))).

(** ScaledIdOPE, 2854-2872, on an [n] by [n] real matrix with new storage. *)
Definition scaled_identity (n : nat) (s : F) : option cells :=
  store (for_ 0 n (fun i => (i + i * n, Some s) ::
    for_ (i + 1) n (fun j => [(i + j * n, Some (fq 0%Q)); (j + i * n, Some (fq 0%Q))]))) (new (n * n)).

(** GetDiagTimesM and DiagTimesM, 1506-1609: [d] is this element, [M] has [n] rows and [m] columns.
    Every entry is read before it is written, so the values are those of [M]. scal_ with
    increment n, resp. 1, is the inner loop (2nd line of each). *)
Local Open Scope arith_scope.
Definition both (f : F -> F -> F) (x y : option F) : option F :=
  match x, y with Some x, Some y => Some (f x y) | _, _ => None end.
Local Open Scope nat_scope.
Definition diag_left_real (n m : nat) (d M : list F) : option cells :=
  store (for_ 0 n (fun i =>
    for_ 0 m (fun j => [(i + j * n, both fmul (nth_error d i) (nth_error M (i + j * n)))]))) (filled M).
Definition diag_right_real (n m : nat) (d M : list F) : option cells :=
  store (for_ 0 m (fun i =>
    for_ 0 n (fun k => [(i * n + k, both fmul (nth_error d i) (nth_error M (i * n + k)))]))) (filled M).

(** GetRealToComplex, 2529-2541. *)
Definition real_to_complex (sp : list F) : option cells :=
  store (for_ 0 (length sp) (fun i => [(2 * i, nth_error sp i)])) (filled (repeat (fq 0%Q) (2 * length sp))).
(** GetRealInComplex, 2543-2553: the result is complex and has the size of the argument;
    ObtainWritePartialData of an empty element is new memory. *)
Definition real_in_complex (sp : list F) : option cells :=
  store (for_ 0 (length sp / 2) (fun i => [(i, nth_error sp (i * 2))])) (new (length sp)).
(** GetImagInComplex, 2555-2565. *)
Definition imag_in_complex (sp : list F) : option cells :=
  store (for_ 0 (length sp / 2) (fun i => [(i, nth_error sp (i * 2 + 1))])) (new (length sp)).

(** ** Arithmetic.  Real arrays entry by entry; complex ones, stored as alternating real and
    imaginary parts, pair by pair. *)
Local Open Scope arith_scope.
Fixpoint zip (f : F -> F -> F) (a b : list F) : list F :=
  match a, b with x :: a, y :: b => f x y :: zip f a b | _, _ => [] end.
Fixpoint pairs (f : F -> F -> F * F) (a : list F) : list F :=
  match a with
  | x :: y :: a => let (u, v) := f x y in u :: v :: pairs f a
  | _ => []
  end.
Fixpoint zip_pairs (f : F -> F -> F -> F -> F * F) (a b : list F) : list F :=
  match a, b with
  | x :: y :: a, z :: w :: b => let (u, v) := f x y z w in u :: v :: zip_pairs f a b
  | _, _ => []
  end.

(** axpy_ with coefficient 1 and -1: operator+ (151-161), operator- (227-237). *)
Definition add (l r : list F) := zip (fun x y => fq 1%Q * x + y) l r.
Definition sub (l r : list F) := zip (fun x y => fq (-1)%Q * y + x) l r.
(** 163-173, 190-200; 239-249; 266-276 *)
Definition add_val (l : list F) (v : F) := map (fun x => x + v) l.
Definition sub_val (l : list F) (v : F) := map (fun x => x - v) l.
Definition val_sub (v : F) (r : list F) := map (fun x => v - x) r.
(** 175-188, 202-215; 251-264; 278-291 *)
Definition cadd_val (l : list F) (vr vi : F) := pairs (fun x y => (x + vr, y + vi)) l.
Definition csub_val (l : list F) (vr vi : F) := pairs (fun x y => (x - vr, y - vi)) l.
Definition cval_sub (vr vi : F) (r : list F) := pairs (fun x y => (vr - x, vi - y)) r.
(** 335-345, 363-373; 489-499; 518-529 *)
Definition scale (v : F) (m : list F) := map (fun x => v * x) m.
Definition div_val (m : list F) (v : F) := map (fun x => x / v) m.
Definition val_div (v : F) (m : list F) := map (fun x => v / x) m.
(** 347-361, 375-389 *)
Definition cscale (vr vi : F) (m : list F) :=
  pairs (fun x y => (vr * x - vi * y, vr * y + vi * x)) m.
(** 501-516 *)
Definition cdiv_val (m : list F) (vr vi : F) :=
  let t := vr * vr + vi * vi in
  pairs (fun x y => ((vr * x + vi * y) / t, (vr * y - vi * x) / t)) m.
(** 531-547 *)
Definition cval_div (vr vi : F) (m : list F) :=
  pairs (fun x y => let t := x * x + y * y in ((vr * x + vi * y) / t, (- vr * y + vi * x) / t)) m.
(** GetHadamardProduct, 1764-1784: this is [a]. *)
Definition hadamard (a m : list F) := zip (fun x y => y * x) a m.
Definition chadamard (a m : list F) :=
  zip_pairs (fun s1 s2 r1 r2 => (r1 * s1 - r2 * s2, r2 * s1 + r1 * s2)) a m.
(** GetHadamardDivision, 1786-1808 *)
Definition hdivide (a m : list F) := zip (fun x y => x / y) a m.
Definition chdivide (a m : list F) :=
  zip_pairs (fun r1 r2 m1 m2 => let d := m1 * m1 + m2 * m2 in
    ((r1 * m1 + r2 * m2) / d, (r2 * m1 - r1 * m2) / d)) a m.
(** GetConj, 1936-1944 *)
Definition conj_ (a : list F) := pairs (fun x y => (x, fq (-1)%Q * y)) a.
(** GetMax, GetMin, 1865-1905, and GetAbs 1907-1915 *)
Definition max_ (a u : list F) := zip (fun x y => if y <? x then x else y) a u.
Definition min_ (a u : list F) := zip (fun x y => if y >? x then x else y) a u.
Definition max_val (a : list F) (v : F) := map (fun x => if v <? x then x else v) a.
Definition min_val (a : list F) (v : F) := map (fun x => if v >? x then x else v) a.
(** dot_ on [n] entries from offset [o]; DotProduct 1751-1762, Fnorm 2488-2494. *)
Fixpoint dotp (x y : list F) : F :=
  match x, y with a :: x, b :: y => a * b + dotp x y | _, _ => fq 0%Q end.
Definition Fnorm (x : list F) : F := fsqrt (dotp x x).
Local Open Scope nat_scope.
Definition col (n : nat) (i : nat) (x : list F) : list F := firstn n (skipn (i * n) x).
(** GetColNormsSquare 2496-2510, GetColDotProducts 2512-2527; [n] is size[0]. *)
Definition col_dots (n m : nat) (x y : list F) : list F :=
  map (fun i => dotp (col n i x) (col n i y)) (seq 0 m).
Definition col_norms (n m : nat) (x : list F) : list F :=
  map (fun i => dotp (col n i x) (col n i x)) (seq 0 m).

(** operator+=, 217-225: a friend function that takes both operands by value.  The pair is the
    caller's left operand afterwards and the value of the expression. *)
Definition plus_assign (l r : list F) : list F * list F :=
  let left := zip (fun x y => (fq 1%Q * y + x)%A) l r in (l, left).
End model.
Arguments cells : clear implicits.
