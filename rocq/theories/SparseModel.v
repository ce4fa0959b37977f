(** Model of the sparse BLAS in Others/SparseBLAS/nist_spblas.h and nist_spblas.cpp: matrix
    construction, products, triangular solves, the handle table and the level-1 routines.

    The element type T (float, double, complex<float>, complex<double>) is any [scal].
    Arrays reached through pointers are partial maps from addresses to values; reading or updating
    a missing address gives [None] (undefined behaviour).  x and y are separate arrays.
    Not modelled: integer overflow, the print functions, the unused optimisation flags, and the
    build with SPBLAS_ERROR_FATAL defined. *)
From Coq Require Import List Bool Arith ZArith.
Import ListNotations.

Record scal := mkScal {
  T :> Type; s0 : T; s1 : T; sadd : T -> T -> T; ssub : T -> T -> T; smul : T -> T -> T;
  sdiv : T -> T -> T; sopp : T -> T; sconj : T -> T; seqb : T -> T -> bool }.
Arguments s0 {s}. Arguments s1 {s}. Arguments sadd {s}. Arguments ssub {s}. Arguments smul {s}.
Arguments sdiv {s}. Arguments sopp {s}. Arguments sconj {s}. Arguments seqb {s}.

Definition obind {X Y} (o : option X) (f : X -> option Y) : option Y :=
  match o with Some x => f x | None => None end.
Notation "'let!' x := a 'in' b" := (obind a (fun x => b)) (at level 200, x pattern, a at level 100, b at level 200).

(** for (int i = i0; i < i0 + k; i++) *)
Fixpoint zfor {X} (k : nat) (i : Z) (body : Z -> X -> option X) (x : X) : option X :=
  match k with O => Some x | S k => let! x := body i x in zfor k (i + 1)%Z body x end.
(** for (int i = k - 1; 0 <= i; i--) *)
Fixpoint zdown {X} (k : nat) (body : Z -> X -> option X) (x : X) : option X :=
  match k with O => Some x | S k => let! x := body (Z.of_nat k) x in zdown k body x end.
Fixpoint each {X Y} (l : list Y) (body : Y -> X -> option X) (x : X) : option X :=
  match l with [] => Some x | y :: l => let! x := body y x in each l body x end.

Inductive status := Void | New | Open | Valid.
Inductive trans := NoTrans | Trans | ConjTrans.
Inductive order := RowMajor | ColMajor.

Section model.
Context (K : scal).
Local Open Scope Z_scope.
Definition vmem := Z -> option K.
Definition vset (m : vmem) (a : Z) (v : K) : option vmem :=
  match m a with Some _ => Some (fun b => if Z.eqb b a then Some v else m b) | None => None end.
(** m[a] += v *)
Definition vadd (m : vmem) (a : Z) (v : K) : option vmem := let! x := m a in vset m a (sadd x v).
(** v[i] of a std::vector; vectors are indexed by non-negative ints. *)
Definition vecnth {X} (l : list X) (i : Z) : option X := if Z.ltb i 0 then None else nth_error l (Z.to_nat i).
Fixpoint lset {X} (l : list X) (n : nat) (v : X) : option (list X) :=
  match l, n with
  | [], _ => None
  | _ :: l, O => Some (v :: l)
  | x :: l, S n => let! l := lset l n v in Some (x :: l)
  end.
Definition vecset {X} (l : list X) (i : Z) (v : X) : option (list X) := if Z.ltb i 0 then None else lset l (Z.to_nat i) v.

(** The fields of Sp_mat (nist_spblas.h 48-98) and TSp_mat (270-277). *)
Record smat := mkS {
  rows : nat; cols : nat; nnz : nat; stat : status;
  one_base : bool; unit_diag : bool;
  ltri : bool; utri : bool; lsym : bool; usym : bool; lher : bool; uher : bool;
  bk : Z; bl : Z; bK : list Z; bL : list Z;
  diag : list K; S_ : list (list (K * Z)) }.

Definition set_stat s (m : smat) := mkS (rows m) (cols m) (nnz m) s (one_base m) (unit_diag m) (ltri m) (utri m) (lsym m) (usym m) (lher m) (uher m) (bk m) (bl m) (bK m) (bL m) (diag m) (S_ m).
Definition set_diag d (m : smat) := mkS (rows m) (cols m) (nnz m) (stat m) (one_base m) (unit_diag m) (ltri m) (utri m) (lsym m) (usym m) (lher m) (uher m) (bk m) (bl m) (bK m) (bL m) d (S_ m).
Definition set_S s (m : smat) := mkS (rows m) (cols m) (nnz m) (stat m) (one_base m) (unit_diag m) (ltri m) (utri m) (lsym m) (usym m) (lher m) (uher m) (bk m) (bl m) (bK m) (bL m) (diag m) s.
Definition bump (m : smat) := mkS (rows m) (cols m) (S (nnz m)) (stat m) (one_base m) (unit_diag m) (ltri m) (utri m) (lsym m) (usym m) (lher m) (uher m) (bk m) (bl m) (bK m) (bL m) (diag m) (S_ m).
Definition set_blocks k l kk ll (m : smat) := mkS (rows m) (cols m) (nnz m) (stat m) (one_base m) (unit_diag m) (ltri m) (utri m) (lsym m) (usym m) (lher m) (uher m) k l kk ll (diag m) (S_ m).

(** TSp_mat(M, N), nist_spblas.h 102-140 and 618; BLAS_duscr_begin, nist_spblas.cpp 645-650. *)
Definition begin (M N : nat) : smat :=
  mkS M N 0 New false false false false false false false false 0 0 [] [] [] (repeat [] M).

(** The properties of BLAS_ussp (nist_spblas.cpp 269-309) that the other routines read. *)
Inductive prop := ZeroBase | OneBase | UnitDiag | LowerTri | UpperTri | LowerSym | UpperSym | LowerHer | UpperHer.
Definition ussp (p : prop) (m : smat) : smat :=
  let b := match p with OneBase => true | ZeroBase => false | _ => one_base m end in
  let u := match p with UnitDiag => true | _ => unit_diag m end in
  let lt := match p with LowerTri => true | _ => ltri m end in
  let ut := match p with UpperTri => true | _ => utri m end in
  let ls := match p with LowerSym => true | _ => lsym m end in
  let us := match p with UpperSym => true | _ => usym m end in
  let lh := match p with LowerHer => true | _ => lher m end in
  let uh := match p with UpperHer => true | _ => uher m end in
  mkS (rows m) (cols m) (nnz m) (stat m) b u lt ut ls us lh uh (bk m) (bl m) (bK m) (bL m) (diag m) (S_ m).

(** is_triangular, is_symmetric, is_hermitian, nist_spblas.h 160-174. *)
Definition is_tri m := utri m || ltri m.
Definition is_sym m := usym m || lsym m.
Definition is_her m := lher m || uher m.
Definition is_new m := match stat m with New => true | _ => false end.
Definition is_open m := match stat m with Open => true | _ => false end.
Definition is_valid m := match stat m with Valid => true | _ => false end.

(** insert_entry, nist_spblas.h 646-717.  The result is the returned code and the matrix. *)
Definition insert_entry (v : K) (i j : Z) (m : smat) : option (Z * smat) :=
  let i := if one_base m then i - 1 else i in
  let j := if one_base m then j - 1 else j in
  if negb (Z.leb 0 i) then Some (1, m) else
  if negb (Z.ltb i (Z.of_nat (rows m))) then Some (1, m) else
  if negb (Z.leb 0 j) then Some (1, m) else
  if negb (Z.ltb j (Z.of_nat (cols m))) then Some (1, m) else
  let m := if is_new m then
             let m := set_stat Open m in
             if is_tri m || is_sym m then set_diag (repeat (if unit_diag m then s1 else s0) (rows m)) m else m
           else m in
  if is_open m then
    if Z.eqb i j && (is_tri m || is_sym m || is_her m) then
      if negb (unit_diag m) then
        let! d := vecnth (diag m) i in
        let! ds := vecset (diag m) i (sadd d v) in
        (* lines 699-706 need i > j or i < j and are unreachable here *)
        Some (0, bump (set_diag ds m))
      else if negb (seqb v s1) then Some (0, m) else Some (0, bump m)
    else
      let! r := vecnth (S_ m) i in
      let! s := vecset (S_ m) i (r ++ [(v, j)]) in
      Some (0, bump (set_S s m))
  else Some (0, m).

(** insert_entries, 719-727: the returned codes are ignored. *)
Definition insert_entries (l : list (K * Z * Z)) (m : smat) : option smat :=
  each l (fun t m => let '(v, i, j) := t in let! r := insert_entry v i j m in Some (snd r)) m.
(** insert_row, insert_col, 729-741. *)
Definition insert_row (k : Z) (l : list (K * Z)) : smat -> option smat := insert_entries (map (fun t => (fst t, k, snd t)) l).
Definition insert_col (k : Z) (l : list (K * Z)) : smat -> option smat := insert_entries (map (fun t => (fst t, snd t, k)) l).

(** K(i), L(i), 191-192. *)
Definition startK (m : smat) (i : Z) : option Z := if Z.eqb (bk m) 0 then vecnth (bK m) i else Some (i * bk m).
Definition startL (m : smat) (i : Z) : option Z := if Z.eqb (bl m) 0 then vecnth (bL m) i else Some (i * bl m).
(** set_const_block_parameters, 221-227; BLAS_duscr_block_begin, nist_spblas.cpp 652-661. *)
Definition block_begin (Mb Nb : nat) (k l : nat) : smat :=
  set_blocks (Z.of_nat k) (Z.of_nat l) [] [] (begin (Mb * k) (Nb * l)).
(** set_var_block_parameters, 230-246; BLAS_duscr_variable_block_begin, nist_spblas.cpp 663-674: L_ is resized (to zeros) and never filled; the loop that
    should fill it recomputes K_. *)
Fixpoint prefix (a : Z) (l : list Z) : list Z := a :: match l with [] => [] | x :: l => prefix (x + a) l end.
Definition var_block_begin (k l : list Z) : smat :=
  set_blocks 0 0 (prefix 0 k) (repeat 0 (S (length l)))
    (begin (Z.to_nat (fold_left Z.add k 0)) (Z.to_nat (fold_left Z.add l 0))).
(** insert_block, 743-754.  The running index r moves by col_stride at every column and by
    row_stride at every row; the columns start at L(bi). *)
Definition insert_block (val : vmem) (row_stride col_stride bi bj : Z) (m : smat) : option smat :=
  let! ie := startK m (bi + 1) in let! je := startL m (bj + 1) in
  let! i0 := startK m bi in let! j0 := startL m bi in
  let! mr := zfor (Z.to_nat (ie - i0)) i0 (fun i mr =>
    let! mr := zfor (Z.to_nat (je - j0)) j0 (fun j mr =>
      let '(m, r) := mr in
      let! v := val r in let! c := insert_entry v i j m in Some (snd c, r + col_stride)) mr in
    Some (fst mr, snd mr + row_stride)) (m, 0) in
  Some (fst mr).

(** end_construction, 249-259, 756-759. *)
Definition end_ (m : smat) : Z * smat := if is_open m || is_new m then (0, set_stat Valid m) else (1, m).

(** ** Products *)
(** sp_dot_product, 281-302; [cj] is conj in sp_conj_dot_product, 304-324. *)
Definition sp_dot (cj : K -> K) (r : list (K * Z)) (x : vmem) (b inc : Z) : option K :=
  each r (fun p sum => let! xv := x (if Z.eqb inc 1 then b + snd p else b + snd p * inc) in
                       Some (sadd sum (smul (cj (fst p)) xv))) s0.
(** sp_axpy, 327-340; sp_conj_axpy, 342-354. *)
Definition sp_axpy (cj : K -> K) (alpha : K) (r : list (K * Z)) (b inc : Z) (y : vmem) : option vmem :=
  each r (fun p y => vadd y (if Z.eqb inc 1 then b + snd p else b + inc * snd p) (smul alpha (cj (fst p)))) y.
(** mult_diag, 356-365; mult_conj_diag, 367-376. *)
Definition mult_diag (cj : K -> K) (m : smat) (alpha : K) (x : vmem) (bx incx : Z) (by_ incy : Z) (y : vmem) : option vmem :=
  let! r := each (diag m) (fun d st => let '(y, X, Y) := st in
     let! xv := x X in let! y := vadd y Y (smul (smul alpha (cj d)) xv) in Some (y, X + incx, Y + incy)) (y, bx, by_) in
  Some (fst (fst r)).
(** nondiag_mult_vec, 379-393; nondiag_mult_vec_conj, 395-410. *)
Definition nondiag (cj : K -> K) (m : smat) (alpha : K) (x : vmem) (bx incx by_ incy : Z) (y : vmem) : option vmem :=
  zfor (rows m) 0 (fun i y => let! r := vecnth (S_ m) i in let! d := sp_dot cj r x bx incx in
     vadd y (if Z.eqb incy 1 then by_ + i else by_ + i * incy) (smul alpha d)) y.
(** nondiag_mult_vec_transpose, 412-421; nondiag_mult_vec_conj_transpose, 423-432. *)
Definition nondiag_trans (cj : K -> K) (m : smat) (alpha : K) (x : vmem) (bx incx by_ incy : Z) (y : vmem) : option vmem :=
  let! r := zfor (rows m) 0 (fun i st => let '(y, X) := st in
     let! r := vecnth (S_ m) i in let! xv := x X in
     let! y := sp_axpy cj (smul alpha xv) r by_ incy y in Some (y, X + incx)) (y, bx) in
  Some (fst r).
Definition idc (x : K) : K := x.
(** mult_vec, 434-444. *)
Definition mult_vec m alpha x bx incx by_ incy y : option vmem :=
  let! y := nondiag idc m alpha x bx incx by_ incy y in
  let! y := if is_tri m || is_sym m then mult_diag idc m alpha x bx incx by_ incy y else Some y in
  if is_sym m then nondiag_trans idc m alpha x bx incx by_ incy y else Some y.
(** mult_vec_transpose, 447-458. *)
Definition mult_vec_trans m alpha x bx incx by_ incy y : option vmem :=
  let! y := nondiag_trans idc m alpha x bx incx by_ incy y in
  let! y := if is_tri m || is_sym m then mult_diag idc m alpha x bx incx by_ incy y else Some y in
  if is_sym m then nondiag idc m alpha x bx incx by_ incy y else Some y.
(** mult_vec_conj_transpose, 461-472. *)
Definition mult_vec_conj m alpha x bx incx by_ incy y : option vmem :=
  let! y := nondiag_trans sconj m alpha x bx incx by_ incy y in
  let! y := if is_tri m || is_sym m then mult_diag sconj m alpha x bx incx by_ incy y else Some y in
  if is_sym m then nondiag sconj m alpha x bx incx by_ incy y else Some y.
(** usmv, 763-783; BLAS_xusmv, nist_spblas.cpp 517-526 (its own test of is_valid returns 1). *)
Definition usmv (t : trans) (alpha : K) (m : smat) (x : vmem) (bx incx : Z) (y : vmem) (by_ incy : Z) : option (Z * vmem) :=
  if negb (is_valid m) then Some (1, y) else
  let! y := match t with
            | NoTrans => mult_vec m alpha x bx incx by_ incy y
            | ConjTrans => mult_vec_conj m alpha x bx incx by_ incy y
            | Trans => mult_vec_trans m alpha x bx incx by_ incy y
            end in Some (0, y).
(** usmm, 786-810; BLAS_xusmm, nist_spblas.cpp 529-539. *)
Definition usmm (o : order) (t : trans) (nrhs : nat) (alpha : K) (m : smat) (b : vmem) (ldb : Z) (c : vmem) (ldc : Z) : option (Z * vmem) :=
  if negb (is_valid m) then Some (1, c) else
  let! c := zfor nrhs 0 (fun i c =>
     let! r := match o with
               | RowMajor => usmv t alpha m b i ldb c i ldc
               | ColMajor => usmv t alpha m b (i * ldb) 1 c (i * ldc) 1
               end in Some (snd r)) c in
  Some (0, c).

(** ** Products with dense matrices, Manifolds/Element.cpp *)
(** A new array of the given length after SetToZeros. *)
Definition zeros (len : Z) : vmem := fun a => if Z.leb 0 a && Z.ltb a len then Some s0 else None.
(** Element::GetTranspose, 2262-2289, of an r by c matrix stored by columns.  [cj] is conj for
    complex elements (a complex entry is one value here; the loops of the complex case are
    nested the other way round).  The result starts as zeros instead of uninitialised. *)
Definition get_transpose (cj : K -> K) (r c : nat) (a : vmem) : option vmem :=
  zfor r 0 (fun i res => zfor c 0 (fun j (res : vmem) =>
    let! v := a (i + j * Z.of_nat r) in vset res (j + i * Z.of_nat c) (cj v)) res) (zeros (Z.of_nat r * Z.of_nat c)).
(** operator*(SparseMatrix, Element), 719-744; the right factor has as many rows as the matrix
    has columns (asserted). *)
Definition sparse_times (m : smat) (c : nat) (b : vmem) : option vmem :=
  let! r := usmm ColMajor NoTrans c s1 m b (Z.of_nat (cols m)) (zeros (Z.of_nat (rows m) * Z.of_nat c)) (Z.of_nat (rows m)) in Some (snd r).
(** operator*(Element, SparseMatrix), 746-772: the left factor has r rows and as many columns as the
    matrix has rows.  Real: [cj] identity and [t] = Trans; complex: conj and ConjTrans. *)
Definition times_sparse (cj : K -> K) (t : trans) (r : nat) (a : vmem) (m : smat) : option vmem :=
  let! at_ := get_transpose cj r (rows m) a in
  let! res := usmm ColMajor t r s1 m at_ (Z.of_nat (rows m)) (zeros (Z.of_nat (cols m) * Z.of_nat r)) (Z.of_nat (cols m)) in
  get_transpose cj (cols m) r (snd res).

(** ** Triangular solves *)
(** triangular_solve, 480-520. *)
Definition tri_solve (m : smat) (alpha : K) (x : vmem) (b inc : Z) : option (Z * vmem) :=
  if seqb alpha s0 then Some (1, x) else
  if negb (is_tri m) then Some (1, x) else
  let row := fun i x => let! xi := x (b + i * inc) in let! r := vecnth (S_ m) i in
     let! d := sp_dot idc r x b inc in let! di := vecnth (diag m) i in vset x (b + i * inc) (sdiv (ssub xi d) di) in
  let scale := fun i x => let! xi := x (b + i * inc) in vset x (b + i * inc) (sdiv xi alpha) in
  if ltri m then
    let! x := zfor (rows m) 0 row x in
    let! x := if seqb alpha s1 then Some x else zfor (rows m) 0 scale x in Some (0, x)
  else
    let! x := zdown (rows m) row x in
    let! x := if seqb alpha s1 then Some x else zdown (rows m) scale x in Some (0, x).
(** transpose_triangular_solve, 522-561; transpose_triangular_conj_solve, 565-604.  The scaling
    loop runs jj = (N-1) inc, (N-2) inc, ... while 0 <= jj: for inc > 0 it visits all N entries.
    Modelled for inc > 0 only; otherwise [None]. *)
Definition tri_solve_trans (cj : K -> K) (m : smat) (alpha : K) (x : vmem) (b inc : Z) : option (Z * vmem) :=
  if negb (is_tri m) then Some (-1, x) else
  if negb (Z.ltb 0 inc) then None else
  let col := fun j x => let! xj := x (b + j * inc) in let! dj := vecnth (diag m) j in
     let! x := vset x (b + j * inc) (sdiv xj (cj dj)) in
     let! xj := x (b + j * inc) in let! r := vecnth (S_ m) j in sp_axpy cj (sopp xj) r b inc x in
  let scale := fun i x => let! xi := x (b + i * inc) in vset x (b + i * inc) (sdiv xi alpha) in
  let! x := if ltri m then zdown (rows m) col x else zfor (rows m) 0 col x in
  let! x := if seqb alpha s1 then Some x else zdown (rows m) scale x in Some (0, x).
(** ussv, 812-826; BLAS_xussv, nist_spblas.cpp 542-551. *)
Definition ussv (t : trans) (alpha : K) (m : smat) (x : vmem) (b inc : Z) : option (Z * vmem) :=
  if negb (is_valid m) then Some (1, x) else
  match t with
  | Trans => tri_solve_trans idc m alpha x b inc
  | ConjTrans => tri_solve_trans sconj m alpha x b inc
  | NoTrans => tri_solve m alpha x b inc
  end.
(** ussm, 828-853; BLAS_xussm, nist_spblas.cpp 554-563. *)
Definition ussm (o : order) (t : trans) (nrhs : nat) (alpha : K) (m : smat) (c : vmem) (ldc : Z) : option (Z * vmem) :=
  if negb (is_valid m) then Some (1, c) else
  let! c := zfor nrhs 0 (fun i c =>
     let! r := match o with RowMajor => ussv t alpha m c i ldc | ColMajor => ussv t alpha m c (i * ldc) 1 end in Some (snd r)) c in
  Some (0, c).

(** ** The handle table, nist_spblas.cpp 53-102 and BLAS_usds 362-370 *)
Record table := mkT { slots : list (option smat); active : nat }.
(** The static initial table, nist_spblas.h 889-890. *)
Definition table0 : table := mkT [] 0.
(** The first empty slot from position i on. *)
Fixpoint first_free (l : list (option smat)) (i : nat) : option nat :=
  match l with [] => None | None :: _ => Some i | Some _ :: l => first_free l (S i) end.
(** Table_insert, 53-75. *)
Definition table_insert (S : smat) (t : table) : Z * table :=
  if Nat.leb (active t) (length (slots t)) then
    (Z.of_nat (length (slots t)), mkT (slots t ++ [Some S]) (Datatypes.S (active t)))
  else match first_free (slots t) 0 with
       | Some i => (Z.of_nat i, mkT (match lset (slots t) i (Some S) with Some l => l | None => slots t end) (Datatypes.S (active t)))
       | None => (-1, t)
       end.
(** Table_remove, 82-92. *)
Definition table_remove (h : Z) (t : table) : Z * table :=
  match vecnth (slots t) h with
  | Some (Some _) => (0, mkT (match vecset (slots t) h None with Some l => l | None => slots t end) (pred (active t)))
  | _ => (-1, t)
  end.
(** GetSpMFromTable, 94-102. *)
Definition table_get (h : Z) (t : table) : option smat := match vecnth (slots t) h with Some o => o | None => None end.
(** BLAS_usds: Table[A] is dereferenced first; a null or missing entry is undefined. *)
Definition usds (h : Z) (t : table) : option table :=
  let! _ := table_get h t in Some (snd (table_remove h t)).
(** A routine working on the matrix of a handle in place (insertion, end of construction, ...). *)
Definition table_update (h : Z) (f : smat -> option smat) (t : table) : option table :=
  let! s := table_get h t in let! s := f s in
  let! l := vecset (slots t) h (Some s) in Some (mkT l (active t)).

(** ** Level 1, nist_spblas.cpp 380-458 *)
(** y -= incy for one-based indices. *)
Definition ybase (one : bool) (by_ incy : Z) : Z := if one then by_ - incy else by_.
(** BLAS_xusdot, 379-402; x and index are given as one list. *)
Definition usdot (cj : K -> K) (xi : list (K * Z)) (y : vmem) (by_ incy : Z) (one : bool) : option K :=
  each xi (fun p t => let! yv := y (ybase one by_ incy + snd p * incy) in Some (sadd t (smul (cj (fst p)) yv))) s0.
(** BLAS_xusaxpy, 404-418: the body of the loop is commented out. *)
Definition usaxpy (alpha : K) (xi : list (K * Z)) (y : vmem) (by_ incy : Z) (one : bool) : option vmem := Some y.
(** BLAS_xusga, 420-430: the values read, in order. *)
Fixpoint usga (idx : list Z) (y : vmem) (by_ incy : Z) (one : bool) : option (list K) :=
  match idx with
  | [] => Some []
  | k :: idx => let! v := y (ybase one by_ incy + k * incy) in let! l := usga idx y by_ incy one in Some (v :: l)
  end.
(** BLAS_xusgz, 432-445. *)
Fixpoint usgz (idx : list Z) (y : vmem) (by_ incy : Z) (one : bool) : option (list K * vmem) :=
  match idx with
  | [] => Some ([], y)
  | k :: idx => let! v := y (ybase one by_ incy + k * incy) in
      let! y := vset y (ybase one by_ incy + k * incy) s0 in
      let! r := usgz idx y by_ incy one in Some (v :: fst r, snd r)
  end.
(** BLAS_xussc, 448-458. *)
Definition ussc (xi : list (K * Z)) (y : vmem) (by_ incy : Z) (one : bool) : option vmem :=
  each xi (fun p y => vset y (ybase one by_ incy + snd p * incy) (fst p)) y.
End model.
