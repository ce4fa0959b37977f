(** C11 to C14, C64, C65: the sparse BLAS.  The scalars are any field-like structure with
    conjugation ([lawful]), in particular the real and the complex numbers. *)
From Coq Require Import List Bool Arith ZArith Reals.
From Verif Require Import SparseModel SparseSpec SparseProofs SparseBuild SparseProduct SparseSolve SparseOther SparseFacts.
Import ListNotations.
Local Open Scope Z_scope.

Theorem C11_real_and_complex : lawful real /\ lawful complex.
Proof. exact (conj lawful_real lawful_complex). Qed.
Print Assumptions C11_real_and_complex.

(** C11 for matrices without declared structure: any triplets in any order, duplicates, out-of-range
    ones (they hit no entry), any strides, all three products. *)
Theorem C11_product : forall (K : scal), lawful K -> forall (b : bool) (M N : nat) (ts : list (triplet K)),
  let ps := if b then [OneBase] else [ZeroBase] in
  succeeds (build ps M N ts) (fun m => forall t alpha x bx incx f y by_ incy g,
    incy <> 0 -> view x bx incx (op_cols t M N) f -> view y by_ incy (op_rows t M N) g ->
    succeeds (usmv K t alpha m x bx incx y by_ incy) (fun r => fst r = 0
      /\ view (snd r) by_ incy (op_rows t M N)
           (fun i => sadd (g i) (smul alpha (sumto (op_cols t M N) (fun j => smul (op t (inserted (base_of b) ts) i j) (f j)))))
      /\ same_outside y (snd r) by_ incy (op_rows t M N))).
Proof. exact product_plain. Qed.
Print Assumptions C11_product.

(** C65: triangular, symmetric and unit-diagonal matrices multiply as the matrix they stand for.
    Partial: Hermitian matrices are excluded, and a structured matrix needs one insertion. *)
Theorem C65_structured_partial : forall (K : scal), lawful K -> forall (ps : list prop) (M N : nat) (ts : list (triplet K)),
  hermitian ps = false ->
  (triangular ps || symmetric ps = true -> M = N /\ exists t, In t ts /\ in_range (base ps) M N t) ->
  succeeds (build ps M N ts) (fun m => forall t alpha x bx incx f y by_ incy g,
    incy <> 0 -> view x bx incx (op_cols t M N) f -> view y by_ incy (op_rows t M N) g ->
    succeeds (usmv K t alpha m x bx incx y by_ incy) (fun r => fst r = 0
      /\ view (snd r) by_ incy (op_rows t M N)
           (fun i => sadd (g i) (smul alpha (sumto (op_cols t M N) (fun j => smul (op t (dense ps ts) i j) (f j)))))
      /\ same_outside y (snd r) by_ incy (op_rows t M N))).
Proof. intros K L ps M N ts. exact (product_all L ps M N ts). Qed.
Print Assumptions C65_structured_partial.
Example C65_example : hermitian [OneBase; LowerSym] = false
  /\ (triangular [OneBase; LowerSym] || symmetric [OneBase; LowerSym] = true ->
       2%nat = 2%nat /\ exists t, In t ex_ts /\ in_range (K := real) (base [OneBase; LowerSym]) 2 2 t)
  /\ dense (K := real) [OneBase; LowerSym] ex_ts 0 1 = 5%R := ex_product.
Example C11_example : view (K := real) (arr [5%R; 6%R; 7%R]) 0 2 2 (fun k => if Z.eqb k 0 then 5%R else 7%R) := ex_view.

Theorem C65_product_many_partial : forall (K : scal), lawful K -> forall (ps : list prop) (M N : nat) (ts : list (triplet K)) m,
  hermitian ps = false ->
  (triangular ps || symmetric ps = true -> M = N /\ exists t, In t ts /\ in_range (base ps) M N t) ->
  build ps M N ts = Some m -> forall o t nrhs alpha b ldb B c ldc G,
    0 < ldc -> (match o with ColMajor => Z.of_nat (op_rows t M N) <= ldc | RowMajor => Z.of_nat nrhs <= ldc end) ->
    (forall i k, 0 <= i < Z.of_nat (op_cols t M N) -> 0 <= k < Z.of_nat nrhs -> b (addr o ldb i k) = Some (B i k)) ->
    (forall i k, 0 <= i < Z.of_nat (op_rows t M N) -> 0 <= k < Z.of_nat nrhs -> c (addr o ldc i k) = Some (G i k)) ->
    succeeds (usmm K o t nrhs alpha m b ldb c ldc) (fun r => fst r = 0
      /\ (forall i k, 0 <= i < Z.of_nat (op_rows t M N) -> 0 <= k < Z.of_nat nrhs -> snd r (addr o ldc i k)
           = Some (sadd (G i k) (smul alpha (sumto (op_cols t M N) (fun j => smul (op t (dense ps ts) i j) (B j k))))))
      /\ (forall a, (forall i k, 0 <= i < Z.of_nat (op_rows t M N) -> 0 <= k < Z.of_nat nrhs -> a <> addr o ldc i k) -> snd r a = c a)).
Proof. intros K L ps M N ts m. exact (product_many L ps M N ts m). Qed.
Print Assumptions C65_product_many_partial.

(** SparseMatrix * Element and Element * SparseMatrix, real and complex. *)
Theorem C11_element_products : forall (K : scal), lawful K -> forall (M N : nat) (ts : list (triplet K)) m,
  (0 < M)%nat -> (0 < N)%nat -> build [] M N ts = Some m ->
  (forall c b B, bycols b N c B ->
     succeeds (sparse_times K m c b) (fun r => bycols r M c (fun i k => sumto N (fun j => smul (inserted 0 ts i j) (B j k)))))
  /\ (forall (cplx : bool) r a A, bycols a r M A ->
     succeeds (times_sparse K (if cplx then sconj else idc K) (if cplx then ConjTrans else Trans) r a m)
       (fun res => bycols res r N (fun i k => sumto M (fun j => smul (A i j) (inserted 0 ts j k))))).
Proof. exact element_plain. Qed.
Print Assumptions C11_element_products.
Example C11_element_example : bycols (K := real) (arr [1%R; 2%R; 3%R; 4%R]) 2 2 (fun i j => nth (Z.to_nat (i + j * 2)) [1%R; 2%R; 3%R; 4%R] 0%R) := ex_bycols.

(** A diagonal entry of a Hermitian matrix is written past the end of an empty vector. *)
Theorem C65_hermitian_diagonal_refuted : forall v : R, build (K := real) [LowerHer] 1 1 [(v, 0, 0)] = None.
Proof. exact hermitian_diag. Qed.
Print Assumptions C65_hermitian_diagonal_refuted.
(** [[0, 1], [1, 0]] given by its lower half, times (0, 1), has first entry 1; the code gives 0. *)
Theorem C65_hermitian_product_refuted : exists m y', build (K := real) [LowerHer] 2 2 [(1%R, 1, 0)] = Some m
  /\ usmv real NoTrans 1%R m (arr [0%R; 1%R]) 0 1 (arr [0%R; 0%R]) 0 1 = Some (0, y') /\ y' 0 = Some 0%R.
Proof. exact hermitian_product. Qed.
Print Assumptions C65_hermitian_product_refuted.
(** The unit triangular matrix without insertions multiplies to zero. *)
Theorem C65_unit_refuted : exists m y', build (K := real) [LowerTri; UnitDiag] 1 1 [] = Some m
  /\ usmv real NoTrans 1%R m (arr [1%R]) 0 1 (arr [0%R]) 0 1 = Some (0, y') /\ y' 0 = Some 0%R.
Proof. exact unit_empty. Qed.
Print Assumptions C65_unit_refuted.

(** C12 without the reuse of slots: whatever happened before, a creation gives a non-negative handle that no
    live matrix has, leaves the other handles alone, and the handle refers to the new matrix until an
    operation names it. *)
Theorem C12_handles_partial : forall (K : scal) before (m : smat K) t1, history before (table0 K) = Some t1 ->
  exists h t2, hstep (Create m) t1 = Some (h, t2) /\ 0 <= h /\ table_get K h t1 = None /\ table_get K h t2 = Some m
  /\ (forall k, k <> h -> table_get K k t2 = table_get K k t1)
  /\ forall after t3, history after t2 = Some t3 -> (forall o, In o after -> ~ names h o) -> table_get K h t3 = Some m.
Proof. exact @handles. Qed.
Print Assumptions C12_handles_partial.
(** Destroying a live matrix succeeds, frees its handle and leaves the others alone. *)
Theorem C12_destroy_partial : forall (K : scal) before h t1 (s : smat K), history before (table0 K) = Some t1 -> table_get K h t1 = Some s ->
  exists t2, hstep (Destroy h) t1 = Some (0, t2) /\ table_get K h t2 = None /\ forall k, k <> h -> table_get K k t2 = table_get K k t1.
Proof. exact @destroy_live. Qed.
Print Assumptions C12_destroy_partial.
Example C12_example : option_map (table_get real 1) (history [Create (begin real 1 1); Create (begin real 2 2); Destroy 0] (table0 real))
  = Some (Some (begin real 2 2)) := ex_history.
(** Slots are not reused: n creations, each followed by the destruction, leave n slots, all empty. *)
Theorem C12_reuse_refuted : forall (K : scal) (m : smat K) n,
  history (rounds m n 0) (table0 K) = Some (mkT K (repeat None n) 0).
Proof. intros K m n. exact (rounds_grow m n []). Qed.
Print Assumptions C12_reuse_refuted.

(** C13 for alpha = 1. *)
Theorem C13_solve_partial : forall (K : scal), lawful K -> forall ps n (ts : list (triplet K)) m, solvable ps n ts -> build ps n n ts = Some m ->
  forall t x b inc f, 0 < inc -> view x b inc n f ->
  succeeds (ussv K t s1 m x b inc) (fun r => fst r = 0 /\ same_outside x (snd r) b inc n
    /\ exists z, view (snd r) b inc n z
    /\ forall k, 0 <= k < Z.of_nat n -> sumto n (fun j => smul (op t (dense ps ts) k j) (z j)) = f k).
Proof. intros K L. exact (solve_one_unit L). Qed.
Print Assumptions C13_solve_partial.
Theorem C13_solve_many_partial : forall (K : scal), lawful K -> forall ps n (ts : list (triplet K)) m, solvable ps n ts -> build ps n n ts = Some m ->
  forall o t nrhs c ldc F, 0 < ldc -> (match o with ColMajor => Z.of_nat n <= ldc | RowMajor => Z.of_nat nrhs <= ldc end) ->
  (forall i k, 0 <= i < Z.of_nat n -> 0 <= k < Z.of_nat nrhs -> c (addr o ldc i k) = Some (F i k)) ->
  succeeds (ussm K o t nrhs s1 m c ldc) (fun r => fst r = 0
    /\ (exists X, (forall i k, 0 <= i < Z.of_nat n -> 0 <= k < Z.of_nat nrhs -> snd r (addr o ldc i k) = Some (X i k))
       /\ forall i k, 0 <= i < Z.of_nat n -> 0 <= k < Z.of_nat nrhs -> sumto n (fun j => smul (op t (dense ps ts) i j) (X j k)) = F i k)
    /\ (forall a, (forall i k, 0 <= i < Z.of_nat n -> 0 <= k < Z.of_nat nrhs -> a <> addr o ldc i k) -> snd r a = c a)).
Proof. intros K L. exact (solve_many L). Qed.
Print Assumptions C13_solve_many_partial.
(** Any alpha other than 0: the result is the solution divided by alpha. *)
Theorem C13_scaled_partial : forall (K : scal), lawful K -> forall ps n (ts : list (triplet K)) m, solvable ps n ts -> build ps n n ts = Some m ->
  forall t alpha x b inc f, alpha <> s0 -> 0 < inc -> view x b inc n f ->
  succeeds (ussv K t alpha m x b inc) (fun r => fst r = 0 /\ same_outside x (snd r) b inc n
    /\ exists z, view (snd r) b inc n z
    /\ forall k, 0 <= k < Z.of_nat n -> sumto n (fun j => smul (op t (dense ps ts) k j) (smul alpha (z j))) = f k).
Proof. intros K L. exact (solve_one L). Qed.
Print Assumptions C13_scaled_partial.
Example C13_example : solvable (K := real) [OneBase; LowerTri] 2 ex_ts := ex_solve.
Example C13_example_built : exists m, build (K := real) [OneBase; LowerTri] 2 2 ex_ts = Some m := ex_built.
(** So alpha times the solution is not what one gets: the system x = 1 with alpha = 2 gives 1/2. *)
Theorem C13_alpha_refuted : exists m x', build (K := real) [LowerTri] 1 1 [(1%R, 0, 0)] = Some m
  /\ ussv real NoTrans 2%R m (arr [1%R]) 0 1 = Some (0, x') /\ x' 0 = Some (1 / 2)%R.
Proof. exact alpha_two. Qed.
Print Assumptions C13_alpha_refuted.

(** C14 for blocks of fixed size on the diagonal, when the row stride passed is the distance between
    the end of a row and the start of the next one. *)
Theorem C14_diagonal_partial : forall (K : scal) (val : vmem K) rs cs I (B : Z -> Z -> K) m k l, (0 < k)%nat -> (0 < l)%nat ->
  bk K m = Z.of_nat k -> bl K m = Z.of_nat l ->
  (forall a c, 0 <= a < Z.of_nat k -> 0 <= c < Z.of_nat l -> val (a * rs + c * cs) = Some (B a c)) ->
  insert_block K val (rs - Z.of_nat l * cs) cs I I m = insert_entries K (place k l I I B) m.
Proof. exact @diagonal_block. Qed.
Print Assumptions C14_diagonal_partial.
Example C14_example : option_map (S_ real) (insert_block real (arr [1%R; 2%R; 3%R; 4%R]) (2 - 2 * 1) 1 1 1 (block_begin real 2 2 2 2))
  = Some [[]; []; [(1%R, 2); (2%R, 3)]; [(3%R, 2); (4%R, 3)]] := ex_block.
(** Blocks below the diagonal are dropped. *)
Theorem C14_below_refuted : forall (K : scal) (val : vmem K) rs cs I J m, bk K m <> 0 -> 0 < bl K m -> J < I ->
  insert_block K val rs cs I J m = Some m.
Proof. exact @below_block. Qed.
Print Assumptions C14_below_refuted.
(** A block above the diagonal reads past its values. *)
Theorem C14_above_refuted : insert_block real (arr [1%R]) 1 1 0 1 (block_begin real 2 2 1 1) = None.
Proof. exact block_above. Qed.
Print Assumptions C14_above_refuted.
(** A 2 by 2 block with row stride 2 and column stride 1 reads past its four values. *)
Theorem C14_stride_refuted : insert_block real (arr [1%R; 2%R; 3%R; 4%R]) 2 1 0 0 (block_begin real 1 1 2 2) = None.
Proof. exact block_stride. Qed.
Print Assumptions C14_stride_refuted.
(** With variable block sizes nothing is inserted. *)
Theorem C14_variable_refuted : forall (K : scal) (val : vmem K) rs cs k l I J,
  0 <= I < Z.of_nat (length k) -> 0 <= J < Z.of_nat (length l) -> I <= Z.of_nat (length l) ->
  insert_block K val rs cs I J (var_block_begin K k l) = Some (var_block_begin K k l).
Proof. exact @var_block. Qed.
Print Assumptions C14_variable_refuted.

(** C64: dot product, gather, gather and zero, scatter. *)
Theorem C64_dot_partial : forall (K : scal), lawful K -> forall y b inc n one g cj (xi : list (K * Z)),
  view y b inc n g -> (forall p, In p xi -> index_ok n one (snd p)) ->
  usdot K cj xi y b inc one = Some (lsum (map (fun p => smul (cj (fst p)) (g (snd p - base_of one))) xi)).
Proof. intros K L. exact (dot_all L). Qed.
Print Assumptions C64_dot_partial.
Theorem C64_gather_partial : forall (K : scal) (y : vmem K) b inc n one g,
  view y b inc n g -> forall idx, (forall k, In k idx -> index_ok n one k) ->
  usga K idx y b inc one = Some (map (fun k => g (k - base_of one)) idx).
Proof. exact @usga_ok. Qed.
Print Assumptions C64_gather_partial.
Theorem C64_gather_zero_partial : forall (K : scal) (y : vmem K) b inc n one g idx,
  inc <> 0 -> view y b inc n g -> NoDup idx -> (forall k, In k idx -> index_ok n one k) ->
  succeeds (usgz K idx y b inc one) (fun r => fst r = map (fun k => g (k - base_of one)) idx
    /\ view (snd r) b inc n (fun i => if existsb (Z.eqb (i + base_of one)) idx then s0 else g i) /\ same_outside y (snd r) b inc n).
Proof. exact @gz_all. Qed.
Print Assumptions C64_gather_zero_partial.
Theorem C64_scatter_partial : forall (K : scal) (y : vmem K) b inc n one g (xi : list (K * Z)),
  inc <> 0 -> view y b inc n g -> (forall p, In p xi -> index_ok n one (snd p)) ->
  succeeds (ussc K xi y b inc one) (fun y' => view y' b inc n (scattered one xi g) /\ same_outside y y' b inc n).
Proof. exact @sc_all. Qed.
Print Assumptions C64_scatter_partial.
Example C64_example : view (K := real) (arr [5%R; 6%R; 7%R]) 0 2 2 (fun k => if Z.eqb k 0 then 5%R else 7%R) := ex_view.
(** y := y + alpha x does nothing. *)
Theorem C64_axpy_refuted : exists (y : vmem real) y', usaxpy real 1%R [(1%R, 0)] y 0 1 false = Some y' /\ y 0 = Some 0%R /\ y' 0 <> Some 1%R.
Proof. exact axpy_nothing. Qed.
Print Assumptions C64_axpy_refuted.
