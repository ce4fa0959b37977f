(** Instances and witnesses. *)
From Coq Require Import List Bool Arith ZArith Lia Ring Ring_theory Reals Lra.
From Verif Require Import SparseModel SparseSpec SparseProofs SparseBuild SparseProduct SparseSolve SparseOther.
Import ListNotations.

Lemma Reqb_ok x y : Reqb_ x y = true <-> x = y.
Proof. unfold Reqb_. destruct (Req_EM_T x y); split; intros; congruence || discriminate. Qed.
Lemma lawful_real : lawful real.
Proof.
  constructor; cbn.
  - exact RTheory.
  - reflexivity.
  - reflexivity.
  - reflexivity.
  - intros x y H. now field.
  - exact R1_neq_R0.
  - exact Reqb_ok.
Qed.
Lemma lawful_complex : lawful complex.
Proof.
  assert (P : forall a b : cx, fst a = fst b -> snd a = snd b -> a = b) by (intros [a b] [c d]; cbn; intros -> ->; reflexivity).
  constructor; cbn [T s0 s1 sadd ssub smul sdiv sopp sconj seqb complex].
  - constructor; intros; apply P; cbn; ring.
  - intros x y. apply P; cbn; ring.
  - intros x y. apply P; cbn; ring.
  - intros x. apply P; cbn; ring.
  - intros x y H.
    assert (D : (fst y * fst y + snd y * snd y <> 0)%R).
    { intros E. apply H. destruct y as [a b]; cbn in *. apply Rplus_sqr_eq_0 in E. destruct E as [-> ->]. reflexivity. }
    apply P; cbn; field; exact D.
  - intros E. apply R1_neq_R0. injection E as E. exact E.
  - intros x y. rewrite andb_true_iff, !Reqb_ok. split; [intros []; now apply P|intros ->; auto].
Qed.

Section general.
Context {K : scal} (L : lawful K).
Local Open Scope Z_scope.

(** Everything about products in one statement. *)
Lemma product_all (ps : list prop) (M N : nat) (ts : list (triplet K)) :
  hermitian ps = false ->
  (triangular ps || symmetric ps = true -> M = N /\ exists t, In t ts /\ in_range (base ps) M N t) ->
  succeeds (build ps M N ts) (fun m => forall t alpha x bx incx f y by_ incy g,
    incy <> 0 -> view x bx incx (op_cols t M N) f -> view y by_ incy (op_rows t M N) g ->
    succeeds (usmv K t alpha m x bx incx y by_ incy) (fun r => fst r = 0
      /\ view (snd r) by_ incy (op_rows t M N)
           (fun i => sadd (g i) (smul alpha (sumto (op_cols t M N) (fun j => smul (op t (dense ps ts) i j) (f j)))))
      /\ same_outside y (snd r) by_ incy (op_rows t M N))).
Proof.
  intros Hh Hs. destruct (build_ok L ps M N ts Hh (fun H => proj1 (Hs H)) (fun H => proj2 (Hs H))) as (m & E & _).
  exists m. split; [exact E|]. intros t alpha x bx incx f y by_ incy g Hi Hx Hy.
  destruct (usmv_ok L ps M N ts Hh (fun H => proj1 (Hs H)) (fun H => proj2 (Hs H)) m E t alpha x bx incx f by_ incy y g Hi Hx Hy) as (y' & E' & V & S).
  exists (0, y'). auto.
Qed.
Lemma product_many (ps : list prop) (M N : nat) (ts : list (triplet K)) m :
  hermitian ps = false ->
  (triangular ps || symmetric ps = true -> M = N /\ exists t, In t ts /\ in_range (base ps) M N t) ->
  build ps M N ts = Some m -> forall o t nrhs alpha b ldb B c ldc G,
    0 < ldc -> (match o with ColMajor => Z.of_nat (op_rows t M N) <= ldc | RowMajor => Z.of_nat nrhs <= ldc end) ->
    (forall i k, 0 <= i < Z.of_nat (op_cols t M N) -> 0 <= k < Z.of_nat nrhs -> b (addr o ldb i k) = Some (B i k)) ->
    (forall i k, 0 <= i < Z.of_nat (op_rows t M N) -> 0 <= k < Z.of_nat nrhs -> c (addr o ldc i k) = Some (G i k)) ->
    succeeds (usmm K o t nrhs alpha m b ldb c ldc) (fun r => fst r = 0
      /\ (forall i k, 0 <= i < Z.of_nat (op_rows t M N) -> 0 <= k < Z.of_nat nrhs -> snd r (addr o ldc i k)
           = Some (sadd (G i k) (smul alpha (sumto (op_cols t M N) (fun j => smul (op t (dense ps ts) i j) (B j k))))))
      /\ (forall a, (forall i k, 0 <= i < Z.of_nat (op_rows t M N) -> 0 <= k < Z.of_nat nrhs -> a <> addr o ldc i k) -> snd r a = c a)).
Proof.
  intros Hh Hs E o t nrhs alpha b ldb B c ldc G H1 H2 H3 H4.
  destruct (usmm_ok L ps M N ts Hh (fun H => proj1 (Hs H)) (fun H => proj2 (Hs H)) m E o t nrhs alpha b ldb B c ldc G H2 H1 H3 H4) as (c' & E' & V & S).
  exists (0, c'). auto.
Qed.
Lemma element_products (ps : list prop) (M N : nat) (ts : list (triplet K)) m :
  hermitian ps = false ->
  (triangular ps || symmetric ps = true -> M = N /\ exists t, In t ts /\ in_range (base ps) M N t) ->
  (0 < M)%nat -> (0 < N)%nat -> build ps M N ts = Some m ->
  (forall c b B, bycols b N c B ->
     succeeds (sparse_times K m c b) (fun r => bycols r M c (fun i k => sumto N (fun j => smul (dense ps ts i j) (B j k)))))
  /\ (forall (cplx : bool) r a A, bycols a r M A ->
     succeeds (times_sparse K (if cplx then sconj else idc K) (if cplx then ConjTrans else Trans) r a m)
       (fun res => bycols res r N (fun i k => sumto M (fun j => smul (A i j) (dense ps ts j k))))).
Proof.
  intros Hh Hs HM HN E. split.
  - intros c b B HB. exact (sparse_times_ok L ps M N ts Hh (fun H => proj1 (Hs H)) (fun H => proj2 (Hs H)) m E c b B HM HB).
  - intros cplx r a A HA. exact (times_sparse_ok L ps M N ts Hh (fun H => proj1 (Hs H)) (fun H => proj2 (Hs H)) m E cplx r a A HN HA).
Qed.

Lemma product_plain_ (b : bool) (M N : nat) (ts : list (triplet K)) :
  let ps := if b then [OneBase] else [ZeroBase] in
  succeeds (build ps M N ts) (fun m => forall t alpha x bx incx f y by_ incy g,
    incy <> 0 -> view x bx incx (op_cols t M N) f -> view y by_ incy (op_rows t M N) g ->
    succeeds (usmv K t alpha m x bx incx y by_ incy) (fun r => fst r = 0
      /\ view (snd r) by_ incy (op_rows t M N)
           (fun i => sadd (g i) (smul alpha (sumto (op_cols t M N) (fun j => smul (op t (inserted (base_of b) ts) i j) (f j)))))
      /\ same_outside y (snd r) by_ incy (op_rows t M N))).
Proof.
  destruct b; cbv zeta iota.
  - apply (product_all [OneBase] M N ts); [reflexivity|discriminate].
  - apply (product_all [ZeroBase] M N ts); [reflexivity|discriminate].
Qed.
Lemma element_plain_ (M N : nat) (ts : list (triplet K)) m : (0 < M)%nat -> (0 < N)%nat -> build [] M N ts = Some m ->
  (forall c b B, bycols b N c B ->
     succeeds (sparse_times K m c b) (fun r => bycols r M c (fun i k => sumto N (fun j => smul (inserted 0 ts i j) (B j k)))))
  /\ (forall (cplx : bool) r a A, bycols a r M A ->
     succeeds (times_sparse K (if cplx then sconj else idc K) (if cplx then ConjTrans else Trans) r a m)
       (fun res => bycols res r N (fun i k => sumto M (fun j => smul (A i j) (inserted 0 ts j k))))).
Proof. intros HM HN E. apply (element_products [] M N ts m); [reflexivity|discriminate|exact HM|exact HN|exact E]. Qed.

(** Solves. *)
Lemma solve_one ps n ts m : solvable ps n ts -> build ps n n ts = Some m ->
  forall t alpha x b inc f, alpha <> s0 -> 0 < inc -> view x b inc n f ->
  succeeds (ussv K t alpha m x b inc) (fun r => fst r = 0 /\ same_outside x (snd r) b inc n
    /\ exists z, view (snd r) b inc n z
    /\ forall k, 0 <= k < Z.of_nat n -> sumto n (fun j => smul (op t (dense ps ts) k j) (smul alpha (z j))) = f k).
Proof.
  intros (H1 & H2 & H3 & H4 & H5 & H6) E t alpha x b inc f Ha Hi Hx.
  destruct (ussv_ok L ps n ts H1 H2 H3 H4 H5 H6 m E t alpha x b inc f Ha Hi Hx) as (x' & z & E' & V & S & Q).
  exists (0, x'). split; [exact E'|]. split; [reflexivity|]. split; [exact S|]. exists z. split; [exact V|].
  intros k Hk. rewrite <- (Q k Hk), <- (sumto_scale L). apply (sumto_ext L). intros j _.
  pose proof (law_ring K L) as Rg. destruct Rg as [_ _ _ _ Mc Ma _ _ _]. rewrite !Ma, (Mc (op t (dense ps ts) k j) alpha). reflexivity.
Qed.
Lemma solve_one_unit ps n ts m : solvable ps n ts -> build ps n n ts = Some m ->
  forall t x b inc f, 0 < inc -> view x b inc n f ->
  succeeds (ussv K t s1 m x b inc) (fun r => fst r = 0 /\ same_outside x (snd r) b inc n
    /\ exists z, view (snd r) b inc n z
    /\ forall k, 0 <= k < Z.of_nat n -> sumto n (fun j => smul (op t (dense ps ts) k j) (z j)) = f k).
Proof.
  intros H E t x b inc f Hi Hx. destruct (solve_one ps n ts m H E t s1 x b inc f (law_one K L) Hi Hx) as (r & E' & H0 & S & z & V & Q).
  exists r. split; [exact E'|]. split; [exact H0|]. split; [exact S|]. exists z. split; [exact V|]. intros k Hk. rewrite <- (Q k Hk).
  apply (sumto_ext L). intros j _. pose proof (law_ring K L) as Rg. destruct Rg as [_ _ _ M1 _ _ _ _ _]. now rewrite M1.
Qed.
Lemma solve_many ps n ts m : solvable ps n ts -> build ps n n ts = Some m ->
  forall o t nrhs c ldc F, 0 < ldc -> (match o with ColMajor => Z.of_nat n <= ldc | RowMajor => Z.of_nat nrhs <= ldc end) ->
  (forall i k, 0 <= i < Z.of_nat n -> 0 <= k < Z.of_nat nrhs -> c (addr o ldc i k) = Some (F i k)) ->
  succeeds (ussm K o t nrhs s1 m c ldc) (fun r => fst r = 0
    /\ (exists X, (forall i k, 0 <= i < Z.of_nat n -> 0 <= k < Z.of_nat nrhs -> snd r (addr o ldc i k) = Some (X i k))
       /\ forall i k, 0 <= i < Z.of_nat n -> 0 <= k < Z.of_nat nrhs -> sumto n (fun j => smul (op t (dense ps ts) i j) (X j k)) = F i k)
    /\ (forall a, (forall i k, 0 <= i < Z.of_nat n -> 0 <= k < Z.of_nat nrhs -> a <> addr o ldc i k) -> snd r a = c a)).
Proof.
  intros (H1 & H2 & H3 & H4 & H5 & H6) E o t nrhs c ldc F Hp Hl Hc.
  destruct (ussm_ok L ps n ts H1 H2 H3 H4 H5 H6 m E o t nrhs s1 c ldc F (law_one K L) Hp Hl Hc) as (c' & X & E' & V & Q & S).
  exists (0, c'). split; [exact E'|]. split; [reflexivity|]. split; [|exact S]. exists X. split; [exact V|].
  intros i k Hi Hk. rewrite <- (Q i k Hi Hk). pose proof (law_ring K L) as Rg. destruct Rg as [_ _ _ M1 _ _ _ _ _]. now rewrite M1.
Qed.

(** Level 1. *)
Lemma dot_all y b inc n one g cj (xi : list (K * Z)) : view y b inc n g -> (forall p, In p xi -> index_ok n one (snd p)) ->
  usdot K cj xi y b inc one = Some (lsum (map (fun p => smul (cj (fst p)) (g (snd p - base_of one))) xi)).
Proof. intros Hy H. exact (usdot_ok L y b inc n one g Hy cj xi H). Qed.
Lemma gz_all y b inc n one g idx : inc <> 0 -> view y b inc n g -> NoDup idx -> (forall k, In k idx -> index_ok n one k) ->
  succeeds (usgz K idx y b inc one) (fun r => fst r = map (fun k => g (k - base_of one)) idx
    /\ view (snd r) b inc n (fun i => if existsb (Z.eqb (i + base_of one)) idx then s0 else g i) /\ same_outside y (snd r) b inc n).
Proof.
  intros Hi Hy ND H. destruct (usgz_ok (K := K) y b inc n one idx Hi ND H y g) as (y' & E & V & S).
  - split; [exact Hy|]. intros a _. reflexivity.
  - exists (map (fun k => g (k - base_of one)) idx, y'). auto.
Qed.
Lemma sc_all y b inc n one g (xi : list (K * Z)) : inc <> 0 -> view y b inc n g -> (forall p, In p xi -> index_ok n one (snd p)) ->
  succeeds (ussc K xi y b inc one) (fun y' => view y' b inc n (scattered one xi g) /\ same_outside y y' b inc n).
Proof.
  intros Hi Hy H. destruct (ussc_ok (K := K) y b inc n one xi Hi H y g) as (y' & E & V & S).
  - split; [exact Hy|]. intros a _. reflexivity.
  - exists y'. auto.
Qed.
End general.

Definition product_plain (K : scal) (L : lawful K) := product_plain_ L.
Definition element_plain (K : scal) (L : lawful K) := element_plain_ L.

(** ** Witnesses over the reals *)
Local Open Scope Z_scope.
Definition arr (l : list R) : vmem real := fun a => if Z.ltb a 0 then None else nth_error l (Z.to_nat a).

Lemma hermitian_diag (v : R) : build (K := real) [LowerHer] 1 1 [(v, 0, 0)] = None.
Proof. reflexivity. Qed.
(** [[0, 1], [1, 0]] given by its lower half, times (0, 1). *)
Lemma hermitian_product : exists m y', build (K := real) [LowerHer] 2 2 [(1%R, 1, 0)] = Some m
  /\ usmv real NoTrans 1%R m (arr [0%R; 1%R]) 0 1 (arr [0%R; 0%R]) 0 1 = Some (0, y') /\ y' 0 = Some 0%R.
Proof. eexists. eexists. split; [reflexivity|]. split; [reflexivity|]. cbn. f_equal. ring. Qed.
Lemma unit_empty : exists m y', build (K := real) [LowerTri; UnitDiag] 1 1 [] = Some m
  /\ usmv real NoTrans 1%R m (arr [1%R]) 0 1 (arr [0%R]) 0 1 = Some (0, y') /\ y' 0 = Some 0%R.
Proof. eexists. eexists. split; [reflexivity|]. split; [reflexivity|]. cbn. f_equal. ring. Qed.
Lemma Reqb_true x y : x = y -> Reqb_ x y = true.
Proof. apply Reqb_ok. Qed.
Lemma Reqb_false x y : x <> y -> Reqb_ x y = false.
Proof. intros H. destruct (Reqb_ x y) eqn:E; [|reflexivity]. apply Reqb_ok in E. contradiction. Qed.
(** The 1 by 1 system x = 1 with alpha = 2 gives 1/2. *)
Lemma alpha_two : exists m x', build (K := real) [LowerTri] 1 1 [(1%R, 0, 0)] = Some m
  /\ ussv real NoTrans 2%R m (arr [1%R]) 0 1 = Some (0, x') /\ x' 0 = Some (1 / 2)%R.
Proof.
  eexists. eexists. split; [reflexivity|].
  unfold ussv, tri_solve. cbn [is_valid stat set_stat end_ negb]. cbn -[Reqb_]. rewrite (Reqb_false 2 0) by lra. cbn -[Reqb_].
  rewrite (Reqb_false 2 1) by lra. cbn. split; [reflexivity|]. cbn. f_equal. field.
Qed.
(** A 2 by 2 diagonal block given by strides 2 and 1 reads past its four values. *)
Lemma block_stride : insert_block real (arr [1%R; 2%R; 3%R; 4%R]) 2 1 0 0 (block_begin real 1 1 2 2) = None.
Proof. reflexivity. Qed.
(** A 1 by 1 block above the diagonal reads past its single value. *)
Lemma block_above : insert_block real (arr [1%R]) 1 1 0 1 (block_begin real 2 2 1 1) = None.
Proof. reflexivity. Qed.
Lemma axpy_nothing : exists (y : vmem real) y', usaxpy real 1%R [(1%R, 0)] y 0 1 false = Some y' /\ y 0 = Some 0%R /\ y' 0 <> Some 1%R.
Proof. exists (arr [0%R]), (arr [0%R]). split; [reflexivity|]. split; [reflexivity|]. cbn. intros E. injection E as E. lra. Qed.

(** ** Concrete cases *)
Definition ex_ts : list (triplet real) := [(2%R, 2, 1); (1%R, 1, 1); (3%R, 2, 1); (4%R, 2, 2)].
Lemma ex_product : hermitian [OneBase; LowerSym] = false
  /\ (triangular [OneBase; LowerSym] || symmetric [OneBase; LowerSym] = true ->
       2%nat = 2%nat /\ exists t, In t ex_ts /\ in_range (K := real) (base [OneBase; LowerSym]) 2 2 t)
  /\ dense (K := real) [OneBase; LowerSym] ex_ts 0 1 = 5%R.
Proof.
  split; [reflexivity|]. split.
  - intros _. split; [reflexivity|]. exists (1%R, 1, 1). split; [right; left; reflexivity|]. cbn. lia.
  - cbn. ring.
Qed.
Lemma ex_solve : solvable (K := real) [OneBase; LowerTri] 2 ex_ts.
Proof.
  split; [reflexivity|]. split; [reflexivity|]. split; [reflexivity|]. split.
  { exists (1%R, 1, 1). split; [right; left; reflexivity|]. cbn. lia. }
  split.
  - intros i j Hi Hj Hij. cbn in Hij. assert (i = 0) by lia. assert (j = 1) by lia. subst. reflexivity.
  - intros i Hi. assert (E : i = 0 \/ i = 1) by lia. destruct E as [-> | ->]; cbn; lra.
Qed.
Lemma ex_built : exists m, build (K := real) [OneBase; LowerTri] 2 2 ex_ts = Some m.
Proof.
  destruct (product_all lawful_real [OneBase; LowerTri] 2 2 ex_ts) as (m & E & _); [reflexivity| |eauto].
  intros _. split; [reflexivity|]. exists (1%R, 1, 1). split; [right; left; reflexivity|]. cbn. lia.
Qed.
Lemma ex_view : view (K := real) (arr [5%R; 6%R; 7%R]) 0 2 2 (fun k => if Z.eqb k 0 then 5%R else 7%R).
Proof. intros k Hk. assert (E : k = 0 \/ k = 1) by lia. destruct E as [-> | ->]; reflexivity. Qed.
Lemma ex_history : option_map (table_get real 1) (history [Create (begin real 1 1); Create (begin real 2 2); Destroy 0] (table0 real))
  = Some (Some (begin real 2 2)).
Proof. reflexivity. Qed.
Lemma ex_block : option_map (S_ real) (insert_block real (arr [1%R; 2%R; 3%R; 4%R]) (2 - 2 * 1) 1 1 1 (block_begin real 2 2 2 2))
  = Some [[]; []; [(1%R, 2); (2%R, 3)]; [(3%R, 2); (4%R, 3)]].
Proof. cbv -[IZR]. reflexivity. Qed.
Lemma ex_bycols : bycols (K := real) (arr [1%R; 2%R; 3%R; 4%R]) 2 2 (fun i j => nth (Z.to_nat (i + j * 2)) [1%R; 2%R; 3%R; 4%R] 0%R).
Proof.
  intros i j Hi Hj. assert (E : i = 0 \/ i = 1) by lia. assert (E' : j = 0 \/ j = 1) by lia.
  destruct E as [-> | ->]; destruct E' as [-> | ->]; reflexivity.
Qed.
