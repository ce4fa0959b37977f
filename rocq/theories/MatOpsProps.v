(** Properties of transposition, blocks, identities and entrywise arithmetic. *)
From Coq Require Import List Arith QArith Reals.
From Verif Require Import Arith MatOpsModel MatOpsSpec MatOpsProofs MatOpsReal MatOpsWitness.
Import ListNotations.
Local Open Scope nat_scope.

(** C09: entry (j, i) of the transpose is entry (i, j), conjugated if complex.  Nothing is read or
    written outside the arrays. *)
Theorem C09_real : forall (A : arith) m n (sp : list (F A)), m * n <= length sp ->
  exists r, transpose_real m n sp = Some r /\ length r = n * m /\
    forall i j, i < m -> j < n -> rentry n r j i = Some (rentry m sp i j).
Proof. exact @transpose_real_ok. Qed.
Print Assumptions C09_real.

Theorem C09_complex : forall (A : arith) m n (sp : list (F A)), 2 * m * n <= length sp ->
  exists r, transpose_complex m n sp = Some r /\ length r = 2 * n * m /\
    forall i j, i < m -> j < n ->
      re n r j i = Some (re m sp i j) /\ im n r j i = Some (option_map fopp (im m sp i j)).
Proof. exact @transpose_complex_ok. Qed.
Print Assumptions C09_complex.

(** Transposing twice gives the matrix back. *)
Theorem C09_real_twice : forall (A : arith) m n (sp : list (F A)), length sp = m * n ->
  exists t, transpose_real m n sp = Some (filled t) /\ transpose_real n m t = Some (filled sp).
Proof. exact @transpose_real_twice. Qed.
Print Assumptions C09_real_twice.

Theorem C09_complex_twice : forall (A : arith) m n (sp : list (F A)),
  (forall x : F A, fopp (fopp x) = x) -> length sp = 2 * m * n ->
  exists t, transpose_complex m n sp = Some (filled t) /\ transpose_complex n m t = Some (filled sp).
Proof. exact @transpose_complex_twice. Qed.
Print Assumptions C09_complex_twice.
Example C09_opp_double : forall x : F D_arith, fopp (fopp x) = x.
Proof. exact opp_D. Qed.
Example C09_example (A : arith) (a b c d e f : F A) :
  transpose_real 2 3 [a; b; c; d; e; f] = Some (filled [a; c; e; b; d; f]).
Proof. reflexivity. Qed.

(** C07, the loops: the block becomes the matrix and every other entry stays, whatever the array
    holds; reading the block back gives the matrix. *)
Theorem C07_block_real : forall (A : arith) m n (r : cells A) r0 r1 c0 c1 (mat : list (F A)),
  r0 <= r1 < m -> c0 <= c1 < n -> m * n <= length r ->
  length mat = (r1 - r0 + 1) * (c1 - c0 + 1) ->
  exists r', assign_real m r r0 r1 c0 c1 mat = Some r' /\ length r' = length r /\
    (forall i j, r0 <= i <= r1 -> c0 <= j <= c1 ->
       rentry m r' i j = Some (rentry (r1 - r0 + 1) mat (i - r0) (j - c0))) /\
    (forall i j, i < m -> ~ (r0 <= i <= r1 /\ c0 <= j <= c1) -> rentry m r' i j = rentry m r i j).
Proof. exact @assign_real_ok. Qed.
Print Assumptions C07_block_real.

Theorem C07_block_complex : forall (A : arith) m n (r : cells A) r0 r1 c0 c1 (mat : list (F A)),
  r0 <= r1 < m -> c0 <= c1 < n -> 2 * m * n <= length r ->
  length mat = 2 * (r1 - r0 + 1) * (c1 - c0 + 1) ->
  exists r', assign_complex m r r0 r1 c0 c1 mat = Some r' /\ length r' = length r /\
    (forall i j, r0 <= i <= r1 -> c0 <= j <= c1 ->
       re m r' i j = Some (re (r1 - r0 + 1) mat (i - r0) (j - c0)) /\
       im m r' i j = Some (im (r1 - r0 + 1) mat (i - r0) (j - c0))) /\
    (forall i j, i < m -> ~ (r0 <= i <= r1 /\ c0 <= j <= c1) ->
       re m r' i j = re m r i j /\ im m r' i j = im m r i j).
Proof. exact @assign_complex_ok. Qed.
Print Assumptions C07_block_complex.

Theorem C07_readback_real : forall (A : arith) m n (r : cells A) r0 r1 c0 c1 (mat : list (F A)),
  r0 <= r1 < m -> c0 <= c1 < n -> m * n <= length r ->
  length mat = (r1 - r0 + 1) * (c1 - c0 + 1) ->
  exists r', assign_real m r r0 r1 c0 c1 mat = Some r' /\ submatrix_real m r' r0 r1 c0 c1 = Some (filled mat).
Proof. exact @block_readback_real. Qed.
Print Assumptions C07_readback_real.

Theorem C07_readback_complex : forall (A : arith) m n (r : cells A) r0 r1 c0 c1 (mat : list (F A)),
  r0 <= r1 < m -> c0 <= c1 < n -> 2 * m * n <= length r ->
  length mat = 2 * (r1 - r0 + 1) * (c1 - c0 + 1) ->
  exists r', assign_complex m r r0 r1 c0 c1 mat = Some r' /\ submatrix_complex m r' r0 r1 c0 c1 = Some (filled mat).
Proof. exact @block_readback_complex. Qed.
Print Assumptions C07_readback_complex.
Example C07_block_example (A : arith) (a b : F A) :
  assign_real 2 (filled [a; a; a; a; a; a]) 1 1 1 2 [b; b] = Some (filled [a; a; a; b; a; b]).
Proof. reflexivity. Qed.

(** C73: complex arithmetic, as complex numbers. *)
Theorem C73_add_sub : forall big eps (l r : list R) zs ws,
  stands_for l zs -> stands_for r ws -> length zs = length ws ->
  stands_for (add (A := R_arith big eps) l r) (zipc cadd zs ws) /\
  stands_for (sub (A := R_arith big eps) l r) (zipc csub zs ws) /\
  stands_for (chadamard (A := R_arith big eps) l r) (zipc cmul zs ws).
Proof.
  exact (fun big eps l r zs ws H K E =>
    conj (add_c big eps l zs r ws H K E) (conj (sub_c big eps l zs r ws H K E) (chadamard_c big eps l zs r ws H K E))).
Qed.
Print Assumptions C73_add_sub.

Theorem C73_scalars : forall big eps (l : list R) zs vr vi, stands_for l zs ->
  stands_for (cadd_val (A := R_arith big eps) l vr vi) (map (fun z => cadd z (vr, vi)) zs) /\
  stands_for (csub_val (A := R_arith big eps) l vr vi) (map (fun z => csub z (vr, vi)) zs) /\
  stands_for (cval_sub (A := R_arith big eps) vr vi l) (map (fun z => csub (vr, vi) z) zs) /\
  stands_for (cscale (A := R_arith big eps) vr vi l) (map (cmul (vr, vi)) zs) /\
  stands_for (scale (A := R_arith big eps) vr l) (map (cmul (vr, 0%R)) zs) /\
  stands_for (conj_ (A := R_arith big eps) l) (map cconj zs).
Proof.
  exact (fun big eps l zs vr vi H =>
    conj (cadd_val_c big eps l zs vr vi H) (conj (csub_val_c big eps l zs vr vi H)
    (conj (cval_sub_c big eps l zs vr vi H) (conj (cscale_c big eps l zs vr vi H)
    (conj (scale_c big eps l zs vr H) (conj_c big eps l zs H)))))).
Qed.
Print Assumptions C73_scalars.

(** The quotient times the divisor is the dividend. *)
Theorem C73_divide_by : forall big eps (l : list R) zs vr vi, stands_for l zs -> (vr, vi) <> czero ->
  exists qs, stands_for (cdiv_val (A := R_arith big eps) l vr vi) qs /\
    map (fun z => cmul z (vr, vi)) qs = zs.
Proof. exact cdiv_val_c. Qed.
Print Assumptions C73_divide_by.
Theorem C73_divide_into : forall big eps (l : list R) zs vr vi, stands_for l zs ->
  Forall (fun z => z <> czero) zs ->
  exists qs, stands_for (cval_div (A := R_arith big eps) vr vi l) qs /\
    zipc cmul qs zs = repeat (vr, vi) (length zs).
Proof. exact cval_div_c. Qed.
Print Assumptions C73_divide_into.
Theorem C73_divide : forall big eps (l : list R) zs r ws,
  stands_for l zs -> stands_for r ws -> length zs = length ws -> Forall (fun z => z <> czero) ws ->
  exists qs, stands_for (chdivide (A := R_arith big eps) l r) qs /\ zipc cmul qs ws = zs.
Proof. exact chdivide_c. Qed.
Print Assumptions C73_divide.
Example C73_example : stands_for [1; 2; 3; 4]%R [(1, 2); (3, 4)]%R.
Proof. repeat constructor. Qed.

(** Real arrays. *)
Theorem C73_real : forall big eps (a b : list R) v, let A := R_arith big eps in
  add (A := A) a b = zipc Rplus a b /\ sub (A := A) a b = zipc Rminus a b /\
  add_val (A := A) a v = map (fun x => x + v)%R a /\ sub_val (A := A) a v = map (fun x => x - v)%R a /\
  val_sub (A := A) v a = map (fun x => v - x)%R a /\ scale (A := A) v a = map (Rmult v) a /\
  div_val (A := A) a v = map (fun x => x / v)%R a /\ val_div (A := A) v a = map (fun x => v / x)%R a /\
  hadamard (A := A) a b = zipc Rmult a b /\ hdivide (A := A) a b = zipc Rdiv a b /\
  max_ (A := A) a b = zipc Rmax a b /\ min_ (A := A) a b = zipc Rmin a b /\
  max_val (A := A) a v = map (Rmax v) a /\ min_val (A := A) a v = map (Rmin v) a.
Proof. exact real_ops. Qed.
Print Assumptions C73_real.

(** C74: identities, diagonal scaling, column norms. *)
Theorem C74_identity : forall (A : arith) m n,
  (exists r, identity_real (A := A) m n = Some r /\ length r = m * n /\
     forall i j, i < m -> j < n -> rentry m r i j = Some (Some (if i =? j then fq 1%Q else fq 0%Q))) /\
  (exists r, identity_complex (A := A) m n = Some r /\ length r = 2 * m * n /\
     forall i j, i < m -> j < n -> re m r i j = Some (Some (if i =? j then fq 1%Q else fq 0%Q)) /\
       im m r i j = Some (Some (fq 0%Q))).
Proof. exact (fun A m n => conj (identity_real_ok m n) (identity_complex_ok m n)). Qed.
Print Assumptions C74_identity.

Theorem C74_scaled_identity : forall (A : arith) n (s : F A),
  exists r, scaled_identity n s = Some r /\ length r = n * n /\
  forall i j, i < n -> j < n -> rentry n r i j = Some (Some (if i =? j then s else fq 0%Q)).
Proof. exact @scaled_identity_ok. Qed.
Print Assumptions C74_scaled_identity.

Theorem C74_diagonal_left : forall (A : arith) n m (d M : list (F A)), length d = n -> length M = n * m ->
  exists r, diag_left_real n m d M = Some r /\ length r = n * m /\
    forall i j, i < n -> j < m -> rentry n r i j = Some (both fmul (nth_error d i) (rentry n M i j)).
Proof. exact @diag_left_ok. Qed.
Print Assumptions C74_diagonal_left.

(** (D M)^T = M^T D *)
Theorem C74_diagonal_transpose : forall (A : arith) n m (d M : list (F A)), length d = n -> length M = n * m ->
  exists DM T Mt, diag_left_real n m d M = Some (filled DM) /\ transpose_real n m DM = Some (filled T) /\
    transpose_real n m M = Some (filled Mt) /\ diag_right_real m n d Mt = Some (filled T).
Proof. exact @diag_transpose. Qed.
Print Assumptions C74_diagonal_transpose.

Theorem C74_norms : forall big eps n k (x : list R), length x = n * k ->
  sum (col_norms (A := R_arith big eps) n k x) =
    (Fnorm (A := R_arith big eps) x * Fnorm (A := R_arith big eps) x)%R /\
  col_norms (A := R_arith big eps) n k x = col_dots (A := R_arith big eps) n k x x /\
  (0 <= Fnorm (A := R_arith big eps) x)%R.
Proof. exact norms_sum. Qed.
Print Assumptions C74_norms.

(** C75: the complex matrix with the same real part and zero imaginary part, from a real one ... *)
Theorem C75_from_real_partial : forall (A : arith) m n (sp : list (F A)), length sp = m * n ->
  exists r, real_to_complex sp = Some r /\ length r = 2 * m * n /\
    forall i j, i < m -> j < n -> re m r i j = Some (rentry m sp i j) /\ im m r i j = Some (Some (fq 0%Q)).
Proof. exact @real_to_complex_ok. Qed.
Print Assumptions C75_from_real_partial.
(** ... but not from a complex one: the second real part lands in the first imaginary part, and the
    second entry is never written. *)
Theorem C75_real_part_refuted : forall (A : arith) (x y z w : F A),
  exists r, real_in_complex [x; y; z; w] = Some r /\
  re 1 r 0 0 = Some (Some x) /\ im 1 r 0 0 = Some (Some z) /\ re 1 r 0 1 = Some None /\ im 1 r 0 1 = Some None.
Proof. exact @real_part_wrong. Qed.
Print Assumptions C75_real_part_refuted.

(** C76: x += y returns the sum and leaves x as it was. *)
Theorem C76_refuted : forall big eps, exists l r : list (F (R_arith big eps)), length l = length r /\
  snd (plus_assign l r) = zipc Rplus l r /\ fst (plus_assign l r) = l /\
  fst (plus_assign l r) <> zipc Rplus l r.
Proof. exact plus_assign_unchanged. Qed.
Print Assumptions C76_refuted.
