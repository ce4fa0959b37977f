(** Proofs about the intrinsic representations of tangent and normal vectors. *)
From mathcomp Require Import all_ssreflect all_algebra.
Require Import Ring Field.
From Verif Require Import MxTac StiefelModel StiefelSpec StiefelProofs StiefelRetr.
Import Order.TTheory GRing.Theory Num.Theory.
Set Implicit Arguments.
Unset Strict Implicit.
Local Open Scope ring_scope.

Section lists.
Variable R : rcfType.
Lemma vdot_map (T : Type) (s : seq T) (f g : T -> R) :
  vdot (map f s) (map g s) = \sum_(e <- s) f e * g e.
Proof.
case: s => [|e0 s']; first by rewrite /vdot big_nil big_ord0.
set s := e0 :: s'; rewrite /vdot size_map (big_nth e0) big_mkord; apply: eq_bigr => i _.
by rewrite !(nth_map e0).
Qed.
Lemma vdot_cat (u1 u2 v1 v2 : seq R) : size u1 = size v1 ->
  vdot (u1 ++ u2) (v1 ++ v2) = vdot u1 v1 + vdot u2 v2.
Proof.
move=> E; rewrite /vdot size_cat big_split_ord /=; congr (_ + _); apply: eq_bigr => i _.
  by rewrite !nth_cat -E ltn_ord.
by rewrite !nth_cat -E !ltnNge leq_addr /= addKn.
Qed.
Lemma map_index (T : eqType) (s : seq T) (v : seq R) n : uniq s -> size v = (n + size s)%N ->
  [seq nth 0 v (n + index e s) | e <- s] = drop n v.
Proof.
move=> Hs Hv; apply: (@eq_from_nth _ 0); first by rewrite size_map size_drop Hv addKn.
rewrite size_map => i Hi; case: s Hs Hv Hi => [//|e0 s] Hs Hv Hi.
by rewrite (nth_map e0) // index_uniq // nth_drop.
Qed.
Lemma nth_map_index (T : eqType) (s : seq T) (f : T -> R) (v : seq R) e : e \in s ->
  nth 0 (map f s ++ v) (index e s) = f e.
Proof. by move=> He; rewrite nth_cat size_map index_mem He (nth_map e) ?index_mem // nth_index. Qed.
Lemma nth_map_index2 (T : eqType) (s : seq T) (f : T -> R) (v : seq R) e : e \in s ->
  nth 0 (v ++ map f s) (size v + index e s) = f e.
Proof.
by move=> He; rewrite nth_cat ltnNge leq_addr /= addKn (nth_map e) ?index_mem // nth_index.
Qed.
End lists.

Section pairs.
Variables p k : nat.
Lemma upper_mem (i j : 'I_p) : ((i, j) \in upper_pairs p) = (i < j)%N.
Proof.
apply/idP/idP => [/flattenP [s /mapP [i' _ ->] /mapP [j' Hj [-> ->]]]|H].
  by move: Hj; rewrite mem_filter => /andP [].
apply/flattenP; exists [seq (i, j) | j <- filter (fun j : 'I_p => (i < j)%N) (enum 'I_p)].
  by apply/mapP; exists i => //; rewrite mem_enum.
by apply/mapP; exists j => //; rewrite mem_filter H mem_enum.
Qed.
Lemma lower_mem (i : 'I_p) (j : 'I_k) : (i, j) \in lower_pairs p k.
Proof.
apply/flattenP; exists [seq (i, j) | j <- enum 'I_k].
  by apply/mapP; exists i => //; rewrite mem_enum.
by apply/mapP; exists j => //; rewrite mem_enum.
Qed.
Lemma pairs_uniq (A B : eqType) (s : seq A) (t : A -> seq B) : uniq s -> (forall i, uniq (t i)) ->
  uniq (flatten [seq [seq (i, j) | j <- t i] | i <- s]).
Proof.
move=> Hs Ht; elim: s Hs => [//|a s IH] /= /andP [Ha Hs]; rewrite cat_uniq IH // andbT.
rewrite map_inj_uniq ?Ht /=; last by move=> x y [].
apply/hasPn => [[i j]] /flattenP [l /mapP [i' Hi' ->] /mapP [j' _ [-> _]]].
by apply/mapP => [[j'' _ [E _]]]; move: Ha; rewrite -E Hi'.
Qed.
Lemma upper_uniq : uniq (upper_pairs p).
Proof. by apply: pairs_uniq => [|i]; [exact: enum_uniq | apply: filter_uniq; exact: enum_uniq]. Qed.
Lemma lower_uniq : uniq (lower_pairs p k).
Proof. by apply: pairs_uniq => [|i]; exact: enum_uniq. Qed.
Lemma lower_size : size (lower_pairs p k) = (p * k)%N.
Proof.
by rewrite /lower_pairs size_allpairs !size_enum_ord.
Qed.
Lemma upper_sum (T : zmodType) (F : 'I_p * 'I_p -> T) :
  \sum_(e <- upper_pairs p) F e = \sum_(i < p) \sum_(j < p | (i < j)%N) F (i, j).
Proof.
rewrite /upper_pairs big_flatten big_map big_enum /=; apply: eq_bigr => i _.
by rewrite big_map big_filter big_enum_cond /=.
Qed.
Lemma lower_sum (T : zmodType) (F : 'I_p * 'I_k -> T) :
  \sum_(e <- lower_pairs p k) F e = \sum_i \sum_j F (i, j).
Proof.
rewrite /lower_pairs big_flatten big_map big_enum /=; apply: eq_bigr => i _.
by rewrite big_map big_enum /=.
Qed.
Lemma upper_size : size (upper_pairs p) = 'C(p, 2).
Proof.
rewrite size_allpairs_dep sumnE big_map big_enum /=.
rewrite -triangular_sum big_mkord (reindex_inj rev_ord_inj) /=; apply: eq_bigr => i _.
rewrite size_filter -sum1_count big_enum_cond /=.
rewrite -(big_geq_mkord (p - i.+1).+1 p xpredT (fun _ => 1%N)) sum_nat_const_nat muln1.
by rewrite -subSn // subSS subKn // ltnW.
Qed.
End pairs.

Section intr.
Variable R : rcfType.
Add Field intr_field : (rcf_field R).
Variables p k : nat.
Local Notation ext := 'M[R]_(p + k, p).
Implicit Types x y eta xi : ext.
Implicit Type v : seq R.
Implicit Types (Q : 'M[R]_(p + k)) (r : 'M[R]_p).

(** [Q] continues x, up to the signs of [r]. *)
Definition frame x Q r := orthonormal Q /\ Q^T *m x = col_mx (diag_mx (sgn_row r)) 0.
Lemma hhr_frame x Q r : orthonormal x -> is_hhr x Q r -> frame x Q r.
Proof.
move=> Hx [HQ HF Hu]; split=> //; rewrite HF; congr col_mx.
have Ho : orthonormal r.
  have : (Q^T *m x)^T *m (Q^T *m x) = 1%:M.
    by rewrite trM trmxK mulmxA -[x^T *m Q *m Q^T]mulmxA (mulmx1C HQ) mulmx1.
  by rewrite HF tr_col_mx mul_row_col trmx0 mul0mx addr0.
apply/matrixP => i j; rewrite !mxE; have [H1 H2] := upper_orth Hu Ho i j.
case: (altP (i =P j)) => [E|/H2 //]; rewrite -E mulr1n; move/eqP: H1; rewrite sqrf_eq1.
case/orP => /eqP ->; first by rewrite ltNge ler01.
by rewrite oppr_lt0 ltr01.
Qed.
(** The frame that qfRetraction leaves with its result: the Householder QR of x + eta. *)
Lemma hhr_qr (A : ext) Q r : is_hhr A Q r -> is_qr A (lsubmx Q) r.
Proof.
move=> [HQ HF Hu]; have EA : A = lsubmx Q *m r.
  have : Q *m (Q^T *m A) = A by rewrite mulmxA (mulmx1C HQ) mul1mx.
  by rewrite HF -{1}(hsubmxK Q) mul_row_col mulmx0 addr0.
split=> //; have := HQ; rewrite /orthonormal -{1 2}(hsubmxK Q) tr_row_mx mul_col_row.
by rewrite (@scalar_mx_block _ p k 1) => /eq_block_mx [].
Qed.
Lemma hhr_frame_qf (A : ext) Q r : is_hhr A Q r -> frame (fix_columns r (lsubmx Q)) Q r.
Proof.
move=> H; have [HQ _ _] := H; split=> //.
rewrite fix_columnsE mulmxA; have := HQ; rewrite /orthonormal -{1 2}(hsubmxK Q) tr_row_mx mul_col_row.
rewrite (@scalar_mx_block _ p k 1) => /eq_block_mx [E1 _ E2 _].
by rewrite -{1}(hsubmxK Q) tr_row_mx mul_col_mx E1 E2 mul_col_mx mul1mx mul0mx.
Qed.

Section fr.
Variables (x : ext) (Q : 'M[R]_(p + k)) (r : 'M[R]_p).
Hypothesis HF : frame x Q r.
Lemma QQ : Q *m Q^T = 1%:M.
Proof. by case: HF => H _; apply: mulmx1C. Qed.
Lemma sgnM m (A : 'M[R]_(p, m)) : diag_mx (sgn_row r) *m (diag_mx (sgn_row r) *m A) = A.
Proof. by rewrite mulmxA sgn_sq mul1mx. Qed.
Lemma frame_orth : orthonormal x.
Proof.
have : (Q^T *m x)^T *m (Q^T *m x) = x^T *m x.
  by rewrite trM trmxK mulmxA -[x^T *m Q *m Q^T]mulmxA QQ mulmx1.
by case: HF => _ ->; rewrite tr_col_mx mul_row_col trmx0 mul0mx addr0 tr_diag_mx sgn_sq => E; rewrite /orthonormal -E.
Qed.
Lemma frame_top eta : fix_rows r (usubmx (Q^T *m eta)) = x^T *m eta.
Proof.
have <- : (Q^T *m x)^T *m (Q^T *m eta) = x^T *m eta.
  by rewrite trM trmxK mulmxA -[x^T *m Q *m Q^T]mulmxA QQ mulmx1.
case: HF => _ ->; rewrite -{2}(vsubmxK (Q^T *m eta)) tr_col_mx mul_row_col trmx0 mul0mx addr0 tr_diag_mx.
by rewrite fix_rowsE.
Qed.
Lemma frame_inner eta xi : inner eta xi =
  inner (x^T *m eta) (x^T *m xi) + inner (dsubmx (Q^T *m eta)) (dsubmx (Q^T *m xi)).
Proof.
have -> : inner eta xi = inner (Q^T *m eta) (Q^T *m xi) by rewrite inner_mull trmxK mulmxA QQ mul1mx.
rewrite -!frame_top !fix_rowsE; move: (Q^T *m eta) (Q^T *m xi) => A B.
rewrite [inner (_ *m usubmx A) _]inner_mull tr_diag_mx sgnM.
by rewrite /inner -{1}(vsubmxK A) -{1}(vsubmxK B) tr_col_mx mul_row_col mxtraceD.
Qed.
(** A matrix from its two parts. *)
Lemma frame_join (T : 'M[R]_p) (B : 'M[R]_(k, p)) :
  x^T *m (Q *m col_mx (fix_rows r T) B) = T /\ dsubmx (Q^T *m (Q *m col_mx (fix_rows r T) B)) = B.
Proof.
have HQ : Q^T *m Q = 1%:M by case: HF.
rewrite -frame_top mulmxA HQ mul1mx col_mxKu col_mxKd; split=> //.
by rewrite !fix_rowsE sgnM.
Qed.
Lemma frame_split eta : Q *m col_mx (fix_rows r (x^T *m eta)) (dsubmx (Q^T *m eta)) = eta.
Proof.
by rewrite -frame_top !fix_rowsE sgnM vsubmxK mulmxA QQ mul1mx.
Qed.

Lemma sqrt2_sq : Num.sqrt 2%:R * Num.sqrt 2%:R = 2%:R :> R.
Proof. by rewrite -expr2 sqr_sqrtr // ler0n. Qed.
Lemma sqrt2_neq0 : Num.sqrt 2%:R != 0 :> R.
Proof. by rewrite sqrtr_eq0 -ltNge ltr0n. Qed.
Lemma skew_entry n (A : 'M[R]_n) i j : skew A -> A j i = - A i j.
Proof. by move=> H; have := congr1 (fun B : 'M_n => B i j) H; rewrite !mxE. Qed.
Lemma skew_diag n (A : 'M[R]_n) i : skew A -> A i i = 0.
Proof.
move=> H; have : A i i *+ 2 = 0 by rewrite mulr2n {1}(skew_entry i i H) addNr.
by move/eqP; rewrite mulrn_eq0 => /eqP.
Qed.
Lemma intrE eta : tangent x eta -> obtain_intr Q r eta =
  [seq - (Num.sqrt 2%:R * (x^T *m eta) ij.1 ij.2) | ij <- upper_pairs p] ++
  [seq dsubmx (Q^T *m eta) ij.2 ij.1 | ij <- lower_pairs p k].
Proof.
move=> He; rewrite /obtain_intr frame_top; congr (_ ++ _); apply: eq_map => [[i j]] /=.
rewrite (skew_entry i j He); move: (Num.sqrt _) => c.
by fld R.
Qed.
Lemma sum_halves (F : 'I_p -> 'I_p -> R) : (forall i j, F i j = F j i) ->
  \sum_i \sum_j F i j = \sum_i F i i + (\sum_(i < p) \sum_(j < p | (i < j)%N) F i j) *+ 2.
Proof.
move=> HFs; have E (i : 'I_p) : \sum_j F i j = F i i + (\sum_(j < p | (i < j)%N) F i j + \sum_(j < p | (j < i)%N) F i j).
  rewrite (bigD1 i) //=; congr (_ + _); rewrite (bigID (fun j : 'I_p => (i < j)%N)) /=; congr (_ + _).
    by apply: eq_bigl => j; rewrite andbC; case: (ltnP i j) => //= H; apply/eqP => E; rewrite E ltnn in H.
  apply: eq_bigl => j; rewrite -leqNgt [in RHS]ltn_neqAle; congr (_ && _).
rewrite (eq_bigr _ (fun i _ => E i)) big_split big_split /= mulr2n; congr (_ + (_ + _)).
rewrite (exchange_big_dep xpredT) //=.
by apply: eq_bigr => i _; apply: eq_bigr => j _.
Qed.
Lemma intr_inner eta xi : tangent x eta -> tangent x xi ->
  vdot (obtain_intr Q r eta) (obtain_intr Q r xi) = inner eta xi.
Proof.
move=> He Hx; rewrite !intrE // vdot_cat ?size_map // !vdot_map upper_sum lower_sum frame_inner; congr (_ + _).
  rewrite -[in RHS]dotE /dot sum_halves; last first.
    by move=> i j; rewrite (skew_entry i j He) (skew_entry i j Hx) mulrNN.
  rewrite [X in X + _]big1 ?add0r; last by move=> i _; rewrite (skew_diag i He) mul0r.
  rewrite -sumrMnl; apply: eq_bigr => i _; rewrite -sumrMnl; apply: eq_bigr => j _ /=.
  by rewrite mulrNN mulrACA sqrt2_sq; rng R.
rewrite exchange_big -[in RHS]dotE /dot /=.
by apply: eq_bigr => j _; apply: eq_bigr => i _.
Qed.
Lemma intr_size eta : size (obtain_intr Q r eta) = ((p + k) * p - p * (p + 1) %/ 2)%N.
Proof.
rewrite /obtain_intr size_cat !size_map upper_size lower_size bin2 -divn2 mulnDl.
have E : (p * p = p * (p + 1) %/ 2 + p * p.-1 %/ 2)%N.
  case: p => [//|q] /=.
  have H : (q.+1 * (q.+1 + 1) = q.+1 * q + q.+1 * 2)%N by rewrite -mulnDr addn1 addn2.
  rewrite H divnDr ?dvdn_mull // mulnK // addnAC.
  have H2 : (q.+1 * q %/ 2 + q.+1 * q %/ 2 = q.+1 * q)%N.
    have : ~~ odd (q.+1 * q) by rewrite oddM /= andbC andbN.
    by rewrite divn2 -[in X in _ -> _ = X](odd_double_half (q.+1 * q)) => /negbTE ->; rewrite add0n addnn.
  by rewrite H2 mulnS addnC.
by rewrite {1}E -addnA addKn [(k * p)%N]mulnC.
Qed.
Lemma extr_tangent v : tangent x (obtain_extr Q r v).
Proof.
rewrite /tangent /obtain_extr; have [-> _] := frame_join (\matrix_(a, b) (if a == b then 0
    else if (b < a)%N then nth 0 v (index (b, a) (upper_pairs p)) / Num.sqrt 2%:R
    else - (nth 0 v (index (a, b) (upper_pairs p)) / Num.sqrt 2%:R)))
   (\matrix_(j < k, i < p) nth 0 v (size (upper_pairs p) + index (i, j) (lower_pairs p k))).
apply/matrixP => i j; rewrite !mxE eq_sym; case: (altP eqP) => [_|Hij]; first by rewrite oppr0.
by case: (ltngtP i j) => H; rewrite ?opprK //; move/val_inj: H Hij => ->; rewrite eqxx.
Qed.
Lemma intr_extr eta : tangent x eta -> obtain_extr Q r (obtain_intr Q r eta) = eta.
Proof.
move=> He; rewrite intrE // /obtain_extr -[RHS]frame_split; congr (_ *m col_mx _ _).
  congr fix_rows; apply/matrixP => a b; rewrite mxE.
  case: (altP (a =P b)) => [->|Hab]; first by rewrite (skew_diag b He).
  case: (ltngtP b a) => H.
  - by rewrite nth_map_index ?upper_mem //= (skew_entry b a He) mulNr mulrAC mulfV ?sqrt2_neq0 // mul1r.
  - by rewrite nth_map_index ?upper_mem //= mulNr opprK mulrAC mulfV ?sqrt2_neq0 // mul1r.
  - by move/val_inj: H Hab => ->; rewrite eqxx.
apply/matrixP => j i; rewrite mxE.
have -> : size (upper_pairs p) = size [seq - (Num.sqrt 2%:R * (x^T *m eta) ij.1 ij.2) | ij <- upper_pairs p] by rewrite size_map.
by rewrite nth_map_index2 ?lower_mem.
Qed.
Lemma extr_intr v : size v = ((p + k) * p - p * (p + 1) %/ 2)%N -> obtain_intr Q r (obtain_extr Q r v) = v.
Proof.
move=> Hv; rewrite (intrE (extr_tangent v)).
rewrite /obtain_extr; set T := \matrix_(a, b) _; set B := \matrix_(j, i) _.
have [-> ->] := frame_join T B.
have Hs : (size (upper_pairs p) + size (lower_pairs p k))%N = size v.
  by rewrite Hv -(intr_size x) /obtain_intr size_cat !size_map.
rewrite -[RHS](cat_take_drop (size (upper_pairs p))); congr (_ ++ _); last first.
  rewrite -(map_index (lower_uniq p k) (n := size (upper_pairs p))) //.
  by apply: eq_map => [[i j]]; rewrite !mxE.
have Ht : size (take (size (upper_pairs p)) v) = (0 + size (upper_pairs p))%N.
  by rewrite size_takel // -Hs leq_addr.
rewrite -[RHS]drop0 -(map_index (upper_uniq p) Ht).
apply/eq_in_map => [[i j]] Hij; rewrite upper_mem in Hij; rewrite !mxE /=.
have -> : (i == j) = false by apply/eqP => E; rewrite E ltnn in Hij.
rewrite ltnNge (ltnW Hij) /= mulrN opprK mulrCA mulfV ?sqrt2_neq0 // mulr1 nth_take //.
by rewrite index_mem upper_mem.
Qed.

(** Grassmann: only the lower part. *)
Lemma gr_intr_inner eta xi : horizontal x eta -> vdot (gr_intr Q eta) (gr_intr Q xi) = inner eta xi.
Proof.
move=> He; rewrite frame_inner He inner0l add0r /gr_intr vdot_map lower_sum exchange_big -[in RHS]dotE /dot /=.
by apply: eq_bigr => j _; apply: eq_bigr => i _.
Qed.
Lemma gr_intr_size eta : size (gr_intr Q eta) = (p * k)%N.
Proof. by rewrite /gr_intr size_map lower_size. Qed.
Lemma gr_col0 (B : 'M[R]_(k, p)) : col_mx 0 B = col_mx (fix_rows r 0) B.
Proof. by rewrite fix_rowsE mulmx0. Qed.
Lemma gr_extr_horizontal v : horizontal x (gr_extr Q v).
Proof.
rewrite /horizontal /gr_extr; set B := \matrix_(j, i) _; rewrite gr_col0.
by have [-> _] := frame_join 0 B.
Qed.
Lemma gr_intr_extr eta : horizontal x eta -> gr_extr Q (gr_intr Q eta) = eta.
Proof.
move=> He; rewrite /gr_extr -[RHS]frame_split He gr_col0; congr (_ *m col_mx _ _).
apply/matrixP => j i; rewrite mxE /gr_intr -[map _ _]cats0.
by rewrite nth_map_index ?lower_mem.
Qed.
Lemma gr_extr_intr v : size v = (p * k)%N -> gr_intr Q (gr_extr Q v) = v.
Proof.
move=> Hv; rewrite /gr_intr /gr_extr; set B := \matrix_(j, i) _; rewrite gr_col0.
have [_ ->] := frame_join 0 B.
have Hs : size v = (0 + size (lower_pairs p k))%N by rewrite lower_size.
rewrite -[RHS]drop0 -(map_index (lower_uniq p k) Hs); apply: eq_map => [[i j]].
by rewrite !mxE.
Qed.
End fr.

(** Normal vectors. *)
Lemma sym_entry n (A : 'M[R]_n) i j : symmetric A -> A j i = A i j.
Proof. by move=> H; have := congr1 (fun B : 'M_n => B i j) H; rewrite !mxE. Qed.
Lemma nor_intrE x S : orthonormal x -> symmetric S -> normal_intr x (x *m S) =
  [seq S i i | i <- enum 'I_p] ++ [seq Num.sqrt 2%:R * S ij.1 ij.2 | ij <- upper_pairs p].
Proof.
move=> Hx HS; rewrite /normal_intr /gemm0 scale1r mulmxA Hx mul1mx; congr (_ ++ _).
apply: eq_map => [[i j]] /=; rewrite (sym_entry i j HS).
have Hc := sqrt2_sq; have Hn := sqrt2_neq0; move: (Num.sqrt 2%:R) Hc Hn => c Hc Hn.
by apply: (mulIf Hn); rewrite mulfVK // mulrAC Hc; rng R.
Qed.
Lemma nor_inner x eta xi : orthonormal x -> normal x eta -> normal x xi ->
  vdot (normal_intr x eta) (normal_intr x xi) = inner eta xi.
Proof.
move=> Hx [S [HS ->]] [T [HT ->]]; rewrite !nor_intrE // vdot_cat ?size_map // !vdot_map upper_sum big_enum /=.
have -> : inner (x *m S) (x *m T) = inner S T by rewrite inner_mull mulmxA Hx mul1mx.
rewrite -[in RHS]dotE /dot sum_halves; last first.
  by move=> i j; rewrite (sym_entry i j HS) (sym_entry i j HT).
congr (_ + _); rewrite -sumrMnl; apply: eq_bigr => i _; rewrite -sumrMnl; apply: eq_bigr => j _ /=.
by rewrite mulrACA sqrt2_sq; rng R.
Qed.
Lemma size_diag (f : 'I_p -> R) : size [seq f i | i <- enum 'I_p] = size (enum 'I_p).
Proof. exact: size_map. Qed.
Lemma nor_size x eta : size (normal_intr x eta) = (p * (p + 1) %/ 2)%N.
Proof.
rewrite /normal_intr size_cat size_diag size_enum_ord size_map upper_size bin2 -divn2.
case: p => [//|q] /=.
have H : (q.+1 * (q.+1 + 1) = q.+1 * 2 + q.+1 * q)%N by rewrite -mulnDr addn1 addnC addn2.
by rewrite H divnDl ?dvdn_mull // mulnK.
Qed.
Lemma nor_extr_normal x v : normal x (normal_extr x v).
Proof.
rewrite /normal_extr /gemm0 scale1r; eexists; split; last by [].
apply/matrixP => i j; rewrite !mxE eq_sym; case: (altP eqP) => [->//|Hij].
by case: (ltngtP i j) => H //; move/val_inj: H Hij => ->; rewrite eqxx.
Qed.
Lemma nor_intr_extr x eta : orthonormal x -> normal x eta -> normal_extr x (normal_intr x eta) = eta.
Proof.
move=> Hx [S [HS ->]]; rewrite nor_intrE // /normal_extr /gemm0 scale1r; congr (_ *m _).
apply/matrixP => a b; rewrite mxE.
case: (altP (a =P b)) => [->|Hab]; first by rewrite nth_map_index ?mem_enum.
have E : size (enum 'I_p) = size [seq S i i | i <- enum 'I_p] by rewrite size_map.
rewrite {1 2}E; case: (ltngtP a b) => H.
- by rewrite nth_map_index2 ?upper_mem //= mulrAC mulfV ?sqrt2_neq0 // mul1r.
- by rewrite nth_map_index2 ?upper_mem //= mulrAC mulfV ?sqrt2_neq0 // mul1r (sym_entry a b HS).
by move/val_inj: H Hab => ->; rewrite eqxx.
Qed.
Lemma nor_extr_intr x v : orthonormal x -> size v = (p * (p + 1) %/ 2)%N -> normal_intr x (normal_extr x v) = v.
Proof.
move=> Hx Hv; have [S [HS E]] := nor_extr_normal x v.
have ES : S = x^T *m normal_extr x v by rewrite E mulmxA Hx mul1mx.
rewrite E nor_intrE //; move: ES; rewrite /normal_extr /gemm0 scale1r mulmxA Hx mul1mx => ->.
have Hs : (size (enum 'I_p) + size (upper_pairs p))%N = size v.
  by rewrite Hv -(nor_size x 0) /normal_intr size_cat size_diag (size_map _ (upper_pairs p)).
rewrite -[RHS](cat_take_drop (size (enum 'I_p))); congr (_ ++ _).
  have Ht : size (take (size (enum 'I_p)) v) = (0 + size (enum 'I_p))%N by rewrite size_takel // -Hs leq_addr.
  rewrite -[RHS]drop0 -(map_index (enum_uniq 'I_p) Ht); apply: eq_map => i.
  by rewrite mxE eqxx nth_take // index_mem mem_enum.
rewrite -(map_index (upper_uniq p) (n := size (enum 'I_p))) //.
apply/eq_in_map => [[i j]] Hij; rewrite upper_mem in Hij; rewrite !mxE /= Hij.
have -> : (i == j) = false by apply/eqP => E'; rewrite E' ltnn in Hij.
by rewrite mulrCA mulfV ?sqrt2_neq0 // mulr1.
Qed.
End intr.
