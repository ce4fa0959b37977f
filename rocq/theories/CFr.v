(** Facts about complex matrices of full rank, their Gramians, frames and coordinates. *)
From mathcomp Require Import all_ssreflect all_algebra.
From mathcomp.real_closed Require Import complex.
Require Import Ring Field.
From Verif Require Import MxTac StiefelModel StiefelSpec StiefelIntr CStieSpec CStieModel CMx CStieProofs CStieRetr CStiePolar CStieIntr CFrSpec CQ2FModel.
Import Order.TTheory GRing.Theory Num.Theory.
Set Implicit Arguments.
Unset Strict Implicit.
Local Open Scope ring_scope.
Local Open Scope complex_scope.

Section gramian.
Variable R : rcfType.
Local Notation C := R[i].
Add Field cfr_field : (rcf_field R).
Add Ring cfr_ring : (kring R).
Variables p k : nat.
Local Notation ext := 'M[C]_(p + k, p).
Lemma cposdef_gram (x : ext) : cfull_rank x -> cposdef (adj x *m x).
Proof.
move=> H; split=> [|v Hv]; first by rewrite /hermitian adjM adjK.
rewrite quadE -mulmxA -[x in adj x]adjK -cinner_mull !adjK lt_def cinner_ge0 andbT.
by apply/eqP => /cinner_eq0 /H E; rewrite E eqxx in Hv.
Qed.
Section at_point.
Variable x : ext.
Hypothesis Hx : cfull_rank x.
Local Notation W := (adj x *m x).
Local Notation Ci := (invmx (adj x *m x)).
Lemma C_sym : adj W = W.
Proof. by rewrite adjM adjK. Qed.
Lemma C_unit : W \in unitmx.
Proof. exact: cposdef_unit (cposdef_gram Hx). Qed.
Lemma CCi : W *m Ci = 1%:M.
Proof. exact: mulmxV C_unit. Qed.
Lemma CiC : Ci *m W = 1%:M.
Proof. exact: mulVmx C_unit. Qed.
Lemma Ci_sym : adj Ci = Ci.
Proof. by have [_ <-] := adj_unit C_unit; rewrite C_sym. Qed.
Lemma xxCi m (A : 'M[C]_(m, p)) : A *m adj x *m x *m Ci = A.
Proof. by rewrite -!mulmxA [adj x *m (x *m _)]mulmxA CCi mulmx1. Qed.
Lemma Cixx m (A : 'M[C]_(m, p)) : A *m Ci *m adj x *m x = A.
Proof. by rewrite -!mulmxA CiC mulmx1. Qed.
Lemma xxCi0 : adj x *m x *m Ci = 1%:M.
Proof. exact: CCi. Qed.
Lemma Cixx0 : Ci *m adj x *m x = 1%:M.
Proof. by rewrite -mulmxA CiC. Qed.
Local Notation P := (x *m Ci *m adj x).
Lemma P_sym : adj P = P.
Proof. by rewrite !adjM adjK Ci_sym mulmxA. Qed.
Lemma PP : P *m P = P.
Proof. by rewrite !mulmxA Cixx. Qed.
Lemma Px : P *m x = x.
Proof. by rewrite -!mulmxA CiC mulmx1. Qed.
End at_point.
End gramian.

Section chol.
Variable R : rcfType.
Local Notation C := R[i].
Variable r : nat.
Lemma cchol_unit (x L : 'M[C]_r) : is_cchol x L -> L \in unitmx.
Proof.
case=> _ Hl Hd; rewrite unitmxE det_trig ?unitfE; last by apply/is_trig_mxP.
apply/prodf_neq0 => i _; have [_ H] := Hd i; by apply/eqP => E; move: H; rewrite E ltxx.
Qed.
Lemma cchol_solveE (A L : 'M[C]_r) q (B : 'M[C]_(r, q)) : is_cchol A L -> cchol_solve L B = invmx A *m B.
Proof.
move=> H; have HL := cchol_unit H; have [HLT _] := adj_unit HL.
have HC : L *m adj L \in unitmx by rewrite unitmx_mul HL.
have E : (L *m adj L) *m cchol_solve L B = B by rewrite /cchol_solve -mulmxA mulKVmx // mulKVmx.
by rewrite (cchol_product H) -{2}E mulKmx.
Qed.
End chol.

Section packing.
Variable R : rcfType.
Local Notation C := R[i].
Local Notation re := (@complex.Re R).
Local Notation im := (@complex.Im R).
Variables p k : nat.
Implicit Types (B : 'M[C]_(k, p)) (v w : seq R).
Definition low B := twos (fun ij : 'I_p * 'I_k => re (B ij.2 ij.1)) (fun ij : 'I_p * 'I_k => im (B ij.2 ij.1)) (lower_pairs p k).
Definition unlow n v : 'M[C]_(k, p) := \matrix_(j, i)
  (nth 0 v (n + (index (i, j) (lower_pairs p k)).*2) +i* nth 0 v (n + (index (i, j) (lower_pairs p k)).*2.+1)).
Lemma low_size B : size (low B) = (p * k).*2.
Proof. by rewrite twos_size lower_size. Qed.
Lemma low_inner B B' : vdot (low B) (low B') = cinner B B'.
Proof.
rewrite /low twos_vdot lower_sum exchange_big -[in RHS]cdotE /cdot /=.
by apply: eq_bigr => j _; apply: eq_bigr => i _.
Qed.
Lemma unlow_low v B n w : n = size v -> unlow n (v ++ low B ++ w) = B.
Proof.
move=> ->; apply/matrixP => j i; rewrite mxE !nth_off //.
have [E1 E2] := @twos_nth _ _ (fun ij : 'I_p * 'I_k => re (B ij.2 ij.1)) (fun ij : 'I_p * 'I_k => im (B ij.2 ij.1)) (lower_pairs p k) (i, j) w (lower_mem i j).
by rewrite /low E1 E2 /=; case: (B j i).
Qed.
Lemma low_unlow n v : size v = (n + (p * k).*2)%N -> low (unlow n v) = drop n v.
Proof.
move=> Hv; have Hs : size (drop n v) = (size (lower_pairs p k)).*2 by rewrite size_drop Hv addKn lower_size.
rewrite -[RHS](twos_index (lower_uniq p k) Hs).
by apply: twos_ext; move=> -[i j] _; rewrite mxE /= nth_drop.
Qed.
Lemma unlow_cat n v w : (n + (p * k).*2 <= size v)%N -> unlow n (v ++ w) = unlow n v.
Proof.
move=> Hs; apply/matrixP => j i; rewrite !mxE !nth_cat.
have Hi : (index (i, j) (lower_pairs p k) < p * k)%N by rewrite -lower_size index_mem; exact: lower_mem.
have H1 : (n + (index (i, j) (lower_pairs p k)).*2.+1 < size v)%N.
  by apply: leq_trans Hs; rewrite ltn_add2l -doubleS -addn1 addn1 (leq_trans (_ : _ < (index (i, j) (lower_pairs p k)).+1.*2)%N) // leq_double.
by rewrite H1 (ltn_trans _ H1) // ltn_add2l.
Qed.
End packing.

Section frame.
Variable R : rcfType.
Local Notation C := R[i].
Local Notation re := (@complex.Re R).
Local Notation im := (@complex.Im R).
Variables p k : nat.
Local Notation ext := 'M[C]_(p + k, p).
Implicit Types eta xi : ext.
Variables (x : ext) (Q : 'M[C]_(p + k)) (r : 'M[C]_p).
Hypotheses (Hx : cfull_rank x) (Hr : is_chhr x Q r).
Local Notation W := (adj x *m x).
Local Notation Ci := (invmx (adj x *m x)).
Local Notation L := (lower_factor r).
Let X0 : ext := cfix_columns r (lsubmx Q).
Let HF : cframe X0 Q r := chhr_frame_qf Hr.

Lemma LE : L = adj r *m diag_mx (csgn_row r).
Proof.
have Hu := chhr_upper Hr; apply/matrixP => j i; rewrite mul_mx_diag !mxE.
case: ltnP => H; first by rewrite Hu // conjc0 mul0r.
rewrite ltNge; case: (0 <= _); apply: ceq; rewrite ?mulrN1 ?mulr1 /= ?reN ?imN ?reJ ?imJ ?mulr1 ?mulrN1 //.
Qed.
Lemma X0_unitary : unitary X0.
Proof. exact: cframe_unitary HF. Qed.
Lemma xE : x = X0 *m adj L.
Proof.
rewrite LE adjM adjK csgn_adj /X0 cfix_columnsE -mulmxA [diag_mx _ *m (_ *m r)]mulmxA csgn_sq mul1mx.
exact: cqr_product (chhr_qr Hr).
Qed.
Lemma CE : W = L *m adj L.
Proof. by rewrite {1 2}xE adjM adjK mulmxA -[L *m _ *m X0]mulmxA X0_unitary mulmx1. Qed.
Lemma L_unit : L \in unitmx.
Proof. by have := C_unit Hx; rewrite CE unitmx_mul => /andP []. Qed.
Lemma LT_unit : adj L \in unitmx.
Proof. by have [] := adj_unit L_unit. Qed.
Definition top eta := adj X0 *m eta.
Definition bot eta := dsubmx (adj Q *m eta).
Lemma topE eta : adj x *m eta = L *m top eta.
Proof. by rewrite /top {1}xE adjM adjK mulmxA. Qed.
Lemma bot_mul eta (M : 'M[C]_p) : bot (eta *m M) = bot eta *m M.
Proof. by rewrite /bot mulmxA -{1}(vsubmxK (adj Q *m eta)) mul_col_mx col_mxKd. Qed.
Lemma top_mul eta (M : 'M[C]_p) : top (eta *m M) = top eta *m M.
Proof. by rewrite /top mulmxA. Qed.
Lemma tb_inner eta xi : cinner eta xi = cinner (top eta) (top xi) + cinner (bot eta) (bot xi).
Proof. exact: (cframe_inner HF). Qed.
Lemma tb_split eta xi : top eta = top xi -> bot eta = bot xi -> eta = xi.
Proof. by move=> Ht Hb; rewrite -(cframe_split HF eta) -(cframe_split HF xi) -/(top _) -/(bot _) Ht Hb. Qed.
Lemma rotE eta : rot Q r eta = col_mx (top eta) (bot eta).
Proof. by rewrite /rot (cframe_top HF). Qed.
Lemma join_top (T : 'M[C]_p) (B : 'M[C]_(k, p)) : top (Q *m col_mx (cfix_rows r T) B) = T.
Proof. by have [] := cframe_join HF T B. Qed.
Lemma join_bot (T : 'M[C]_p) (B : 'M[C]_(k, p)) : bot (Q *m col_mx (cfix_rows r T) B) = B.
Proof. by have [] := cframe_join HF T B. Qed.
End frame.
