(** Proofs about the coordinates of SymFixedRankQ. *)
From mathcomp Require Import all_ssreflect all_algebra.
Require Import Ring Field.
From Verif Require Import MxTac StiefelModel StiefelSpec StiefelProofs StiefelPolar StiefelRetr StiefelIntr SPDModel SPDSpec SPDProofs SPDIntr.
From Verif Require Import SymFRModel SymFRSpec SymFRProofs.
Import Order.TTheory GRing.Theory Num.Theory.
Set Implicit Arguments.
Unset Strict Implicit.
Local Open Scope ring_scope.

Section packing.
Variable R : rcfType.
Add Field sfri_field0 : (rcf_field R).
Variables p k : nat.
Implicit Types (T : 'M[R]_p) (B : 'M[R]_(k, p)) (v w : seq R).
Local Notation m := (p * (p + 1) %/ 2)%N.
Lemma m_size : m = (size (enum 'I_p) + size (upper_pairs p))%N.
Proof. by rewrite -(pack_size (0 : 'M[R]_p)) /pack size_cat size_diag (size_map _ (upper_pairs p)). Qed.
Lemma dimE : intr_dim p k = (m + p * k)%N.
Proof.
rewrite /intr_dim mulnDl subn1 [(k * p)%N]mulnC.
have E : (p * p = m + p * p.-1 %/ 2)%N.
  case: p => [//|q] /=.
  have H : (q.+1 * (q.+1 + 1) = q.+1 * q + q.+1 * 2)%N by rewrite -mulnDr addn1 addn2.
  rewrite H divnDr ?dvdn_mull // mulnK // addnAC.
  have H2 : (q.+1 * q %/ 2 + q.+1 * q %/ 2 = q.+1 * q)%N.
    have : ~~ odd (q.+1 * q) by rewrite oddM /= andbC andbN.
    by rewrite divn2 -[in X in _ -> _ = X](odd_double_half (q.+1 * q)) => /negbTE ->; rewrite add0n addnn.
  by rewrite H2 mulnS addnC.
by rewrite {1}E addnAC addnK.
Qed.

Definition low B := [seq B ij.2 ij.1 | ij <- lower_pairs p k].
Definition unlow n v : 'M[R]_(k, p) := \matrix_(j, i) nth 0 v (n + index (i, j) (lower_pairs p k)).
Lemma low_size B : size (low B) = (p * k)%N.
Proof. by rewrite size_map lower_size. Qed.
Lemma low_inner B B' : vdot (low B) (low B') = inner B B'.
Proof.
rewrite /low vdot_map lower_sum exchange_big -[in RHS]dotE /dot /=.
by apply: eq_bigr => j _; apply: eq_bigr => i _.
Qed.
Lemma unlow_low v B n : n = size v -> unlow n (v ++ low B) = B.
Proof. by move=> ->; apply/matrixP => j i; rewrite mxE nth_map_index2 ?lower_mem. Qed.
Lemma low_unlow n v : size v = (n + p * k)%N -> low (unlow n v) = drop n v.
Proof.
move=> Hv; rewrite -(map_index (lower_uniq p k) (n := n)) ?lower_size //.
by apply: eq_map => [[i j]]; rewrite mxE.
Qed.
Lemma pk_inner T T' B B' : symmetric T -> symmetric T' ->
  vdot (pack T ++ low B) (pack T' ++ low B') = inner T T' + inner B B'.
Proof. by move=> HT HT'; rewrite vdot_cat ?pack_size // pack_inner // low_inner. Qed.
Lemma unpack_cat v w : size v = m -> unpack p (v ++ w) = unpack p v.
Proof.
move=> Hv; have Hs := m_size; apply/matrixP => a b; rewrite !mxE.
have H i : nth 0 (v ++ w) (index i (enum 'I_p)) = nth 0 v (index i (enum 'I_p)).
  by rewrite nth_cat Hv Hs ltn_addr // index_mem mem_enum.
have H2 e : e \in upper_pairs p ->
    nth 0 (v ++ w) (size (enum 'I_p) + index e (upper_pairs p)) = nth 0 v (size (enum 'I_p) + index e (upper_pairs p)).
  by move=> He; rewrite nth_cat Hv Hs ltn_add2l index_mem He.
case: (altP (a =P b)) => [_|Hab]; first by rewrite H.
case: (ltngtP b a) => E; rewrite ?H2 ?upper_mem //.
by move/val_inj: E Hab => ->; rewrite eqxx.
Qed.
Lemma pk_un v : size v = intr_dim p k -> pack (unpack p v) ++ low (unlow m v) = v.
Proof.
rewrite dimE => Hv; rewrite -[RHS](cat_take_drop m) -low_unlow //; congr (_ ++ _).
have Hm : size (take m v) = m by rewrite size_takel // Hv leq_addr.
by rewrite -{1}(cat_take_drop m v) unpack_cat // pack_unpack.
Qed.
Lemma un_pk T B : symmetric T -> unpack p (pack T ++ low B) = T.
Proof. by move=> H; rewrite unpack_cat ?pack_size // unpack_pack. Qed.
End packing.

Section frame.
Variable R : rcfType.
Add Field sfri_field : (rcf_field R).
Variables p k : nat.
Local Notation ext := 'M[R]_(p + k, p).
Local Notation m := (p * (p + 1) %/ 2)%N.
Implicit Types eta xi : ext.
Variables (x : ext) (Q : 'M[R]_(p + k)) (r : 'M[R]_p).
Hypotheses (Hx : full_rank x) (Hr : is_hhr x Q r).
Local Notation C := (x^T *m x).
Local Notation Ci := (invmx (x^T *m x)).
Local Notation L := (lower_factor r).
Let X0 : ext := fix_columns r (lsubmx Q).
Let HF : frame X0 Q r := hhr_frame_qf Hr.

Lemma LE : L = r^T *m diag_mx (sgn_row r).
Proof.
have Hu := hhr_upper Hr; apply/matrixP => j i; rewrite mul_mx_diag !mxE.
by case: ltnP => H; [rewrite Hu // mul0r | case: ifP; rewrite ?mulr1].
Qed.
Lemma X0_orth : orthonormal X0.
Proof. exact: frame_orth HF. Qed.
Lemma xE : x = X0 *m L^T.
Proof.
rewrite LE trM trmxK tr_diag_mx /X0 fix_columnsE -mulmxA [diag_mx _ *m (_ *m r)]mulmxA sgn_sq mul1mx.
exact: qr_product (hhr_qr Hr).
Qed.
Lemma CE : C = L *m L^T.
Proof. by rewrite {1 2}xE trM trmxK mulmxA -[L *m _ *m X0]mulmxA X0_orth mulmx1. Qed.
Lemma L_unit : L \in unitmx.
Proof. by have := C_unit Hx; rewrite CE unitmx_mul => /andP []. Qed.
Lemma LT_unit : L^T \in unitmx.
Proof. by rewrite unitmx_tr L_unit. Qed.
Definition top eta := X0^T *m eta.
Definition bot eta := dsubmx (Q^T *m eta).
Lemma topE eta : x^T *m eta = L *m top eta.
Proof. by rewrite /top {1}xE trM trmxK mulmxA. Qed.
Lemma bot_mul eta (M : 'M[R]_p) : bot (eta *m M) = bot eta *m M.
Proof. by rewrite /bot mulmxA -{1}(vsubmxK (Q^T *m eta)) mul_col_mx col_mxKd. Qed.
Lemma top_mul eta (M : 'M[R]_p) : top (eta *m M) = top eta *m M.
Proof. by rewrite /top mulmxA. Qed.
Lemma tb_inner eta xi : inner eta xi = inner (top eta) (top xi) + inner (bot eta) (bot xi).
Proof. exact: (frame_inner HF). Qed.
Lemma tb_split eta xi : top eta = top xi -> bot eta = bot xi -> eta = xi.
Proof. by move=> Ht Hb; rewrite -(frame_split HF eta) -(frame_split HF xi) -/(top _) -/(bot _) Ht Hb. Qed.
Lemma rotE eta : intr_rot Q r eta = col_mx (top eta) (bot eta).
Proof. by rewrite /intr_rot (frame_top HF). Qed.
Lemma join_top (T : 'M[R]_p) (B : 'M[R]_(k, p)) : top (Q *m col_mx (fix_rows r T) B) = T.
Proof. by have [] := frame_join HF T B. Qed.
Lemma join_bot (T : 'M[R]_p) (B : 'M[R]_(k, p)) : bot (Q *m col_mx (fix_rows r T) B) = B.
Proof. by have [] := frame_join HF T B. Qed.
Lemma fix_rows_mul q (T : 'M[R]_(p, q)) s (M : 'M[R]_(q, s)) : fix_rows r T *m M = fix_rows r (T *m M).
Proof. by rewrite !fix_rowsE mulmxA. Qed.
Lemma extr_rotE (T : 'M[R]_p) (B : 'M[R]_(k, p)) :
  top (extr_rot Q r (col_mx T B)) = T *m invmx L /\ bot (extr_rot Q r (col_mx T B)) = B *m invmx L.
Proof.
by rewrite /extr_rot col_mxKu col_mxKd mul_col_mx fix_rows_mul join_top join_bot.
Qed.

(** Horizontal vectors in these terms. *)
Lemma hor_tL s eta : s <> SF_QEUC -> horizontal s x eta <-> symmetric (top eta *m L).
Proof.
move=> Hs; have E : Ci *m x^T *m eta = invmx L^T *m top eta.
  rewrite -mulmxA [x^T *m eta]topE; have HC := CE; have HL := L_unit; have HLT := LT_unit.
  have : C *m (invmx L^T *m top eta) = L *m top eta by rewrite HC -mulmxA mulKVmx.
  by move/(congr1 (fun A => Ci *m A)) => <-; rewrite [Ci *m (C *m _)]mulmxA CiC // mul1mx.
have -> : horizontal s x eta <-> symmetric (Ci *m x^T *m eta) by case: s Hs => // _; rewrite horP.
rewrite E /symmetric; have HL := L_unit; have HLT := LT_unit.
have Et : (invmx L^T *m top eta)^T = (top eta)^T *m invmx L by rewrite trM trmx_inv [L^T^T]trmxK.
rewrite Et [(top eta *m L)^T]trM; split=> H.
  by have := congr1 (fun A => L^T *m A *m L) H; rewrite mulmxA mulmxKV // mulKVmx.
have := congr1 (fun A => invmx L^T *m A *m invmx L) H.
by rewrite mulKmx // -[invmx _ *m (_ *m L) *m _]mulmxA mulmxK.
Qed.
Lemma hor_Lt eta : horizontal SF_QEUC x eta <-> symmetric (L *m top eta).
Proof. by rewrite horP // topE. Qed.
Lemma g_hgz_tb eta xi : g_of SF_HGZ x eta xi = inner (top eta *m L) (top xi *m L) + inner (bot eta *m L) (bot xi *m L).
Proof.
rewrite g_hgzE CE mulmxA inner_mulr trmxK.
by rewrite tb_inner !top_mul !bot_mul.
Qed.
Lemma g_euc_tb eta xi : horizontal SF_EUC x eta -> g_of SF_EUC x eta xi =
  2%:R * (2%:R * inner (top eta *m L) (top xi *m L)) + 2%:R * inner (bot eta *m L) (bot xi *m L).
Proof.
move=> /hor_tL H; have {}H : symmetric (top eta *m L) by apply: H.
have -> : g_of SF_EUC x eta xi = 2%:R * (\tr (x^T *m eta *m x^T *m xi) + g_of SF_HGZ x eta xi).
  by rewrite /g_of mxtraceD.
rewrite g_hgz_tb.
have -> : \tr (x^T *m eta *m x^T *m xi) = inner (top eta *m L) (top xi *m L).
  rewrite -[x^T *m eta *m x^T *m xi]mulmxA [x^T *m eta]topE [x^T *m xi]topE -mulmxA mxtrace_mulC /inner H !mulmxA; congr (\tr _).
move: (inner _ _) (inner _ _) => a b; rng R.
Qed.

(** HGZ and EUC. *)
Lemma intr_hgzE eta : intr_hgz Q r eta = pack (top eta *m L) ++ low (bot eta *m L).
Proof.
rewrite /intr_hgz rotE mul_col_mx col_mxKu col_mxKd /pack -catA; congr (_ ++ (_ ++ _)).
by apply: eq_map => ij; rewrite mulrC.
Qed.
Lemma intr_eucE eta : intr_euc Q r eta = pack (2%:R *: (top eta *m L)) ++ low (Num.sqrt 2%:R *: (bot eta *m L)).
Proof.
rewrite /intr_euc rotE mul_col_mx col_mxKu col_mxKd /pack -catA; congr (_ ++ (_ ++ _)).
- by apply: eq_map => i; rewrite [in RHS]mxE.
- by apply: eq_map => ij; rewrite [in RHS]mxE mulrAC.
by apply: eq_map => ij; rewrite [in RHS]mxE.
Qed.
Lemma extr_hgzE v : top (extr_hgz Q r v) = unpack p v *m invmx L /\ bot (extr_hgz Q r v) = unlow p k m v *m invmx L.
Proof.
rewrite /extr_hgz; set T := \matrix_(a, b) _; set B := \matrix_(j, i) _.
have [-> ->] := extr_rotE T B; split; congr (_ *m _).
by apply/matrixP => j i; rewrite !mxE (m_size R) addnA.
Qed.
Lemma extr_eucE v : top (extr_euc Q r v) = (2%:R^-1 *: unpack p v) *m invmx L /\
  bot (extr_euc Q r v) = ((Num.sqrt 2%:R)^-1 *: unlow p k m v) *m invmx L.
Proof.
rewrite /extr_euc; set T := \matrix_(a, b) _; set B := \matrix_(j, i) _.
have [-> ->] := extr_rotE T B; split; congr (_ *m _); apply/matrixP => a b; rewrite !mxE.
  by case: ifP => _; [|case: ifP => _]; rewrite [RHS]mulrC.
by rewrite (m_size R) addnA mulrC.
Qed.
Lemma symZ c (A : 'M[R]_p) : symmetric A -> symmetric (c *: A).
Proof. by rewrite /symmetric trZ => ->. Qed.
Lemma hgz_inner eta xi : horizontal SF_HGZ x eta -> horizontal SF_HGZ x xi ->
  vdot (intr_hgz Q r eta) (intr_hgz Q r xi) = g_of SF_HGZ x eta xi.
Proof.
move=> /hor_tL He /hor_tL Hxi; rewrite !intr_hgzE pk_inner; [|exact: He|exact: Hxi].
by rewrite g_hgz_tb.
Qed.
Lemma euc_inner eta xi : horizontal SF_EUC x eta -> horizontal SF_EUC x xi ->
  vdot (intr_euc Q r eta) (intr_euc Q r xi) = g_of SF_EUC x eta xi.
Proof.
move=> He /hor_tL Hxi; rewrite (g_euc_tb xi He); move: He => /hor_tL He.
rewrite !intr_eucE pk_inner; [|by apply: symZ; exact: He|by apply: symZ; exact: Hxi].
rewrite !innerZl !innerZr; congr (_ + _).
by rewrite mulrA sqrt2_sq.
Qed.
Lemma hgz_size eta : size (intr_hgz Q r eta) = intr_dim p k.
Proof. by rewrite intr_hgzE size_cat pack_size low_size dimE. Qed.
Lemma euc_size eta : size (intr_euc Q r eta) = intr_dim p k.
Proof. by rewrite intr_eucE size_cat pack_size low_size dimE. Qed.
Lemma hgz_back eta : horizontal SF_HGZ x eta -> extr_hgz Q r (intr_hgz Q r eta) = eta.
Proof.
move=> /hor_tL H; have HL := L_unit; have [Et Eb] := extr_hgzE (intr_hgz Q r eta); apply: tb_split.
  by rewrite Et intr_hgzE un_pk ?mulmxK //; exact: H.
by rewrite Eb intr_hgzE unlow_low ?pack_size // mulmxK.
Qed.
Lemma euc_back eta : horizontal SF_EUC x eta -> extr_euc Q r (intr_euc Q r eta) = eta.
Proof.
move=> /hor_tL H; have HL := L_unit; have [Et Eb] := extr_eucE (intr_euc Q r eta); apply: tb_split.
  rewrite Et intr_eucE un_pk ?scalerA; last by apply: symZ; exact: H.
  by rewrite mulVf ?pnatr_eq0 // scale1r mulmxK.
by rewrite Eb intr_eucE unlow_low ?pack_size // scalerA mulVf ?sqrt2_neq0 // scale1r mulmxK.
Qed.
Lemma hgz_forth v : size v = intr_dim p k -> intr_hgz Q r (extr_hgz Q r v) = v.
Proof.
move=> Hv; have HL := L_unit; have [Et Eb] := extr_hgzE v.
by rewrite intr_hgzE Et Eb !mulmxKV // pk_un.
Qed.
Lemma euc_forth v : size v = intr_dim p k -> intr_euc Q r (extr_euc Q r v) = v.
Proof.
move=> Hv; have HL := L_unit; have [Et Eb] := extr_eucE v.
rewrite intr_eucE Et Eb !mulmxKV // !scalerA mulfV ?pnatr_eq0 // mulfV ?sqrt2_neq0 // !scale1r.
by rewrite pk_un.
Qed.
Lemma hgz_extr_hor v : horizontal SF_HGZ x (extr_hgz Q r v).
Proof.
apply/hor_tL => //; have [-> _] := extr_hgzE v; rewrite mulmxKV ?L_unit //; exact: unpack_sym.
Qed.
Lemma euc_extr_hor v : horizontal SF_EUC x (extr_euc Q r v).
Proof.
apply/hor_tL => //; have [-> _] := extr_eucE v; rewrite mulmxKV ?L_unit //; apply: symZ; exact: unpack_sym.
Qed.
End frame.

Section weak.
Variable p : nat.
Lemma weak_mem (i j : 'I_p) : ((i, j) \in weak_pairs p) = (i <= j)%N.
Proof.
apply/idP/idP => [/flattenP [s /mapP [i' _ ->] /mapP [j' Hj [-> ->]]]|H].
  by move: Hj; rewrite mem_filter => /andP [].
apply/flattenP; exists [seq (i, j) | j <- filter (fun j : 'I_p => (i <= j)%N) (enum 'I_p)].
  by apply/mapP; exists i => //; rewrite mem_enum.
by apply/mapP; exists j => //; rewrite mem_filter H mem_enum.
Qed.
Lemma weak_uniq : uniq (weak_pairs p).
Proof. by apply: pairs_uniq => [|i]; [exact: enum_uniq | apply: filter_uniq; exact: enum_uniq]. Qed.
Lemma weak_size : size (weak_pairs p) = (size (enum 'I_p) + size (upper_pairs p))%N.
Proof.
have -> : (size (enum 'I_p) + size (upper_pairs p))%N = size ([seq (i, i) | i <- enum 'I_p] ++ upper_pairs p).
  by rewrite size_cat size_map.
apply: perm_size; apply: uniq_perm; first exact: weak_uniq.
  rewrite cat_uniq upper_uniq andbT map_inj_uniq ?enum_uniq /=; last by move=> a b [].
  apply/hasPn => [[i j]]; rewrite upper_mem => H; apply/mapP => [[a _ [E1 E2]]].
  by rewrite E1 E2 ltnn in H.
move=> [i j]; rewrite weak_mem mem_cat upper_mem leq_eqVlt; congr (_ || _).
apply/idP/idP => [/eqP /val_inj ->|/mapP [a _ [-> ->]] //].
by apply/mapP; exists j; rewrite ?mem_enum.
Qed.
Lemma pair_at_mem c : pair_at c \in weak_pairs p.
Proof. exact: mem_tnth. Qed.
Lemma pair_atP (i j : 'I_p) : (i <= j)%N -> exists c, pair_at c = (i, j).
Proof.
by rewrite -weak_mem => H; have /tnthP [c Hc] : (i, j) \in in_tuple (weak_pairs p) by []; exists c.
Qed.
Lemma pair_at_inj : injective (@pair_at p).
Proof.
move=> c d; have /tuple_uniqP H : uniq (in_tuple (weak_pairs p)) by exact: weak_uniq.
exact: H.
Qed.
Lemma pair_at_nth c e : pair_at c = e -> index e (weak_pairs p) = c.
Proof. by move=> <-; rewrite /pair_at (tnth_nth (pair_at c)) /= index_uniq // weak_uniq. Qed.
End weak.

Section coefs.
Variables (R : rcfType) (p : nat).
Implicit Types (M : 'M[R]_p) (w : 'cV[R]_(size (weak_pairs p))).
Definition coefs M : 'cV[R]_(size (weak_pairs p)) := \col_c M (pair_at c).2 (pair_at c).1.
Definition at_pair w e := nth 0 [seq w c 0 | c <- enum 'I_(size (weak_pairs p))] (index e (weak_pairs p)).
Definition unweak w : 'M[R]_p := \matrix_(a, b) (if (b <= a)%N then at_pair w (b, a) else at_pair w (a, b)).
Lemma at_pairE w c : at_pair w (pair_at c) = w c 0.
Proof. by rewrite /at_pair (pair_at_nth (erefl (pair_at c))) (nth_map c) ?size_enum_ord // nth_ord_enum. Qed.
Lemma unweak_sym w : symmetric (unweak w).
Proof.
apply/matrixP => i j; rewrite !mxE; case: (ltngtP i j) => // /val_inj -> //.
Qed.
Lemma coefs_unweak w : coefs (unweak w) = w.
Proof.
apply/matrixP => c z; rewrite ord1 !mxE; have := pair_at_mem c; have := at_pairE w c.
by case: (pair_at c) => i j /= E; rewrite weak_mem => ->.
Qed.
Lemma unweak_coefs M : symmetric M -> unweak (coefs M) = M.
Proof.
move=> HM; apply/matrixP => a b; rewrite mxE; case: leqP => H.
  by have [c Hc] := pair_atP H; rewrite -Hc at_pairE mxE Hc.
by have [c Hc] := pair_atP (ltnW H); rewrite -Hc at_pairE mxE Hc (sym_entry a b HM).
Qed.
Lemma expand M : symmetric M -> M = \sum_c coefs M c 0 *: basis R c.
Proof.
move=> HM; apply/matrixP => a b; rewrite summxE.
have [c0 Hc0] : exists c0 : 'I_(size (weak_pairs p)), pair_at c0 = (if (b <= a)%N then (b, a) else (a, b)).
  by case: leqP => H; apply: pair_atP => //; exact: ltnW.
rewrite (bigD1 c0) //= big1 => [|c Hc].
  rewrite addr0 !mxE Hc0; case: (leqP b a) => H /=; rewrite !eqxx ?orbT mulr1 //.
  by rewrite (sym_entry a b HM).
rewrite !mxE; case H: (_ || _); last by rewrite mulr0.
have := pair_at_mem c; move: Hc0 Hc H; case Ec: (pair_at c) => [i j]; rewrite weak_mem /= => Hc0 Hc H Hij.
suff : c = c0 by move/eqP; rewrite (negbTE Hc).
apply: pair_at_inj; rewrite Ec Hc0; move: H => /orP [] /andP [/eqP Ea /eqP Eb].
  by rewrite Ea Eb Hij.
case: (leqP b a) => H; last by rewrite Ea Eb.
have E : i = j by apply: val_inj; apply/eqP; rewrite eqn_leq Hij /= -Ea -Eb.
by rewrite Ea Eb E.
Qed.
Lemma inner_vec (A B : 'M[R]_p) : inner A B = \sum_a mxvec A^T 0 a * mxvec B^T 0 a.
Proof.
rewrite -inner_tr -dotE /dot pair_big /= (reindex (uncurry (@mxvec_index p p))) /=; last exact: curry_mxvec_bij.
by apply: eq_bigr => [[i j]] _; rewrite /= !mxvecE.
Qed.
End coefs.

Section qeuc.
Variable R : rcfType.
Add Field sfri_field2 : (rcf_field R).
Variables p k : nat.
Local Notation ext := 'M[R]_(p + k, p).
Local Notation d := (size (weak_pairs p)).
Implicit Types eta xi : ext.
Variables (x : ext) (Q : 'M[R]_(p + k)) (r : 'M[R]_p).
Hypotheses (Hx : full_rank x) (Hr : is_hhr x Q r).
Local Notation L := (lower_factor r).
Variable QRB : 'M[R]_(p * p, size (weak_pairs p)) -> 'M[R]_(p * p, size (weak_pairs p)) * 'M[R]_(size (weak_pairs p)).
Hypothesis HB : qr_at QRB (basis_columns L).
Local Notation rB := (QRB (basis_columns L)).2.
Local Notation BL := (lower_of (QRB (basis_columns L)).2).

Lemma columns_mul M : symmetric M -> basis_columns L *m coefs M = (mxvec (invmx L *m M)^T)^T.
Proof.
move=> HM; apply/matrixP => a z; rewrite ord1 mxE [RHS]mxE {2}(expand HM).
rewrite mulmx_sumr !linear_sum summxE; apply: eq_bigr => c _.
by rewrite -scalemxAr !linearZ /= !mxE mulrC.
Qed.
Lemma BLE : BL^T = diag_mx (sgn_row rB) *m rB.
Proof.
have [_ _ Hu] := HB; apply/matrixP => i j; rewrite mul_diag_mx !mxE.
case: ltnP => H; first by rewrite (Hu i j H) mulr0.
by rewrite mulrC ltNge; case: (0 <= _).
Qed.
Lemma coef_inner M M' : symmetric M -> symmetric M' ->
  inner (BL^T *m coefs M) (BL^T *m coefs M') = inner (invmx L *m M) (invmx L *m M').
Proof.
move=> HM HM'; have [Eq Ho Hu] := HB.
have E : (BL^T)^T *m BL^T = (basis_columns L)^T *m basis_columns L.
  rewrite BLE; move: (QRB _) Eq Ho Hu => [q0 r0] /= -> Ho Hu.
  rewrite !trM tr_diag_mx -[r0^T *m _ *m _]mulmxA [diag_mx _ *m (_ *m _)]mulmxA sgn_sq mul1mx.
  by rewrite -[_ *m (q0 *m _)]mulmxA [q0^T *m _]mulmxA Ho mul1mx.
rewrite inner_mull mulmxA E -mulmxA -inner_mull columns_mul // columns_mul // inner_vec.
rewrite -dotE /dot; apply: eq_bigr => a _; rewrite big_ord1 !mxE.
by rewrite [X in X * _]/= .
Qed.
Lemma BLT_unit : BL^T \in unitmx.
Proof.
apply: unit_cols => u Hu.
have HS := unweak_sym u; have := coef_inner HS HS; rewrite coefs_unweak Hu inner0l => /esym /inner_eq0 E.
have E0 : unweak u = 0.
  by have := congr1 (fun A => L *m A) E; rewrite mulKVmx ?mulmx0 //; exact: (L_unit Hx Hr).
rewrite -(coefs_unweak u) E0; apply/matrixP => i j; by rewrite !mxE.
Qed.
Local Notation top := (top Q r).
Local Notation bot := (bot Q).
Lemma intr_qeucE eta : intr_qeuc QRB Q r eta =
  ([seq (BL^T *m coefs (L *m top eta)) c 0 | c <- enum 'I_d] ++ low (bot eta), BL).
Proof. by rewrite /intr_qeuc (rotE Hr) col_mxKu col_mxKd. Qed.
Lemma extr_qeucE B v eta : extr_qeuc (Some B) Q r v = Some eta ->
  top eta = invmx L *m unweak (invmx B^T *m \col_(c < d) nth 0 v c) /\ bot eta = unlow p k d v.
Proof.
case=> <-; split; first by rewrite (join_top Hr).
by rewrite (join_bot Hr).
Qed.
Lemma d_size : d = (p * (p + 1) %/ 2)%N.
Proof. by rewrite weak_size (m_size R). Qed.
Lemma qeuc_size eta : size (intr_qeuc QRB Q r eta).1 = intr_dim p k.
Proof. by rewrite intr_qeucE /= size_cat size_map size_enum_ord low_size dimE d_size. Qed.
Lemma qeuc_inner eta xi : horizontal SF_QEUC x eta -> horizontal SF_QEUC x xi ->
  vdot (intr_qeuc QRB Q r eta).1 (intr_qeuc QRB Q r xi).1 = g_of SF_QEUC x eta xi.
Proof.
move=> /(hor_Lt Hx Hr) He /(hor_Lt Hx Hr) Hxi; rewrite !intr_qeucE /= vdot_cat ?size_map // low_inner vdot_map big_enum /=.
rewrite /g_of trE (tb_inner Hr); congr (_ + _).
have := coef_inner He Hxi; rewrite !mulKmx ?(L_unit Hx Hr) // => <-.
by rewrite -dotE /dot; apply: eq_bigr => c _; rewrite big_ord1.
Qed.
Lemma nth_coords (f : 'cV[R]_d) w : \col_(c < d) nth 0 ([seq f c 0 | c <- enum 'I_d] ++ w) c = f.
Proof.
apply/matrixP => c z; rewrite ord1 mxE nth_cat size_map size_enum_ord ltn_ord.
by rewrite (nth_map c) ?size_enum_ord // nth_ord_enum.
Qed.
Lemma qeuc_back eta : horizontal SF_QEUC x eta ->
  extr_qeuc (Some (intr_qeuc QRB Q r eta).2) Q r (intr_qeuc QRB Q r eta).1 = Some eta.
Proof.
move=> /(hor_Lt Hx Hr) He; rewrite intr_qeucE; set w := (_, _).1; have [xi E] : exists xi, extr_qeuc (Some BL) Q r w = Some xi by eexists.
rewrite E; have [Et Eb] := extr_qeucE E; congr Some; apply: (tb_split Hr).
  rewrite Et nth_coords mulKmx ?BLT_unit // unweak_coefs // mulKmx // (L_unit Hx Hr) //.
by rewrite Eb unlow_low // size_map size_enum_ord.
Qed.
Lemma qeuc_forth v : size v = intr_dim p k -> exists2 eta, extr_qeuc (Some BL) Q r v = Some eta &
  horizontal SF_QEUC x eta /\ intr_qeuc QRB Q r eta = (v, BL).
Proof.
move=> Hv; have [eta E] : exists eta, extr_qeuc (Some BL) Q r v = Some eta by eexists.
exists eta => //; have [Et Eb] := extr_qeucE E.
have HM : L *m top eta = unweak (invmx BL^T *m \col_(c < d) nth 0 v c).
  by rewrite Et mulKVmx // (L_unit Hx Hr).
split; first by apply/(hor_Lt Hx Hr); rewrite HM; exact: unweak_sym.
rewrite intr_qeucE HM coefs_unweak mulKVmx ?BLT_unit // Eb low_unlow; last by rewrite Hv dimE d_size.
rewrite -[v in RHS](cat_take_drop d); congr (_ ++ _, _).
have Hd : size (take d v) = d by rewrite size_takel // Hv dimE d_size leq_addr.
apply: (@eq_from_nth _ 0); first by rewrite size_map size_enum_ord Hd.
move=> i; rewrite size_map size_enum_ord => Hi.
rewrite (nth_map (Ordinal Hi)) ?size_enum_ord // mxE nth_take //.
by have := nth_enum_ord (Ordinal Hi) Hi => ->.
Qed.
End qeuc.
