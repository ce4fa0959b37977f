(** Proofs about the coordinates of CSymFixedRankQ. *)
From mathcomp Require Import all_ssreflect all_algebra.
From mathcomp.real_closed Require Import complex.
Require Import Ring Field.
From Verif Require CQ2FModel.
From Verif Require Import MxTac StiefelModel StiefelSpec StiefelIntr CStieSpec CStieModel CMx CStieProofs CStieRetr CStieIntr CFrSpec CFr.
From Verif Require Import CSymFRModel CSymFRSpec CSymFRProofs.
Import Order.TTheory GRing.Theory Num.Theory.
Set Implicit Arguments.
Unset Strict Implicit.
Local Open Scope ring_scope.
Local Open Scope complex_scope.

Section packing.
Variable R : rcfType.
Local Notation C := R[i].
Local Notation re := (@complex.Re R).
Local Notation im := (@complex.Im R).
Local Notation s2 := (Num.sqrt 2%:R : R).
Add Field csfri_field0 : (rcf_field R).
Variables p k : nat.
Implicit Types (T : 'M[C]_p) (B : 'M[C]_(k, p)) (v w : seq R).
Local Notation u := (size (upper_pairs p)).*2.
Local Notation m := (p + (size (upper_pairs p)).*2)%N.
Lemma dimE : intr_dim p k = (m + (p * k).*2)%N.
Proof. by rewrite /intr_dim -cdim lower_size. Qed.
Definition hpack T : seq R := [seq re (T i i) | i <- enum 'I_p] ++
  twos (fun ij : 'I_p * 'I_p => s2 * re (T ij.2 ij.1)) (fun ij : 'I_p * 'I_p => s2 * im (T ij.2 ij.1)) (upper_pairs p).
Definition hunpack v : 'M[C]_p :=
  let at_ i := nth 0 v (p + i) in
  let lower ab := let i := index ab (upper_pairs p) in (at_ i.*2 / s2) +i* (at_ i.*2.+1 / s2) in
  let upper ab := let i := index ab (upper_pairs p) in (at_ i.*2 / s2) +i* (- at_ i.*2.+1 / s2) in
  \matrix_(a, b) (if a == b then (nth 0 v a) +i* 0 else if (b < a)%N then lower (b, a) else upper (a, b)).
Lemma diag_size T : size [seq re (T i i) | i <- enum 'I_p] = p.
Proof. by rewrite size_map size_enum_ord. Qed.
Lemma hpack_size T : size (hpack T) = m.
Proof. by rewrite /hpack size_cat diag_size twos_size. Qed.
Lemma hpack_inner S T : hermitian S -> hermitian T -> vdot (hpack S) (hpack T) = cinner S T.
Proof.
move=> HS HT; rewrite /hpack vdot_cat ?diag_size // vdot_map twos_vdot upper_sum big_enum /=.
rewrite -[in RHS]cdotE /cdot sum_halves; last first.
  by move=> i j; rewrite (he_re i j HS) (he_re i j HT) (he_im i j HS) (he_im i j HT) mulrNN.
congr (_ + _).
  by apply: eq_bigr => i _; rewrite (he_diag i HS) mul0r addr0.
rewrite -sumrMnl; apply: eq_bigr => i _; rewrite -sumrMnl; apply: eq_bigr => j _ /=.
by rewrite (he_re i j HS) (he_re i j HT) (he_im i j HS) (he_im i j HT) !sqrt2_pair mulrNN mulrnDl.
Qed.
Lemma hunpack_herm v : hermitian (hunpack v).
Proof.
apply/matrixP => i j; rewrite !mxE eq_sym; case: (altP eqP) => [->|Hij].
  by apply: ceq; rewrite !(reJ, imJ) //= oppr0.
case: (ltngtP i j) => E; try by apply: ceq; rewrite !(reJ, imJ) /= ?mulNr ?opprK.
by move/val_inj: E Hij => ->; rewrite eqxx.
Qed.
Lemma hun_hpack T w : hermitian T -> hunpack (hpack T ++ w) = T.
Proof.
move=> HT; apply/matrixP => a b; rewrite mxE /hpack -catA.
have Hd : nth 0 ([seq re (T i i) | i <- enum 'I_p] ++ (twos (fun ij : 'I_p * 'I_p => s2 * re (T ij.2 ij.1)) (fun ij : 'I_p * 'I_p => s2 * im (T ij.2 ij.1)) (upper_pairs p) ++ w)) a = re (T a a).
  by rewrite -{1}(index_enum_ord a) nth_map_index // mem_enum.
have Hs2 c : s2 * c / s2 = c by rewrite mulrAC mulfV ?sqrt2_neq0 // mul1r.
case: (altP (a =P b)) => [E|Hab]; first by rewrite Hd -E; apply: ceq => //=; rewrite (he_diag a HT).
rewrite !nth_off ?diag_size //.
have N (i j : 'I_p) (H : (i < j)%N) := @twos_nth _ _ (fun ij : 'I_p * 'I_p => s2 * re (T ij.2 ij.1)) (fun ij : 'I_p * 'I_p => s2 * im (T ij.2 ij.1)) (upper_pairs p) (i, j) w (etrans (upper_mem i j) H).
case: (ltngtP b a) => E.
- by have [-> ->] := N _ _ E; rewrite /= !Hs2; case: (T a b).
- have [-> ->] := N _ _ E; rewrite /= mulNr !Hs2 (he_re a b HT) (he_im a b HT) opprK; by case: (T a b).
by move/val_inj: E Hab => ->; rewrite eqxx.
Qed.
Lemma hpack_hun v : size v = m -> hpack (hunpack v) = v.
Proof.
move=> Hv; rewrite -[RHS](cat_take_drop p) /hpack; congr (_ ++ _).
  have Ht : size (take p v) = (0 + size (enum 'I_p))%N by rewrite size_takel ?size_enum_ord // Hv leq_addr.
  rewrite -[RHS]drop0 -(map_index (enum_uniq 'I_p) Ht); apply: eq_map => i.
  by rewrite mxE eqxx /= ?add0n index_enum_ord nth_take ?ltn_ord.
have Hs : size (drop p v) = u by rewrite size_drop Hv addKn.
have Hs2 c : s2 * (c / s2) = c by rewrite mulrCA mulfV ?sqrt2_neq0 // mulr1.
rewrite -[RHS](twos_index (upper_uniq p) Hs); apply: twos_ext; move=> -[i j]; rewrite upper_mem => H; rewrite !mxE /= H.
  have -> : (j == i) = false by apply/eqP => E; rewrite E ltnn in H.
  by rewrite /= Hs2 nth_drop.
have -> : (j == i) = false by apply/eqP => E; rewrite E ltnn in H.
by rewrite /= Hs2 nth_drop.
Qed.
Lemma hunpack_cat v w : size v = m -> hunpack (v ++ w) = hunpack v.
Proof.
move=> Hv; rewrite -{1}(hpack_hun Hv); exact: (hun_hpack _ (hunpack_herm v)).
Qed.
Lemma pk_inner T T' B B' : hermitian T -> hermitian T' ->
  vdot (hpack T ++ low B) (hpack T' ++ low B') = cinner T T' + cinner B B'.
Proof. by move=> HT HT'; rewrite vdot_cat ?hpack_size // hpack_inner // low_inner. Qed.
Lemma pk_un v : size v = intr_dim p k -> hpack (hunpack v) ++ low (unlow p k m v) = v.
Proof.
rewrite dimE => Hv; rewrite -[RHS](cat_take_drop m) -(low_unlow Hv); congr (_ ++ _).
have Hm : size (take m v) = m by rewrite size_takel // Hv leq_addr.
by rewrite -{1}(cat_take_drop m v) hunpack_cat // hpack_hun.
Qed.
Lemma unlow_pk T B : unlow p k m (hpack T ++ low B) = B.
Proof. by rewrite -[low B]cats0 unlow_low // hpack_size. Qed.
End packing.

Section frame.
Variable R : rcfType.
Local Notation C := R[i].
Local Notation re := (@complex.Re R).
Local Notation im := (@complex.Im R).
Local Notation s2 := (Num.sqrt 2%:R : R).
Add Field csfri_field : (rcf_field R).
Variables p k : nat.
Local Notation ext := 'M[C]_(p + k, p).
Local Notation m := (p + (size (upper_pairs p)).*2)%N.
Implicit Types eta xi : ext.
Variables (x : ext) (Q : 'M[C]_(p + k)) (r : 'M[C]_p).
Hypotheses (Hx : cfull_rank x) (Hr : is_chhr x Q r).
Local Notation G := (adj x *m x).
Local Notation Gi := (invmx (adj x *m x)).
Local Notation L := (lower_factor r).
Local Notation top := (top Q r).
Local Notation bot := (bot Q).
Lemma L_same : L = CQ2FModel.lower_factor r.
Proof.
apply/matrixP => j i; rewrite !mxE; case: ifP => // _; rewrite ltNge; case: (0 <= _); apply: ceq; rewrite /= ?mulr1 //.
Qed.
Lemma sCE : G = L *m adj L.
Proof. by rewrite L_same; exact: (CE Hr). Qed.
Lemma sL_unit : L \in unitmx.
Proof. by rewrite L_same; exact: (L_unit Hx Hr). Qed.
Lemma sLT_unit : adj L \in unitmx.
Proof. by rewrite L_same; exact: (LT_unit Hx Hr). Qed.
Lemma stopE eta : adj x *m eta = L *m top eta.
Proof. by rewrite L_same; exact: (topE Hr). Qed.
Lemma srotE eta : intr_rot Q r eta = col_mx (top eta) (bot eta).
Proof. exact: (rotE Hr). Qed.
Lemma extr_rotE (T : 'M[C]_p) (B : 'M[C]_(k, p)) :
  top (extr_rot Q r (col_mx T B)) = T *m invmx L /\ bot (extr_rot Q r (col_mx T B)) = B *m invmx L.
Proof.
by rewrite /extr_rot mul_col_mx col_mxKu col_mxKd (join_top Hr) (join_bot Hr).
Qed.

(** Horizontal vectors in these terms. *)
Lemma hor_tL eta : horizontal x eta <-> hermitian (top eta *m L).
Proof.
have HL := sL_unit; have HLT := sLT_unit; have [_ EI] := adj_unit HL.
have E : Gi *m adj x *m eta = invmx (adj L) *m top eta.
  rewrite -mulmxA [adj x *m eta]stopE; have HC := sCE.
  have : G *m (invmx (adj L) *m top eta) = L *m top eta by rewrite HC -mulmxA mulKVmx.
  by move/(congr1 (fun A => Gi *m A)) => <-; rewrite [Gi *m (G *m _)]mulmxA CiC // mul1mx.
rewrite horP // E /hermitian.
have Et : adj (invmx (adj L) *m top eta) = adj (top eta) *m invmx L by rewrite adjM EI adjK.
rewrite Et [adj (top eta *m L)]adjM; split=> H.
  by have := congr1 (fun A => adj L *m A *m L) H; rewrite mulmxA mulmxKV // mulKVmx.
have := congr1 (fun A => invmx (adj L) *m A *m invmx L) H.
by rewrite mulKmx // -[invmx _ *m (_ *m L) *m _]mulmxA mulmxK.
Qed.
Lemma g_hgz_tb eta xi : g_of CSF_HGZ x eta xi = cinner (top eta *m L) (top xi *m L) + cinner (bot eta *m L) (bot xi *m L).
Proof.
rewrite g_hgzE sCE mulmxA cinner_mulr adjK.
by rewrite (tb_inner Hr) !top_mul !bot_mul.
Qed.
Lemma g_euc_tb eta xi : horizontal x eta -> g_of CSF_EUC x eta xi =
  2%:R * (2%:R * cinner (top eta *m L) (top xi *m L)) + 2%:R * cinner (bot eta *m L) (bot xi *m L).
Proof.
move=> /hor_tL H.
have -> : g_of CSF_EUC x eta xi = 2%:R * (re (\tr (adj x *m eta *m adj x *m xi)) + g_of CSF_HGZ x eta xi).
  by rewrite /g_of mxtraceD reD.
rewrite g_hgz_tb.
have -> : re (\tr (adj x *m eta *m adj x *m xi)) = cinner (top eta *m L) (top xi *m L).
  by rewrite -[adj x *m eta *m adj x *m xi]mulmxA [adj x *m eta]stopE [adj x *m xi]stopE -mulmxA mxtrace_mulC /cinner H !mulmxA.
move: (cinner _ _) (cinner _ _) => a b; rng R.
Qed.

(** HGZ and EUC. *)
Lemma intr_hgzE eta : intr_hgz Q r eta = hpack (top eta *m L) ++ low (bot eta *m L).
Proof. by rewrite /intr_hgz srotE mul_col_mx col_mxKu col_mxKd /hpack -catA. Qed.
Lemma re_realM (a : R) (z : C) : re (a%:C * z) = a * re z.
Proof. by rewrite reM reC imC mul0r subr0. Qed.
Lemma im_realM (a : R) (z : C) : im (a%:C * z) = a * im z.
Proof. by rewrite imM reC imC mul0r addr0. Qed.
Lemma intr_eucE eta : intr_euc Q r eta = hpack ((2%:R)%:C *: (top eta *m L)) ++ low (s2%:C *: (bot eta *m L)).
Proof.
rewrite /intr_euc srotE mul_col_mx col_mxKu col_mxKd /hpack -catA; congr (_ ++ (_ ++ _)).
- by apply: eq_map => i; rewrite [in RHS]mxE re_realM.
- apply: twos_ext; move=> -[i j] _; rewrite [in RHS]mxE ?re_realM ?im_realM /=; rng R.
by apply: twos_ext; move=> -[i j] _; rewrite [in RHS]mxE ?re_realM ?im_realM.
Qed.
Lemma extr_hgzE v : top (extr_hgz Q r v) = hunpack p v *m invmx L /\ bot (extr_hgz Q r v) = unlow p k m v *m invmx L.
Proof.
rewrite /extr_hgz; set T := \matrix_(a, b) _; set B := \matrix_(j, i) _.
have [-> ->] := extr_rotE T B; split; congr (_ *m _).
by apply/matrixP => j i; rewrite !mxE !addnA.
Qed.
Lemma extr_eucE v : top (extr_euc Q r v) = ((2%:R^-1)%:C *: hunpack p v) *m invmx L /\
  bot (extr_euc Q r v) = ((s2^-1)%:C *: unlow p k m v) *m invmx L.
Proof.
rewrite /extr_euc; set T := \matrix_(a, b) _; set B := \matrix_(j, i) _.
have [-> ->] := extr_rotE T B; split; congr (_ *m _); apply/matrixP => a b; rewrite !mxE.
  by case: ifP => _; [|case: ifP => _]; apply: ceq; rewrite ?re_realM ?im_realM /= ?mulr0 // mulrC.
by rewrite !addnA; apply: ceq; rewrite ?re_realM ?im_realM /= mulrC.
Qed.
Lemma hgz_inner eta xi : horizontal x eta -> horizontal x xi ->
  vdot (intr_hgz Q r eta) (intr_hgz Q r xi) = g_of CSF_HGZ x eta xi.
Proof. by move=> /hor_tL He /hor_tL Hxi; rewrite !intr_hgzE pk_inner // g_hgz_tb. Qed.
Lemma euc_inner eta xi : horizontal x eta -> horizontal x xi ->
  vdot (intr_euc Q r eta) (intr_euc Q r xi) = g_of CSF_EUC x eta xi.
Proof.
move=> He /hor_tL Hxi; rewrite (g_euc_tb xi He); move: He => /hor_tL He.
rewrite !intr_eucE pk_inner; try exact: hermitianR.
rewrite !cinnerZl !cinnerZr; congr (_ + _).
by rewrite mulrA sqrt2_sq.
Qed.
Lemma hgz_size eta : size (intr_hgz Q r eta) = intr_dim p k.
Proof. by rewrite intr_hgzE size_cat hpack_size low_size dimE. Qed.
Lemma euc_size eta : size (intr_euc Q r eta) = intr_dim p k.
Proof. by rewrite intr_eucE size_cat hpack_size low_size dimE. Qed.
Lemma hgz_back eta : horizontal x eta -> extr_hgz Q r (intr_hgz Q r eta) = eta.
Proof.
move=> /hor_tL H; have HL := sL_unit; have [Et Eb] := extr_hgzE (intr_hgz Q r eta); apply: (tb_split Hr).
  by rewrite Et intr_hgzE hun_hpack ?mulmxK.
by rewrite Eb intr_hgzE unlow_pk mulmxK.
Qed.
Lemma real_inv (a : R) : a != 0 -> (a^-1)%:C * a%:C = 1.
Proof. by move=> H; rewrite -rcM mulVf. Qed.
Lemma real_inv' (a : R) : a != 0 -> a%:C * (a^-1)%:C = 1.
Proof. by move=> H; rewrite -rcM mulfV. Qed.
Let two0 : (2%:R : R) != 0. Proof. by rewrite pnatr_eq0. Qed.
Lemma euc_back eta : horizontal x eta -> extr_euc Q r (intr_euc Q r eta) = eta.
Proof.
move=> /hor_tL H; have HL := sL_unit; have [Et Eb] := extr_eucE (intr_euc Q r eta); apply: (tb_split Hr).
  rewrite Et intr_eucE hun_hpack ?scalerA; last exact: hermitianR.
  by rewrite real_inv // scale1r mulmxK.
by rewrite Eb intr_eucE unlow_pk scalerA real_inv ?sqrt2_neq0 // scale1r mulmxK.
Qed.
Lemma hgz_forth v : size v = intr_dim p k -> intr_hgz Q r (extr_hgz Q r v) = v.
Proof.
move=> Hv; have HL := sL_unit; have [Et Eb] := extr_hgzE v.
by rewrite intr_hgzE Et Eb !mulmxKV // pk_un.
Qed.
Lemma euc_forth v : size v = intr_dim p k -> intr_euc Q r (extr_euc Q r v) = v.
Proof.
move=> Hv; have HL := sL_unit; have [Et Eb] := extr_eucE v.
rewrite intr_eucE Et Eb !mulmxKV // !scalerA (real_inv' two0) (real_inv' (sqrt2_neq0 R)) !scale1r.
by rewrite pk_un.
Qed.
Lemma hgz_extr_hor v : horizontal x (extr_hgz Q r v).
Proof. apply/hor_tL; have [-> _] := extr_hgzE v; rewrite mulmxKV ?sL_unit //; exact: hunpack_herm. Qed.
Lemma euc_extr_hor v : horizontal x (extr_euc Q r v).
Proof.
apply/hor_tL; have [-> _] := extr_eucE v; rewrite mulmxKV ?sL_unit //; apply: hermitianR; exact: hunpack_herm.
Qed.
End frame.
