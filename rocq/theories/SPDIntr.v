(** Proofs about the coordinates of symmetric matrices and the transport by parallelization. *)
From mathcomp Require Import all_ssreflect all_algebra.
Require Import Ring Field.
From Verif Require Import MxTac StiefelModel StiefelSpec StiefelProofs StiefelIntr SPDModel SPDSpec SPDProofs.
Import Order.TTheory GRing.Theory Num.Theory.
Set Implicit Arguments.
Unset Strict Implicit.
Local Open Scope ring_scope.

Section intr.
Variable R : rcfType.
Add Field spdi_field : (rcf_field R).
Variable n : nat.
Local Notation ext := 'M[R]_n.
Implicit Types x y L eta xi S T : ext.
Implicit Type v : seq R.

Lemma pack_inner S T : symmetric S -> symmetric T -> vdot (pack S) (pack T) = inner S T.
Proof.
move=> HS HT; rewrite /pack vdot_cat ?size_map // !vdot_map upper_sum big_enum /=.
rewrite -[in RHS]dotE /dot sum_halves; last first.
  by move=> i j; rewrite (sym_entry i j HS) (sym_entry i j HT).
congr (_ + _); rewrite -sumrMnl; apply: eq_bigr => i _; rewrite -sumrMnl; apply: eq_bigr => j _ /=.
by rewrite mulrACA sqrt2_sq (sym_entry i j HS) (sym_entry i j HT); rng R.
Qed.
Lemma pack_size S : size (pack S) = (n * (n + 1) %/ 2)%N.
Proof.
rewrite /pack size_cat size_diag size_enum_ord size_map upper_size bin2 -divn2.
case: n => [//|q] /=.
have H : (q.+1 * (q.+1 + 1) = q.+1 * 2 + q.+1 * q)%N by rewrite -mulnDr addn1 addnC addn2.
by rewrite H divnDl ?dvdn_mull // mulnK.
Qed.
Lemma unpack_sym v : symmetric (unpack n v).
Proof.
apply/matrixP => i j; rewrite !mxE eq_sym; case: (altP eqP) => [->//|Hij].
by case: (ltngtP i j) => H //; move/val_inj: H Hij => ->; rewrite eqxx.
Qed.
Lemma unpack_pack S : symmetric S -> unpack n (pack S) = S.
Proof.
move=> HS; apply/matrixP => a b; rewrite /unpack /pack mxE.
case: (altP (a =P b)) => [->|Hab]; first by rewrite nth_map_index ?mem_enum.
have E : size (enum 'I_n) = size [seq S i i | i <- enum 'I_n] by rewrite size_map.
rewrite {1 2}E; case: (ltngtP b a) => H.
- by rewrite nth_map_index2 ?upper_mem //= mulfK ?sqrt2_neq0.
- by rewrite nth_map_index2 ?upper_mem //= mulfK ?sqrt2_neq0 // (sym_entry a b HS).
by move/val_inj: H Hab => ->; rewrite eqxx.
Qed.
Lemma pack_unpack v : size v = (n * (n + 1) %/ 2)%N -> pack (unpack n v) = v.
Proof.
move=> Hv; have Hs : (size (enum 'I_n) + size (upper_pairs n))%N = size v.
  by rewrite Hv -(pack_size 0) /pack size_cat size_diag (size_map _ (upper_pairs n)).
rewrite -[RHS](cat_take_drop (size (enum 'I_n))) /pack; congr (_ ++ _).
  have Ht : size (take (size (enum 'I_n)) v) = (0 + size (enum 'I_n))%N by rewrite size_takel // -Hs leq_addr.
  rewrite -[RHS]drop0 -(map_index (enum_uniq 'I_n) Ht); apply: eq_map => i.
  by rewrite mxE eqxx nth_take // index_mem mem_enum.
rewrite -(map_index (upper_uniq n) (n := size (enum 'I_n))) //.
apply/eq_in_map => [[i j]] Hij; rewrite upper_mem in Hij; rewrite !mxE /= Hij.
have -> : (j == i) = false by apply/eqP => E'; rewrite E' ltnn in Hij.
by rewrite mulfVK ?sqrt2_neq0.
Qed.

Section chol.
Variables x L : ext.
Hypothesis Hc : is_chol x L.
Lemma extr_afE v : extr_af L v = L *m unpack n v *m L^T.
Proof. by rewrite /extr_af !gemm0E !scale1r. Qed.
Lemma extr_af_sym v : symmetric (extr_af L v).
Proof. by rewrite extr_afE /symmetric !trM trmxK unpack_sym mulmxA. Qed.
Lemma intr_af_inner eta xi : symmetric eta -> symmetric xi ->
  vdot (intr_af L eta) (intr_af L xi) = metric_af x eta xi.
Proof.
move=> He Hx; rewrite (metric_afE Hc) // (af_whiten Hc) // pack_inner //; exact: whiten_sym.
Qed.
Lemma intr_extr_af eta : symmetric eta -> extr_af L (intr_af L eta) = eta.
Proof.
move=> He; rewrite extr_afE /intr_af unpack_pack; first exact: (unwhiten Hc).
exact: whiten_sym.
Qed.
Lemma extr_intr_af v : size v = (n * (n + 1) %/ 2)%N -> intr_af L (extr_af L v) = v.
Proof.
move=> Hv; rewrite extr_afE /intr_af (rewhiten Hc); last exact: unpack_sym.
exact: pack_unpack.
Qed.
End chol.

Lemma transport_afE x Lx Ly xi : is_chol x Lx -> symmetric xi ->
  transport_af Lx Ly xi = Ly *m whiten Lx xi *m Ly^T.
Proof.
by move=> Hc H; rewrite /transport_af extr_afE /intr_af unpack_pack //; exact: whiten_sym.
Qed.
Lemma transport_af_iso x y Lx Ly xi zeta : is_chol x Lx -> is_chol y Ly -> symmetric xi -> symmetric zeta ->
  metric_af y (transport_af Lx Ly xi) (transport_af Lx Ly zeta) = metric_af x xi zeta.
Proof.
move=> Hx Hy H1 H2; rewrite -(intr_af_inner Hy); try exact: extr_af_sym.
rewrite /transport_af !(extr_intr_af Hy) ?pack_size //; exact: (intr_af_inner Hx).
Qed.
Lemma transport_af_inv x y Lx Ly xi : is_chol x Lx -> is_chol y Ly -> symmetric xi ->
  transport_af Ly Lx (transport_af Lx Ly xi) = xi.
Proof.
move=> Hx Hy H; rewrite {1}/transport_af {1}/transport_af (extr_intr_af Hy) ?pack_size //.
exact: (intr_extr_af Hx).
Qed.
Lemma transport_af_id x Lx xi : is_chol x Lx -> symmetric xi -> transport_af Lx Lx xi = xi.
Proof. by move=> Hx H; exact: (intr_extr_af Hx). Qed.
Lemma transport_euc_id xi : symmetric xi -> transport_euc xi = xi.
Proof. exact: unpack_pack. Qed.
End intr.
