(** Operators pulled through transports. *)
From Coq Require Import List Arith Bool Reals Lra Lia QArith Qreals.
Import ListNotations.
From Verif Require Import Arith MatOpsModel MatOpsReal TangentModel TangentSpec TangentProofs TangentLC.
Local Close Scope Q_scope.
Local Open Scope R_scope.

(** Finite sums. *)
Lemma es_S n f : entry_sum (S n) f = entry_sum n f + f n.
Proof.
  unfold entry_sum. rewrite seq_S, map_app. cbn [Nat.add map].
  set (l := map f (seq 0 n)). clearbody l. induction l as [|x l IH]; cbn; [lra|]. rewrite IH. lra.
Qed.
Lemma es_ext n f g : (forall i, (i < n)%nat -> f i = g i) -> entry_sum n f = entry_sum n g.
Proof. induction n as [|n IH]; intros H; [reflexivity|]. rewrite !es_S, IH, H; auto. Qed.
Lemma es_lin n a f g : entry_sum n (fun i => a * f i + g i) = a * entry_sum n f + entry_sum n g.
Proof. induction n as [|n IH]; [unfold entry_sum; cbn; lra|]. rewrite !es_S, IH. lra. Qed.
Lemma es_0 n f : (forall i, (i < n)%nat -> f i = 0) -> entry_sum n f = 0.
Proof. induction n as [|n IH]; intros H; [reflexivity|]. rewrite es_S, IH, H; auto. lra. Qed.
Lemma es_scal n a f : entry_sum n (fun i => a * f i) = a * entry_sum n f.
Proof. induction n as [|n IH]; [unfold entry_sum; cbn; lra|]. rewrite !es_S, IH. lra. Qed.
Lemma es_add n f g : entry_sum n (fun i => f i + g i) = entry_sum n f + entry_sum n g.
Proof. induction n as [|n IH]; [unfold entry_sum; cbn; lra|]. rewrite !es_S, IH. lra. Qed.
Lemma es_swap n m f : entry_sum n (fun i => entry_sum m (fun j => f i j)) = entry_sum m (fun j => entry_sum n (fun i => f i j)).
Proof.
  induction n as [|n IH].
  - symmetry. apply es_0. reflexivity.
  - rewrite es_S, IH, <- es_add. apply es_ext. intros. now rewrite es_S.
Qed.
Lemma es_app n m f : entry_sum (n + m) f = entry_sum n f + entry_sum m (fun i => f (n + i)%nat).
Proof.
  induction m as [|m IH]; [rewrite Nat.add_0_r; unfold entry_sum at 3; cbn; lra|].
  rewrite Nat.add_succ_r, !es_S, IH. lra.
Qed.
Lemma inb_spec s l i : inb s l i = true <-> (s <= i < s + l)%nat.
Proof. unfold inb. rewrite andb_true_iff, Nat.leb_le, Nat.ltb_lt. tauto. Qed.
Lemma inb_shift s l k : (k < l)%nat -> inb s l (s + k) = true.
Proof. intros. apply inb_spec. lia. Qed.
Lemma inb_out s l k : (k < s \/ s + l <= k)%nat -> inb s l k = false.
Proof. intros. destruct (inb s l k) eqn:E; auto. apply inb_spec in E. lia. Qed.
Lemma es_block s l n f : (s + l <= n)%nat -> (forall i, inb s l i = false -> f i = 0) ->
  entry_sum n f = entry_sum l (fun k => f (s + k)%nat).
Proof.
  intros H1 H2. replace n with (s + (l + (n - s - l)))%nat by lia. rewrite es_app, es_app.
  rewrite (es_0 s) by (intros; apply H2, inb_out; lia).
  rewrite (es_0 (n - s - l)) by (intros; apply H2, inb_out; lia). lra.
Qed.
Lemma inner_es u v : length u = length v -> inner u v = entry_sum (length u) (fun k => nth k u 0 * nth k v 0).
Proof.
  revert v; induction u as [|a u IH]; intros [|b v] H; try discriminate; [reflexivity|].
  cbn in H. cbn [inner length]. replace (S (length u)) with (1 + length u)%nat by lia. rewrite es_app.
  cbn [Nat.add nth]. rewrite IH by auto. unfold entry_sum at 2. cbn. lra.
Qed.
Lemma map_seq_nth (f : nat -> R) n i : (i < n)%nat -> nth i (map f (seq 0 n)) 0 = f i.
Proof. intros. rewrite nth_indep with (d' := f 0%nat) by now rewrite map_length, seq_length. now rewrite map_nth, seq_nth. Qed.
Lemma length_times n H v : length (times n H v) = n.
Proof. unfold times. now rewrite map_length, seq_length. Qed.
Lemma nth_times n H v i : (i < n)%nat -> nth i (times n H v) 0 = entry_sum n (fun j => H i j * nth j v 0).
Proof. intros. unfold times. now rewrite map_seq_nth. Qed.
Lemma nth_replace s w v i : (s + length w <= length v)%nat ->
  nth i (replace s w v) 0 = if inb s (length w) i then nth (i - s) w 0 else nth i v 0.
Proof.
  intros H. unfold replace. destruct (inb s (length w) i) eqn:E.
  - apply inb_spec in E. rewrite app_nth2; rewrite firstn_length_le by lia; [|lia]. now rewrite app_nth1 by lia.
  - destruct (Nat.lt_ge_cases i s).
    + rewrite app_nth1 by (rewrite firstn_length_le; lia). rewrite <- (firstn_skipn s v) at 2.
      now rewrite app_nth1 by (rewrite firstn_length_le; lia).
    + assert (s + length w <= i)%nat.
      { destruct (Nat.lt_ge_cases i (s + length w)); auto. exfalso.
        assert (inb s (length w) i = true) by (apply inb_spec; lia). congruence. }
      rewrite app_nth2; rewrite firstn_length_le by lia; [|lia]. rewrite app_nth2 by lia.
      rewrite <- (firstn_skipn (s + length w) v) at 2. rewrite app_nth2; rewrite firstn_length_le by lia; [|lia].
      f_equal. lia.
Qed.
Lemma length_replace s w v : (s + length w <= length v)%nat -> length (replace s w v) = length v.
Proof. intros. unfold replace. rewrite !app_length, firstn_length_le, skipn_length; lia. Qed.
Lemma length_block s n v : (s + n <= length v)%nat -> length (block s n v) = n.
Proof. intros. unfold block. rewrite firstn_length_le; auto. rewrite skipn_length. lia. Qed.
Lemma nth_block s n v k : (s + n <= length v)%nat -> (k < n)%nat -> nth k (block s n v) 0 = nth (s + k) v 0.
Proof.
  intros H1 H2. unfold block. rewrite <- (firstn_skipn s v) at 2.
  rewrite app_nth2 by (rewrite firstn_length_le; lia). rewrite firstn_length_le by lia.
  replace (s + k - s)%nat with k by lia. rewrite <- (firstn_skipn n (skipn s v)) at 2.
  rewrite app_nth1; auto. rewrite firstn_length_le; auto. rewrite skipn_length. lia.
Qed.
Lemma block_replace s w v : (s + length w <= length v)%nat -> block s (length w) (replace s w v) = w.
Proof.
  intros. apply vec_eq; rewrite length_block by (rewrite length_replace; lia); auto.
  intros i Hi. rewrite nth_block, nth_replace, inb_shift; rewrite ?length_replace; try lia.
  f_equal. lia.
Qed.
Lemma replace_replace s w w' v : length w = length w' -> (s + length w <= length v)%nat ->
  replace s w (replace s w' v) = replace s w v.
Proof.
  intros H1 H2. assert (length (replace s w' v) = length v) by (apply length_replace; lia).
  apply vec_eq; [rewrite !length_replace; lia|]. intros i _. rewrite !nth_replace by lia.
  destruct (inb s (length w) i) eqn:E; auto. rewrite H1 in E. now rewrite E.
Qed.

Section ops.
Variables big epsv : R.
Notation A := (R_arith big epsv).
Notation ope := (@ope A).

Lemma matvecE n (H : ope) (v : list R) : length v = n -> matvec (A := A) n H v = times n H v.
Proof.
  intros Hv. unfold matvec, times. apply map_ext_in. intros i _. unfold row. rewrite dotpE, inner_es.
  - rewrite map_length, seq_length. apply es_ext. intros j Hj.
    now rewrite (map_seq_nth (H i)) by auto.
  - now rewrite map_length, seq_length.
Qed.

(** The vector nu placed at start. *)
Definition pad (s : nat) (nu : list R) (k : nat) : R := if inb s (length nu) k then nth (k - s) nu 0 else 0.
Lemma pad_dot n s (nu : list R) (f : nat -> R) : (s + length nu <= n)%nat ->
  inner (map (fun k => f (s + k)%nat) (seq 0 (length nu))) nu = entry_sum n (fun k => f k * pad s nu k).
Proof.
  intros H. rewrite inner_es by now rewrite map_length, seq_length.
  rewrite (es_block s (length nu) n); auto.
  - rewrite map_length, seq_length. apply es_ext. intros k Hk. rewrite (map_seq_nth (fun k => f (s + k)%nat)) by auto.
    unfold pad. rewrite inb_shift by auto. do 2 f_equal. lia.
  - intros i Hi. unfold pad. rewrite Hi. lra.
Qed.
Lemma larfx_rE n s (nu : list R) tau (C : ope) i j : (s + length nu <= n)%nat ->
  larfx_r (A := A) s nu tau C i j = C i j - tau * entry_sum n (fun k => C i k * pad s nu k) * pad s nu j.
Proof.
  intros H. unfold larfx_r. rewrite dotpE. cbn [Arith.F R_arith] in *. rewrite (pad_dot n s nu (C i)) by auto.
  set (z := entry_sum n _). clearbody z. unfold pad. rewrite litE, q0. destruct (inb s (length nu) j); cbn; lra.
Qed.
Lemma larfx_lE n s (nu : list R) tau (C : ope) i j : (s + length nu <= n)%nat ->
  larfx_l (A := A) s nu tau C i j = C i j - tau * pad s nu i * entry_sum n (fun k => C k j * pad s nu k).
Proof.
  intros H. unfold larfx_l. rewrite dotpE. cbn [Arith.F R_arith] in *. rewrite (pad_dot n s nu (fun k => C k j)) by auto.
  set (z := entry_sum n _). clearbody z. unfold pad. rewrite litE, q0. destruct (inb s (length nu) i); cbn; lra.
Qed.

(** The reflection I - tau nu nu^T on the block at start. *)
Definition refl (tau : R) (nu w : list R) : list R := comb (- inner w nu * tau) nu w.
Definition refl_at (s : nat) (tau : R) (nu v : list R) : list R :=
  replace s (refl tau nu (block s (length nu) v)) v.
Lemma length_refl tau nu w : length nu = length w -> length (refl tau nu w) = length w.
Proof. intros. unfold refl. now rewrite length_comb. Qed.
Lemma length_refl_at s tau nu v : (s + length nu <= length v)%nat -> length (refl_at s tau nu v) = length v.
Proof. intros. unfold refl_at. apply length_replace. rewrite length_refl; rewrite length_block; auto. Qed.
Lemma refl_at_replace s tau nu w v : length nu = length w -> (s + length w <= length v)%nat ->
  refl_at s tau nu (replace s w v) = replace s (refl tau nu w) v.
Proof.
  intros H1 H2. unfold refl_at. rewrite H1, block_replace by auto. apply replace_replace; rewrite ?length_refl; auto.
Qed.
Lemma nth_refl_at n s tau nu v i : length v = n -> (s + length nu <= n)%nat -> (i < n)%nat ->
  nth i (refl_at s tau nu v) 0 = nth i v 0 - tau * entry_sum n (fun k => nth k v 0 * pad s nu k) * pad s nu i.
Proof.
  intros Hv H Hi. unfold refl_at.
  assert (L : length (block s (length nu) v) = length nu) by (apply length_block; lia).
  rewrite nth_replace by (rewrite length_refl; lia). rewrite length_refl, L by lia.
  rewrite <- (pad_dot n s nu (fun k => nth k v 0)) by auto.
  replace (map (fun k => nth (s + k) v 0) (seq 0 (length nu))) with (block s (length nu) v).
  2:{ apply vec_eq; [now rewrite map_length, seq_length|]. rewrite L. intros k Hk.
      rewrite nth_block, (map_seq_nth (fun k => nth (s + k) v 0)) by lia. reflexivity. }
  unfold pad. destruct (inb s (length nu) i) eqn:E; [|lra].
  apply inb_spec in E. unfold refl. rewrite nth_comb by lia. rewrite nth_block by lia.
  replace (s + (i - s))%nat with i by lia. lra.
Qed.
Lemma times_r n s (nu : list R) tau (C : ope) (v : list R) : length v = n -> (s + length nu <= n)%nat ->
  times n (larfx_r (A := A) s nu tau C) v = times n C (refl_at s tau nu v).
Proof.
  intros Hv H. apply vec_eq; rewrite ?length_times; auto. intros i Hi. rewrite !nth_times by auto.
  rewrite (es_ext n _ (fun j => (- tau * entry_sum n (fun k => C i k * pad s nu k)) * (pad s nu j * nth j v 0) + C i j * nth j v 0)).
  2:{ intros j Hj. rewrite (larfx_rE n) by auto. lra. }
  rewrite es_lin.
  rewrite (es_ext n (fun j => C i j * nth j (refl_at s tau nu v) 0)
    (fun j => (- tau * entry_sum n (fun k => nth k v 0 * pad s nu k)) * (C i j * pad s nu j) + C i j * nth j v 0)).
  2:{ intros j Hj. rewrite (nth_refl_at n) by auto. lra. }
  rewrite es_lin. f_equal.
  rewrite (es_ext n (fun j => pad s nu j * nth j v 0) (fun k => nth k v 0 * pad s nu k)) by (intros; lra). lra.
Qed.
Lemma times_l n s (nu : list R) tau (C : ope) (v : list R) : length v = n -> (s + length nu <= n)%nat ->
  times n (larfx_l (A := A) s nu tau C) v = refl_at s tau nu (times n C v).
Proof.
  intros Hv H. apply vec_eq; [rewrite length_refl_at; rewrite ?length_times; auto|].
  rewrite length_times. intros i Hi. rewrite (nth_refl_at n), !nth_times by (rewrite ?length_times; auto).
  rewrite (es_ext n _ (fun j => (- tau * pad s nu i) * (entry_sum n (fun k => C k j * pad s nu k) * nth j v 0) + C i j * nth j v 0)).
  2:{ intros j Hj. rewrite (larfx_lE n) by auto. lra. }
  rewrite es_lin.
  rewrite (es_ext n (fun k => nth k (times n C v) 0 * pad s nu k) (fun k => entry_sum n (fun j => C k j * nth j v 0 * pad s nu k))).
  2:{ intros k Hk. rewrite nth_times by auto. rewrite Rmult_comm, <- es_scal. apply es_ext. intros. lra. }
  rewrite es_swap.
  rewrite (es_ext n (fun j => entry_sum n (fun k => C k j * pad s nu k) * nth j v 0) (fun j => entry_sum n (fun i0 => C i0 j * nth j v 0 * pad s nu i0))).
  2:{ intros j Hj. rewrite Rmult_comm, <- es_scal. apply es_ext. intros. lra. }
  lra.
Qed.

(** Two reflections in a row, and operators multiplied by them. *)
Section two.
Variable d : nat.
Variable T lc : list R -> list R.
Variables n1 n2 : list R.
Variables t1 t2 : R.
Hypothesis L1 : length n1 = d.
Hypothesis L2 : length n2 = d.
Hypothesis T_length : forall v, length v = d -> length (T v) = d.
Hypothesis lc_len : forall v, length v = d -> length (lc v) = d.
Hypothesis lc_def : forall v, length v = d -> v <> zero d -> lc v = refl t2 n2 (refl t1 n1 (T v)).
Hypothesis back : forall v, length v = d -> v <> zero d -> refl t1 n1 (refl t2 n2 (lc v)) = T v.
Lemma two_H_inv ell s (B H : ope) : (s + d <= ell)%nat ->
  (forall v w, length v = d -> length w = ell -> times ell B (replace s (T v) w) = times ell H (replace s v w)) ->
  forall v w, length v = d -> v <> zero d -> length w = ell ->
  times ell (lc_HInvTran (A := A) s n1 n2 t1 t2 B) (replace s (lc v) w) = times ell H (replace s v w).
Proof.
  intros Hs HB v w Hv Hv0 Hw. unfold lc_HInvTran. pose proof (lc_len v Hv) as LL.
  pose proof (T_length v Hv) as LT.
  rewrite (times_r ell s n2) by (rewrite ?length_replace; lia).
  assert (L3 : length (refl t2 n2 (lc v)) = d) by (rewrite length_refl; lia).
  rewrite refl_at_replace by lia.
  rewrite (times_r ell s n1) by (rewrite ?length_replace; lia).
  rewrite refl_at_replace by lia. rewrite back by auto. now apply HB.
Qed.
Lemma two_T_H ell s (B H : ope) : (s + d <= ell)%nat ->
  (forall w, length w = ell -> times ell B w = replace s (T (block s d (times ell H w))) (times ell H w)) ->
  forall w, length w = ell -> block s d (times ell H w) <> zero d ->
  times ell (lc_TranH (A := A) s n1 n2 t1 t2 B) w = replace s (lc (block s d (times ell H w))) (times ell H w).
Proof.
  intros Hs HB w Hw Hb. unfold lc_TranH. pose proof L1 as L1. pose proof L2 as L2.
  rewrite (times_l ell s n2), (times_l ell s n1), HB by lia.
  assert (L4 : length (times ell H w) = ell) by apply length_times.
  set (u := times ell H w) in *. clearbody u.
  assert (Lb : length (block s d u) = d) by (apply length_block; lia).
  pose proof (T_length _ Lb) as LT.
  rewrite refl_at_replace by lia. rewrite refl_at_replace by (rewrite ?length_refl; lia).
  now rewrite lc_def.
Qed.
Lemma replace_all (w v : list R) : length w = length v -> replace 0 w v = w.
Proof.
  intros H. unfold replace. cbn. rewrite skipn_all2 by lia. now rewrite app_nil_r.
Qed.
Lemma block_all (v : list R) : block 0 (length v) v = v.
Proof. unfold block. cbn. apply firstn_all. Qed.
Lemma refl_at_all tau' nu v : length nu = length v -> refl_at 0 tau' nu v = refl tau' nu v.
Proof. intros H. unfold refl_at. rewrite H, block_all. apply replace_all. now apply length_refl. Qed.
Lemma two_T_H_inv (B H : ope) :
  (forall v, length v = d -> times d B (T v) = T (times d H v)) ->
  forall v, length v = d -> v <> zero d -> times d H v <> zero d ->
  times d (lc_TranHInvTran (A := A) n1 n2 t1 t2 B) (lc v) = lc (times d H v).
Proof.
  intros HB v Hv Hv0 Hz. unfold lc_TranHInvTran. pose proof (lc_len v Hv) as LL.
  pose proof (T_length v Hv) as LT. pose proof (length_times d H v) as LH. pose proof (T_length _ LH) as LTH.
  rewrite (times_l d 0 n2), (times_l d 0 n1), (times_r d 0 n2) by lia.
  rewrite (refl_at_all _ n2 (lc v)) by lia.
  rewrite (times_r d 0 n1) by (rewrite ?length_refl; lia).
  rewrite (refl_at_all _ n1 (refl _ _ _)) by (rewrite ?length_refl; lia).
  rewrite back, HB by auto.
  rewrite (refl_at_all t1 n1) by lia. rewrite refl_at_all by (rewrite ?length_refl; lia).
  now rewrite lc_def.
Qed.
End two.
(** Locking-condition transport when Metric is the dot product. *)
Section lc.
Variable d : nat.
Variable T : list R -> list R.
Variables eta tr : list R.
Notation lc := (@lc_transport A inner inner T eta tr).
Notation n1 := (@nu1 A inner inner T eta).
Notation n2 := (@nu2 A inner inner T eta tr).
Notation t1 := (@tau A inner n1).
Notation t2 := (@tau A inner n2).
Hypothesis He : length eta = d.
Hypothesis He0 : eta <> zero d.
Hypothesis HI : isometry d inner inner T.
Hypothesis HT0 : T eta <> zero d.
Hypothesis Htr : length tr = d.
Hypothesis Hnorm : inner tr tr = inner eta eta.
Hypothesis Hnu2 : n2 <> zero d.
Notation G := (inner_is_ip d).
Lemma T_length (v : list R) : length v = d -> length (T v) = d.
Proof. intros H. exact (proj1 (HI v v H H)). Qed.
Lemma L1 : length n1 = d. Proof. apply nu1_length. now apply T_length. Qed.
Lemma L2 : length n2 = d. Proof. apply nu2_length; auto. now apply T_length. Qed.
Lemma N1 : n1 <> zero d. Proof. apply nu1_neq; auto using inner_is_ip. now apply T_length. Qed.
Lemma refl_reflect (nu w : list R) : refl (@tau A inner nu) nu w = @reflect A inner nu w.
Proof. rewrite reflectE. unfold refl, tau. rewrite litE, q2. reflexivity. Qed.
Lemma lc_def (v : list R) : length v = d -> v <> zero d -> lc v = refl t2 n2 (refl t1 n1 (T v)).
Proof. intros. rewrite !refl_reflect. apply lcE with (d := d); auto using inner_is_ip. Qed.
Lemma back (v : list R) : length v = d -> v <> zero d -> refl t1 n1 (refl t2 n2 (lc v)) = T v.
Proof.
  intros Hv Hv0. rewrite lc_def by auto. pose proof (T_length v Hv).
  rewrite (refl_reflect n2 (refl t2 n2 _)), (refl_reflect n2 _).
  rewrite (reflect_twice big epsv d inner G n2 L2 Hnu2); [|rewrite length_refl; [auto|etransitivity; [exact L1|auto]]].
  rewrite (refl_reflect n1 (refl t1 n1 _)), (refl_reflect n1 _).
  now rewrite (reflect_twice big epsv d inner G n1 L1 N1).
Qed.
Lemma lc_len (v : list R) : length v = d -> length (lc v) = d.
Proof. intros. apply lc_length; auto using T_length. Qed.

Lemma lc_H_inv ell s (B H : ope) : (s + d <= ell)%nat ->
  (forall v w, length v = d -> length w = ell -> times ell B (replace s (T v) w) = times ell H (replace s v w)) ->
  forall v w, length v = d -> v <> zero d -> length w = ell ->
  times ell (lc_HInvTran (A := A) s n1 n2 t1 t2 B) (replace s (lc v) w) = times ell H (replace s v w).
Proof. apply two_H_inv; [exact L1|exact L2|exact T_length|exact lc_len|exact back]. Qed.
Lemma lc_T_H ell s (B H : ope) : (s + d <= ell)%nat ->
  (forall w, length w = ell -> times ell B w = replace s (T (block s d (times ell H w))) (times ell H w)) ->
  forall w, length w = ell -> block s d (times ell H w) <> zero d ->
  times ell (lc_TranH (A := A) s n1 n2 t1 t2 B) w = replace s (lc (block s d (times ell H w))) (times ell H w).
Proof. apply two_T_H; [exact L1|exact L2|exact T_length|exact lc_def]. Qed.
Lemma lc_T_H_inv (B H : ope) :
  (forall v, length v = d -> times d B (T v) = T (times d H v)) ->
  forall v, length v = d -> v <> zero d -> times d H v <> zero d ->
  times d (lc_TranHInvTran (A := A) n1 n2 t1 t2 B) (lc v) = lc (times d H v).
Proof. apply two_T_H_inv; [exact L1|exact L2|exact T_length|exact lc_len|exact lc_def|exact back]. Qed.
End lc.

Lemma lc_operators d T (eta res : list R) : isometry d inner inner T -> length eta = d -> eta <> zero d ->
  length res = d -> res <> zero d ->
  let tr := beta_TReta (A := A) inner inner eta res in
  comb 1 tr (T eta) <> zero d ->
  let lc := lc_transport (A := A) inner inner T eta tr in
  let n1 := nu1 (A := A) inner inner T eta in
  let n2 := nu2 (A := A) inner inner T eta tr in
  let t1 := tau (A := A) inner n1 in
  let t2 := tau (A := A) inner n2 in
  (forall B H : ope, (forall v, length v = d -> times d B (T v) = T (times d H v)) ->
     forall v, length v = d -> v <> zero d -> times d H v <> zero d ->
     times d (lc_TranHInvTran (A := A) n1 n2 t1 t2 B) (lc v) = lc (times d H v)) /\
  (forall ell s (B H : ope), (s + d <= ell)%nat ->
     (forall v w, length v = d -> length w = ell -> times ell B (replace s (T v) w) = times ell H (replace s v w)) ->
     forall v w, length v = d -> v <> zero d -> length w = ell ->
     times ell (lc_HInvTran (A := A) s n1 n2 t1 t2 B) (replace s (lc v) w) = times ell H (replace s v w)) /\
  (forall ell s (B H : ope), (s + d <= ell)%nat ->
     (forall w, length w = ell -> times ell B w = replace s (T (block s d (times ell H w))) (times ell H w)) ->
     forall w, length w = ell -> block s d (times ell H w) <> zero d ->
     times ell (lc_TranH (A := A) s n1 n2 t1 t2 B) w = replace s (lc (block s d (times ell H w))) (times ell H w)).
Proof.
  intros HI He H0 Hr Hr0 tr Hn lc n1 n2 t1 t2.
  destruct (beta_norm big epsv d inner inner (inner_is_ip d) (inner_is_ip d) eta res He H0 Hr Hr0) as [Lt Nt]. fold tr in Lt, Nt.
  pose proof (isometry_neq d inner inner (inner_is_ip d) (inner_is_ip d) T eta HI He H0) as HT0.
  pose proof (nu2_neq big epsv d inner inner (inner_is_ip d) T eta tr HI He H0 Lt Hn) as N2.
  repeat split; intros.
  - now apply lc_T_H_inv.
  - now apply lc_H_inv with (d := d).
  - now apply lc_T_H with (d := d).
Qed.
End ops.
