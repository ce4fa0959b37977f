(** Vectors as lists of real numbers. *)
From Coq Require Import List Arith Reals Lra Lia QArith Qreals.
Import ListNotations.
From Verif Require Import Arith MatOpsModel MatOpsReal TangentModel TangentSpec.
Local Close Scope Q_scope.
Local Open Scope R_scope.

Section real.
Variables big epsv : R.
Notation A := (R_arith big epsv).
Lemma litE q : lit (A := A) q = Q2R q. Proof. reflexivity. Qed.
Lemma q2 : Q2R 2 = 2. Proof. unfold Q2R. cbn. lra. Qed.
Lemma qm2 : Q2R (-2) = -2. Proof. unfold Q2R. cbn. lra. Qed.
Lemma qhalf : Q2R (1#2) = /2. Proof. unfold Q2R. cbn. lra. Qed.
Lemma dotpE (u v : list R) : dotp (A := A) u v = inner u v.
Proof. revert v; induction u as [|a u IH]; intros [|b v]; cbn; rewrite ?IH, ?q0; reflexivity. Qed.
Lemma axpyE a (u v : list R) : axpy (A := A) a u v = comb a u v.
Proof.
  unfold axpy. revert v; induction u as [|x u IH]; intros [|y v]; cbn; auto.
  f_equal. apply IH.
Qed.
Lemma length_comb a u v : length u = length v -> length (comb a u v) = length v.
Proof. revert v; induction u as [|x u IH]; intros [|y v]; cbn; intros; auto; discriminate || auto. Qed.
Lemma length_scal a (v : list R) : length (scal (A := A) a v) = length v.
Proof. apply map_length. Qed.
Lemma length_scal_R a (v : list R) : @length R (scal (A := A) a v) = length v.
Proof. apply map_length. Qed.
Lemma nth_comb a u v i : length u = length v -> nth i (comb a u v) 0 = a * nth i u 0 + nth i v 0.
Proof.
  revert v i; induction u as [|x u IH]; intros [|y v] [|i] H; cbn in *; try discriminate; try lra; auto; rewrite ?Rmult_0_r, ?Rplus_0_r; auto.
Qed.
Lemma nth_scal a (v : list R) i : nth i (scal (A := A) a v) 0 = a * nth i v 0.
Proof.
  revert i; induction v as [|x v IH]; intros [|i]; cbn; try (symmetry; apply Rmult_0_r); auto.
Qed.
Lemma nth_scal_R a (v : list R) i : @nth R i (scal (A := A) a v) 0 = a * nth i v 0.
Proof. apply nth_scal. Qed.
Lemma nth_zero d i : nth i (zero d) 0 = 0.
Proof. unfold zero. destruct (lt_dec i d); [now rewrite nth_repeat|now rewrite nth_overflow by (rewrite repeat_length; lia)]. Qed.
Lemma vec_eq (u v : list R) : length u = length v -> (forall i, (i < length u)%nat -> nth i u 0 = nth i v 0) -> u = v.
Proof. intros H1 H2. now apply nth_ext with (d := 0) (d' := 0). Qed.
Lemma length_zero d : length (zero d) = d. Proof. apply repeat_length. Qed.
Lemma scalE a (v : list R) : scal (A := A) a v = comb a v (zero (length v)).
Proof.
  apply vec_eq.
  - rewrite length_scal, length_comb; now rewrite length_zero.
  - intros i _. rewrite nth_scal, nth_comb by now rewrite length_zero. rewrite nth_zero. lra.
Qed.
Lemma inner_comb a u v w : length u = length v -> inner (comb a u v) w = a * inner u w + inner v w.
Proof.
  revert v w; induction u as [|x u IH]; intros [|y v] [|z w] H; cbn in *; try discriminate; try lra.
  rewrite IH by auto. lra.
Qed.
Lemma inner_sym u v : inner u v = inner v u.
Proof. revert v; induction u as [|x u IH]; intros [|y v]; cbn; auto. rewrite IH. lra. Qed.
Lemma inner_zero_l d v : inner (zero d) v = 0.
Proof. unfold zero. revert v; induction d; intros [|y v]; cbn; auto. rewrite IHd. lra. Qed.
Lemma inner_scal a (u v : list R) : inner (scal (A := A) a u) v = a * inner u v.
Proof. rewrite scalE, inner_comb by now rewrite length_zero. rewrite inner_zero_l. lra. Qed.
Lemma inner_ge0 v : 0 <= inner v v.
Proof. induction v; cbn; [lra|]. pose proof (Rle_0_sqr a). unfold Rsqr in *. lra. Qed.
Lemma inner_pos v : v <> zero (length v) -> 0 < inner v v.
Proof.
  unfold zero. induction v as [|x v IH]; cbn; intros H; [now elim H|].
  pose proof (inner_ge0 v). destruct (Req_dec x 0) as [->|Hx].
  - assert (v <> repeat 0 (length v)) by (intro E; apply H; now rewrite <- E). specialize (IH H1). lra.
  - assert (0 < x * x) by nra. lra.
Qed.
Lemma inner_is_ip d : inner_product d inner.
Proof.
  split.
  - intros; apply inner_comb; congruence.
  - intros; apply inner_sym.
  - intros v <- H. now apply inner_pos.
Qed.

(** Laws of an inner product on lists of length d. *)
Section ip.
Variable d : nat.
Variable g : list R -> list R -> R.
Hypothesis G : inner_product d g.
Lemma g_zero w : length w = d -> g (zero d) w = 0.
Proof.
  intros Hw. pose proof (ip_comb _ _ G 1 (zero d) (zero d) w) as H.
  rewrite !length_zero in H. assert (E : comb 1 (zero d) (zero d) = zero d).
  { apply vec_eq; rewrite ?length_comb, ?length_zero; auto. intros i _. rewrite nth_comb, nth_zero; auto. lra. }
  rewrite E in H. specialize (H eq_refl eq_refl Hw). lra.
Qed.
Lemma g_scal a (u w : list R) : length u = d -> length w = d -> g (scal (A := A) a u) w = a * g u w.
Proof.
  intros Hu Hw. rewrite scalE, (ip_comb _ _ G), Hu, g_zero; rewrite ?length_zero; auto; lra.
Qed.
Lemma g_combr a u v w : length u = d -> length v = d -> length w = d ->
  g w (comb a u v) = a * g w u + g w v.
Proof.
  intros Hu Hv Hw. rewrite (ip_sym _ _ G), (ip_comb _ _ G), !(ip_sym _ _ G w); auto.
  rewrite length_comb; congruence.
Qed.
Lemma g_scalr a (u w : list R) : length u = d -> length w = d -> g w (scal (A := A) a u) = a * g w u.
Proof. intros. rewrite (ip_sym _ _ G), g_scal, (ip_sym _ _ G u); auto. now rewrite length_scal. Qed.
Lemma g_ge0 v : length v = d -> 0 <= g v v.
Proof.
  intros H. destruct (list_eq_dec Req_EM_T v (zero d)) as [->|E]; [rewrite g_zero; auto using length_zero; lra|].
  left. now apply (ip_pos _ _ G).
Qed.
End ip.
End real.
Ltac vlen := repeat first [rewrite length_scal_R | rewrite length_scal | rewrite length_comb | rewrite length_zero]; cbn [Arith.F R_arith] in *; auto; try congruence.
Ltac vext := apply vec_eq; [vlen|intros ? _; repeat (rewrite nth_comb by vlen); rewrite ?nth_scal_R, ?nth_scal, ?nth_zero; repeat (rewrite nth_comb by vlen); rewrite ?nth_scal_R, ?nth_scal].
