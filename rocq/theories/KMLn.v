(** Bounds for the natural logarithm.  No part of the model. *)
From Coq Require Import Reals Lra Lia.
Local Open Scope R_scope.

Lemma ln_mvt p q : 0 < p < q -> exists c, p < c < q /\ ln q - ln p = (q - p) / c.
Proof.
intros [Hp Hq].
destruct (MVT_cor2 ln Rinv p q Hq) as [c [E Hc]].
- intros c Hc; apply derivable_pt_lim_ln; lra.
- exists c; split; [lra|]; rewrite E; unfold Rdiv; ring.
Qed.
Lemma inv_lip lo p q : 0 < lo -> lo <= p -> lo <= q -> Rabs (/ p - / q) <= Rabs (p - q) / (lo * lo).
Proof.
intros Hl Hp Hq; replace (/ p - / q) with ((q - p) * / (p * q)) by (field; lra).
rewrite Rabs_mult, Rabs_minus_sym; unfold Rdiv; apply Rmult_le_compat_l; [apply Rabs_pos|].
rewrite Rabs_right; [|apply Rle_ge; left; apply Rinv_0_lt_compat; apply Rmult_lt_0_compat; lra].
apply Rinv_le_contravar; [apply Rmult_lt_0_compat; lra|]; apply Rmult_le_compat; lra.
Qed.
Lemma ln_lip_lt lo p q : 0 < lo -> lo <= p -> p < q -> 0 <= ln q - ln p <= (q - p) / lo.
Proof.
intros Hl Hp Hq; destruct (ln_mvt p q) as [c [Hc E]]; [lra|]; rewrite E; split.
- unfold Rdiv; apply Rmult_le_pos; [lra|]; left; apply Rinv_0_lt_compat; lra.
- unfold Rdiv; apply Rmult_le_compat_l; [lra|]; apply Rinv_le_contravar; lra.
Qed.
Lemma ln_lip lo p q : 0 < lo -> lo <= p -> lo <= q -> Rabs (ln q - ln p) <= Rabs (q - p) / lo.
Proof.
intros Hl Hp Hq; destruct (Rtotal_order p q) as [H|[H|H]].
- destruct (ln_lip_lt lo p q Hl Hp H); rewrite !Rabs_right; lra.
- subst q; unfold Rminus; rewrite !Rplus_opp_r, Rabs_R0; unfold Rdiv; rewrite Rmult_0_l; lra.
- destruct (ln_lip_lt lo q p Hl Hq H); rewrite Rabs_minus_sym, (Rabs_minus_sym q), !Rabs_right; lra.
Qed.
(** The second divided difference. *)
Definition num3 p q r := (ln q - ln p) * (r - p) - (ln r - ln p) * (q - p).
Definition van p q r := (q - p) * (r - p) * (r - q).
Lemma num3_23 p q r : num3 p r q = - num3 p q r. Proof. unfold num3; ring. Qed.
Lemma num3_12 p q r : num3 q p r = - num3 p q r. Proof. unfold num3; ring. Qed.
Lemma van_23 p q r : van p r q = - van p q r. Proof. unfold van; ring. Qed.
Lemma van_12 p q r : van q p r = - van p q r. Proof. unfold van; ring. Qed.
Definition dd_ok lo p q r := Rabs (num3 p q r) <= Rabs (van p q r) / (lo * lo).
Lemma dd_23 lo p q r : dd_ok lo p q r -> dd_ok lo p r q.
Proof. unfold dd_ok; rewrite num3_23, van_23, !Rabs_Ropp; auto. Qed.
Lemma dd_12 lo p q r : dd_ok lo p q r -> dd_ok lo q p r.
Proof. unfold dd_ok; rewrite num3_12, van_12, !Rabs_Ropp; auto. Qed.
Lemma dd_sorted lo p q r : 0 < lo -> lo <= p -> p < q -> q < r -> dd_ok lo p q r.
Proof.
intros Hl Hp Hq Hr; destruct (ln_mvt p q) as [c [Hc E]]; [lra|]; destruct (ln_mvt q r) as [d [Hd F]]; [lra|].
unfold dd_ok; replace (num3 p q r) with ((ln q - ln p) * (r - q) - (ln r - ln q) * (q - p)) by (unfold num3; ring).
rewrite E, F; replace ((q - p) / c * (r - q) - (r - q) / d * (q - p)) with ((/ c - / d) * ((q - p) * (r - q))) by (field; lra).
rewrite Rabs_mult; unfold van; rewrite !Rabs_mult.
assert (B := inv_lip lo c d Hl ltac:(lra) ltac:(lra)).
assert (B2 : Rabs (c - d) <= Rabs (r - p)) by (rewrite Rabs_minus_sym, !Rabs_right; lra).
assert (0 < / (lo * lo)) by (apply Rinv_0_lt_compat, Rmult_lt_0_compat; lra).
apply Rle_trans with (Rabs (r - p) / (lo * lo) * (Rabs (q - p) * Rabs (r - q))).
- apply Rmult_le_compat_r; [apply Rmult_le_pos; apply Rabs_pos|].
  eapply Rle_trans; [exact B|]; unfold Rdiv; apply Rmult_le_compat_r; lra.
- right; unfold Rdiv; ring.
Qed.
Lemma dd_eq lo p q : 0 < lo -> dd_ok lo p p q.
Proof.
intros Hl; unfold dd_ok, num3, van; replace ((ln p - ln p) * (q - p) - (ln q - ln p) * (p - p)) with 0 by ring.
replace ((p - p) * (q - p) * (q - p)) with 0 by ring; rewrite Rabs_R0; unfold Rdiv; rewrite Rmult_0_l; lra.
Qed.
Lemma dd_all lo p q r : 0 < lo -> lo <= p -> lo <= q -> lo <= r -> dd_ok lo p q r.
Proof.
intros Hl Hp Hq Hr.
destruct (Rtotal_order p q) as [H1|[H1|H1]]; [|subst q; apply dd_eq, Hl|];
(destruct (Rtotal_order q r) as [H2|[H2|H2]]; [|subst r; apply dd_12, dd_23, dd_eq, Hl|]);
(destruct (Rtotal_order p r) as [H3|[H3|H3]]; [|subst r; apply dd_23, dd_eq, Hl|]); try lra.
- apply dd_sorted; assumption.
- apply dd_23, dd_sorted; assumption.
- apply dd_23, dd_12, dd_sorted; assumption.
- apply dd_12, dd_sorted; assumption.
- apply dd_12, dd_23, dd_sorted; assumption.
- apply dd_12, dd_23, dd_12, dd_sorted; assumption.
Qed.
(** The logarithm to first order along a chord or the tangent, as in Zptr of EucHessianEta. *)
Lemma ln_chord lo a a' b : 0 < lo -> lo <= a -> lo <= a' -> lo <= b -> a <> a' ->
  Rabs (ln b - ln a - (ln a - ln a') / (a - a') * (b - a)) <= / (lo * lo) * (Rabs (b - a) * Rabs (b - a')).
Proof.
intros Hl Ha Ha' Hb Hn; assert (H := dd_all lo a b a' Hl Ha Hb Ha'); unfold dd_ok, num3, van in H.
replace (ln b - ln a - (ln a - ln a') / (a - a') * (b - a)) with
  (((ln b - ln a) * (a' - a) - (ln a' - ln a) * (b - a)) * / (a' - a)) by (field; lra).
rewrite Rabs_mult; assert (P : 0 < Rabs (a' - a)) by (apply Rabs_pos_lt; lra).
rewrite Rabs_inv; apply Rmult_le_reg_r with (Rabs (a' - a)); [exact P|].
rewrite Rmult_assoc, Rinv_l, Rmult_1_r by lra; eapply Rle_trans; [exact H|].
rewrite !Rabs_mult, (Rabs_minus_sym a' b); right; unfold Rdiv; ring.
Qed.
Lemma ln_tangent lo a b : 0 < lo -> lo <= a -> lo <= b ->
  Rabs (ln b - ln a - / a * (b - a)) <= / (lo * lo) * (Rabs (b - a) * Rabs (b - a)).
Proof.
intros Hl Ha Hb.
assert (G : forall p q c, lo <= p -> p < c < q -> ln q - ln p = (q - p) / c -> forall t, (t = p \/ t = q) ->
  Rabs (ln q - ln p - / t * (q - p)) <= / (lo * lo) * (Rabs (q - p) * Rabs (q - p))).
{ intros p q c Hp Hc E t Ht; rewrite E.
  replace ((q - p) / c - / t * (q - p)) with ((/ c - / t) * (q - p)) by (unfold Rdiv; ring).
  rewrite Rabs_mult, <- Rmult_assoc; apply Rmult_le_compat_r; [apply Rabs_pos|].
  eapply Rle_trans; [apply (inv_lip lo); [exact Hl|lra|destruct Ht; lra]|].
  unfold Rdiv; rewrite Rmult_comm; apply Rmult_le_compat_l; [left; apply Rinv_0_lt_compat, Rmult_lt_0_compat; lra|].
  rewrite (Rabs_right (q - p)) by lra; apply Rabs_le; destruct Ht; lra. }
destruct (Rtotal_order a b) as [H|[H|H]].
- destruct (ln_mvt a b) as [c [Hc E]]; [lra|]; apply (G a b c); auto.
- subst b; replace (ln a - ln a - / a * (a - a)) with 0 by ring; unfold Rminus; rewrite Rplus_opp_r, Rabs_R0, !Rmult_0_r; lra.
- destruct (ln_mvt b a) as [c [Hc E]]; [lra|].
  assert (F := G b a c Hb Hc E a (or_intror eq_refl)).
  rewrite <- Rabs_Ropp; replace (- (ln b - ln a - / a * (b - a))) with (ln a - ln b - / a * (a - b)) by ring.
  rewrite (Rabs_minus_sym b a); exact F.
Qed.
(** Half of its square. *)
Lemma ln_square lo a b : 0 < lo -> lo <= a -> lo <= b ->
  Rabs (ln b * ln b / 2 - ln a * ln a / 2 - ln a / a * (b - a)) <= (1 + Rabs (ln a)) / (lo * lo) * ((b - a) * (b - a)).
Proof.
intros Hl Ha Hb; assert (T := ln_tangent lo a b Hl Ha Hb); assert (L := ln_lip lo a b Hl Ha Hb).
assert (Hi : 0 < / (lo * lo)) by (apply Rinv_0_lt_compat, Rmult_lt_0_compat; lra).
replace (ln b * ln b / 2 - ln a * ln a / 2 - ln a / a * (b - a)) with
  ((ln b - ln a) * (ln b - ln a) / 2 + ln a * (ln b - ln a - / a * (b - a))) by (field; lra).
assert (S : Rabs (b - a) * Rabs (b - a) = (b - a) * (b - a)).
{ rewrite <- Rabs_mult; apply Rabs_right, Rle_ge; fold (Rsqr (b - a)); apply Rle_0_sqr. }
eapply Rle_trans; [apply Rabs_triang|].
replace ((1 + Rabs (ln a)) / (lo * lo) * ((b - a) * (b - a))) with
  (/ (lo * lo) * ((b - a) * (b - a)) + Rabs (ln a) * (/ (lo * lo) * ((b - a) * (b - a)))) by (unfold Rdiv; ring).
apply Rplus_le_compat.
- assert (Q : Rabs (ln b - ln a) * Rabs (ln b - ln a) <= Rabs (b - a) / lo * (Rabs (b - a) / lo)) by (apply Rmult_le_compat; try apply Rabs_pos; exact L).
  replace (Rabs (b - a) / lo * (Rabs (b - a) / lo)) with (/ (lo * lo) * ((b - a) * (b - a))) in Q by (rewrite <- S; field; lra).
  unfold Rdiv; rewrite !Rabs_mult, (Rabs_right (/ 2)) by lra.
  assert (0 <= Rabs (ln b - ln a) * Rabs (ln b - ln a)) by (apply Rmult_le_pos; apply Rabs_pos); lra.
- rewrite Rabs_mult; apply Rmult_le_compat_l; [apply Rabs_pos|]; rewrite <- S; exact T.
Qed.
Lemma ln_zero a : 0 < a -> ln a = 0 -> a = 1.
Proof. intros H E; rewrite <- (exp_ln a H), E; apply exp_0. Qed.
(** The logarithmic mean is at most the arithmetic one. *)
Lemma ln_mean_lt a b : 0 < a < b -> 2 * (b - a) / (b + a) <= ln b - ln a.
Proof.
intros [Ha Hb].
destruct (MVT_cor2 (fun t => ln t - 2 * (t - a) / (t + a)) (fun t => / t - 2 * (2 * a) / ((t + a) * (t + a))) a b Hb) as [c [E Hc]].
- intros c Hc; replace (/ c - 2 * (2 * a) / ((c + a) * (c + a))) with
    (/ c - ((2 * (1 - 0)) * (c + a) - (1 + 0) * (2 * (c - a))) / Rsqr (c + a)) by (unfold Rsqr; field; lra).
  apply (derivable_pt_lim_minus ln (fun t => 2 * (t - a) / (t + a)));
    [apply derivable_pt_lim_ln; lra|].
  apply (derivable_pt_lim_div (fun t => 2 * (t - a)) (fun t => t + a)); [| |lra].
  + apply (derivable_pt_lim_scal (fun t => t - a) 2); apply (derivable_pt_lim_minus (fun t => t) (fun _ => a));
      [apply derivable_pt_lim_id|apply derivable_pt_lim_const].
  + apply (derivable_pt_lim_plus (fun t => t) (fun _ => a)); [apply derivable_pt_lim_id|apply derivable_pt_lim_const].
- replace (2 * (a - a) / (a + a)) with 0 in E by (field; lra).
  assert (0 <= (/ c - 2 * (2 * a) / ((c + a) * (c + a))) * (b - a)); [|lra].
  apply Rmult_le_pos; [|lra].
  replace (/ c - 2 * (2 * a) / ((c + a) * (c + a))) with (((c - a) * (c - a)) * / (c * ((c + a) * (c + a)))) by (field; lra).
  apply Rmult_le_pos; [fold (Rsqr (c - a)); apply Rle_0_sqr|].
  left; apply Rinv_0_lt_compat; repeat apply Rmult_lt_0_compat; lra.
Qed.
Lemma ln_mean a b : 0 < a -> 0 < b -> a <> b -> 2 <= (ln a - ln b) / (a - b) * (a + b).
Proof.
assert (G : forall p q, 0 < p < q -> 2 <= (ln q - ln p) / (q - p) * (q + p)).
{ intros p q H; assert (E := ln_mean_lt p q H).
  apply (Rmult_le_compat_r ((q + p) / (q - p))) in E; [|apply Rmult_le_pos; [lra|left; apply Rinv_0_lt_compat; lra]].
  replace (2 * (q - p) / (q + p) * ((q + p) / (q - p))) with 2 in E by (field; lra).
  replace ((ln q - ln p) / (q - p) * (q + p)) with ((ln q - ln p) * ((q + p) / (q - p))) by (field; lra); exact E. }
intros Ha Hb Hn; destruct (Rtotal_order a b) as [H|[H|H]]; [|lra|].
- replace ((ln a - ln b) / (a - b) * (a + b)) with ((ln b - ln a) / (b - a) * (b + a)) by (field; lra); apply G; lra.
- apply G; lra.
Qed.
