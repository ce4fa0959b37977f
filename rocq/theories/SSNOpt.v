(** Proofs about the proximal mapping on a tangent space, exact arithmetic: the step solves a
    minimisation problem. *)
From Coq Require Import List Arith Reals Lra Lia QArith Qreals Bool.
Import ListNotations.
From Verif Require Import Arith MatOpsModel MatOpsReal TangentModel TangentSpec TangentProofs TangentOps TangentSphere ProxModel ProxProofs ProxReal.
From Verif Require Import SSNModel SSNSpec SSNProofs.
Local Close Scope Q_scope.
Local Open Scope R_scope.

Lemma q1 : Q2R 1 = 1. Proof. unfold Q2R. cbn. lra. Qed.
Lemma qm1 : Q2R (-1) = -1. Proof. unfold Q2R. cbn. lra. Qed.

(** The weighted inner product. *)
Definition wip (W : list R) (d : nat) (u v : list R) : R :=
  entry_sum d (fun k => entry_weight W d k * (nth k u 0 * nth k v 0)).
Lemma wsqE W v : wsq W v = wip W (length v) v v.
Proof. apply es_ext. intros. cbn. rewrite Rmult_1_r. reflexivity. Qed.
Lemma wsqE' W d v : length v = d -> wsq W v = wip W d v v.
Proof. intros <-. apply wsqE. Qed.
Lemma weight_pos W d k : good_weights W d -> (k < d)%nat -> 0 < entry_weight W d k.
Proof.
  intros (Hn & Hp & Hd) Hk. apply Hp. apply nth_In. apply block_index.
  rewrite whole; auto. destruct W; [easy|discriminate].
Qed.
Lemma es_ge0 n f : (forall i, (i < n)%nat -> 0 <= f i) -> 0 <= entry_sum n f.
Proof. induction n as [|n IH]; intros H; [cbn; lra|]. rewrite es_S. assert (0 <= f n) by (apply H; lia). assert (0 <= entry_sum n f) by (apply IH; auto). lra. Qed.
Lemma es_pos n f k : (forall i, (i < n)%nat -> 0 <= f i) -> (k < n)%nat -> 0 < f k -> 0 < entry_sum n f.
Proof.
  induction n as [|n IH]; intros H Hk Hf; [lia|]. rewrite es_S.
  destruct (Nat.eq_dec k n) as [->|E].
  - assert (0 <= entry_sum n f) by (apply es_ge0; auto). lra.
  - assert (0 <= f n) by (apply H; lia). assert (0 < entry_sum n f) by (apply IH; auto; lia). lra.
Qed.
Lemma nonzero_entry d v : length v = d -> v <> zero d -> exists k, (k < d)%nat /\ nth k v 0 <> 0.
Proof.
  intros <-. unfold zero. induction v as [|a v IH]; intros H; [now elim H|].
  destruct (Req_dec a 0) as [->|Ha]; [|exists 0%nat; cbn; split; [lia|easy]].
  destruct IH as (k & Hk & E); [intros E; apply H; cbn; now rewrite <- E|]. exists (S k). cbn. split; [lia|easy].
Qed.
Lemma wip_ip W d : good_weights W d -> inner_product d (wip W d).
Proof.
  intros HW. split.
  - intros a u v w Hu Hv Hw. unfold wip. rewrite <- es_scal, <- es_add. apply es_ext. intros.
    rewrite nth_comb by congruence. ring.
  - intros. apply es_ext. intros. ring.
  - intros v Hv Hn. destruct (nonzero_entry d v Hv Hn) as (k & Hk & E).
    apply es_pos with k; auto.
    + intros i Hi. pose proof (weight_pos W d i HW Hi). apply Rmult_le_pos; [lra|apply Rle_0_sqr].
    + apply Rmult_lt_0_compat; [now apply weight_pos|]. now apply Rsqr_pos_lt.
Qed.

(** Zero and minus. *)
Lemma comb_zero_r a u d : length u = d -> comb a u (zero d) = map (Rmult a) u.
Proof. intros <-. unfold zero. induction u as [|b u IH]; cbn; auto. now rewrite IH, Rplus_0_r. Qed.
Lemma comb_m1 u d : length u = d -> comb (-1) u u = zero d.
Proof. intros <-. unfold zero. induction u as [|b u IH]; cbn; auto. rewrite IH. f_equal. ring. Qed.
Lemma comb_minus_eq u v : length u = length v -> comb (-1) u v = zero (length v) -> v = u.
Proof.
  revert v. unfold zero. induction u as [|a u IH]; intros [|b v] H; cbn in *; try discriminate; auto. intros [= E1 E2].
  f_equal; [lra|]. apply IH; auto.
Qed.

Section opt.
Variables big eps : R.
Notation A := (R_arith big eps).
Variables N E proj : list R -> list R.
Variable m : nat.
Variables x g W : list R.
Notation d := (length x).
Hypothesis NS : normal_space d m N E proj.
Hypothesis HW : good_weights W d.
Hypothesis Hg : length g = d.
Notation G := (wip_ip W d HW).
Notation ip := (wip W d).
Notation scale := (@scale_blocks A x W).
Notation bl := (@blambda A E x g W).

Lemma length_scale (v : list R) : length (scale v : list R) = length v.
Proof. unfold scale_blocks. now rewrite map_length, seq_length. Qed.
Lemma nth_scale (v : list R) k : length v = d -> (k < d)%nat -> nth k (scale v : list R) 0 = 1 / entry_weight W d k * nth k v 0.
Proof.
  clear NS Hg. intros Hv Hk. unfold scale_blocks. cbn [Arith.F R_arith]. rewrite Hv, map_seq_nth by auto. cbv zeta.
  destruct HW as (Hn & Hp & Hd). rewrite whole; auto; [|destruct W; easy].
  destruct (Nat.ltb_spec k d); [|lia]. unfold entry_weight. rewrite !litE, q1, q0. reflexivity.
Qed.
Lemma ip_scale (v u : list R) : length v = d -> length u = d -> ip (scale v) u = inner v u.
Proof.
  intros Hv Hu. rewrite inner_es by congruence. unfold wip. rewrite Hv. apply es_ext. intros k Hk.
  rewrite nth_scale by auto. pose proof (weight_pos W d k HW Hk). field. lra.
Qed.
Lemma blE (z : list R) : length z = m -> exists s : list R, length s = d /\ (bl z : list R) = comb (-1) s x /\
  forall u, length u = d -> ip s u = inner g u - inner (N u) z.
Proof.
  intros Hz. pose proof (ns_lenE _ _ _ _ _ NS z Hz) as HE.
  exists (scale (comb 1 g (comb (-1) (E z) (zero d)))).
  assert (L : length (comb 1 g (comb (-1) (E z) (zero d))) = d) by vlen.
  split; [now rewrite length_scale|]. split.
  - unfold blambda. rewrite !axpyE, !scalE, !litE, q1, qm1. cbn [Arith.F R_arith] in *. rewrite HE.
    apply vec_eq.
    + vlen; rewrite ?length_scale; vlen. 
    + intros i _. repeat rewrite nth_comb by (vlen; rewrite ?length_scale; vlen). rewrite nth_zero. ring.
  - intros u Hu. rewrite ip_scale by auto. rewrite !inner_comb by vlen. rewrite inner_zero_l.
    rewrite (inner_sym (E z)), <- (ns_adj _ _ _ _ _ NS) by auto. ring.
Qed.

Section prox.
Variable h : list R -> R.
Variable P : list R -> list R.
Hypothesis HP : is_prox d W h P.
Notation obj := (objective g W h x).
Definition eta (z : list R) : list R := comb (-1) x (P (bl z)).
Lemma length_bl (z : list R) : length z = m -> length (bl z : list R) = d.
Proof. intros Hz. destruct (blE z Hz) as (s & Hs & -> & _). vlen. Qed.
Lemma length_P (z : list R) : length z = m -> length (P (bl z)) = d.
Proof. intros Hz. apply HP. now apply length_bl. Qed.
Lemma length_eta z : length z = m -> length (eta z) = d.
Proof. intros Hz. unfold eta. pose proof (length_P z Hz). vlen. Qed.
(** The prox objective at x + v is the Lagrangian at v, up to a constant. *)
Lemma lagrangian z : length z = m -> exists c, forall v, length v = d ->
  h (comb 1 v x) + wsq W (comb (-1) (bl z) (comb 1 v x)) / 2 = obj v - inner (N v) z + c.
Proof.
  intros Hz. destruct (blE z Hz) as (s & Hs & -> & Hip). exists (wsq W s / 2). intros v Hv.
  assert (EE : comb (-1) (comb (-1) s x) (comb 1 v x) = comb 1 v s).
  { apply vec_eq; [vlen|]. intros i _. repeat rewrite nth_comb by vlen. ring. }
  cbn [Arith.F R_arith] in *. rewrite EE. unfold objective.
  rewrite !(wsqE' W d) by vlen. rewrite (ip_comb _ _ G) by vlen. rewrite !(g_combr _ _ G) by vlen.
  rewrite (ip_sym _ _ G v s) by auto. rewrite Hip by auto. field.
Qed.
Lemma eta_point z : length z = m -> comb 1 (eta z) x = P (bl z).
Proof. intros Hz. pose proof (length_P z Hz). unfold eta. apply vec_eq; [vlen|]. intros i _. repeat rewrite nth_comb by vlen. ring. Qed.
Lemma lagrange_min z v : length z = m -> length v = d ->
  obj (eta z) - inner (N (eta z)) z <= obj v - inner (N v) z.
Proof.
  intros Hz Hv. destruct (lagrangian z Hz) as [c Hc]. pose proof (length_eta z Hz) as Le.
  pose proof (Hc v Hv) as E1. pose proof (Hc (eta z) Le) as E2.
  destruct (HP (bl z) (length_bl z Hz)) as [_ Hm]. specialize (Hm (comb 1 v x)).
  rewrite (eta_point z Hz) in E2. cbn [Arith.F R_arith] in *. rewrite E1, E2 in Hm. assert (length (comb 1 v x) = d) by vlen. specialize (Hm H). lra.
Qed.
(** With h convex the Lagrangian grows quadratically. *)
Lemma lagrange_growth z v : convex d h -> length z = m -> length v = d ->
  obj (eta z) - inner (N (eta z)) z + wsq W (comb (-1) (eta z) v) / 2 <= obj v - inner (N v) z.
Proof.
  intros Hh Hz Hv. pose proof (length_eta z Hz) as Le. set (e := eta z) in *. set (w := comb (-1) e v).
  assert (Lw : length w = d) by (unfold w; vlen).
  set (D := obj v - inner (N v) z - (obj e - inner (N e) z)).
  (* along the segment *)
  assert (Seg : forall t, 0 < t <= 1 -> 0 <= D - (1 - t) * (wsq W w / 2)).
  { intros t Ht. pose proof (lagrange_min z (comb t w e) Hz ltac:(vlen)) as H. fold e in H.
    assert (Hc : h (comb 1 (comb t w e) x) <= t * h (comb 1 v x) + (1 - t) * h (comb 1 e x)).
    { replace (comb 1 (comb t w e) x) with (comb t (comb (-1) (comb 1 e x) (comb 1 v x)) (comb 1 e x)).
      - apply Hh; [lra| |]; vlen.
      - unfold w. apply vec_eq; [vlen|]. intros i _. repeat rewrite nth_comb by vlen. ring. }
    assert (Hn : inner (N (comb t w e)) z = t * (inner (N v) z - inner (N e) z) + inner (N e) z).
    { unfold w. rewrite !(ns_lin _ _ _ _ _ NS) by vlen. rewrite !inner_comb; [ring| |]; vlen; rewrite ?length_comb; rewrite !(ns_len _ _ _ _ _ NS); auto. }
    assert (Hi : inner g (comb t w e) = t * (inner g v - inner g e) + inner g e).
    { unfold w. rewrite !inner_combr by vlen. ring. }
    assert (Hw2 : wsq W (comb t w e) = t * (wsq W v - wsq W e) + wsq W e - t * (1 - t) * wsq W w).
    { unfold w. rewrite !(wsqE' W d) by vlen.
      repeat first [rewrite (ip_comb _ _ G) by vlen | rewrite (g_combr _ _ G) by vlen]. rewrite (ip_sym _ _ G v e) by auto. ring. }
    unfold objective in H. rewrite Hn, Hi, Hw2 in H.
    assert (K : 0 <= t * (D - (1 - t) * (wsq W w / 2))).
    { unfold D, objective. nra. }
    destruct (Rle_dec 0 (D - (1 - t) * (wsq W w / 2))); [easy|]. nra. }
  assert (wsq W w / 2 <= D); [|unfold D in *; lra].
  assert (W0 : 0 <= wsq W w). { rewrite (wsqE' W d) by auto. apply g_ge0 with (d := d); auto. apply G. }
  destruct (Rle_dec (wsq W w / 2) D) as [?|Hn]; [easy|]. exfalso.
  destruct (Rle_dec D 0) as [HD|HD].
  - assert (S2 := Seg (1/2) ltac:(lra)). lra.
  - set (q := wsq W w / 2) in *. specialize (Seg ((q - D) / (2 * q))).
    assert (0 < (q - D) / (2 * q) <= 1).
    { split; [apply Rdiv_lt_0_compat; lra|]. apply Rmult_le_reg_r with (2 * q); [lra|]. unfold Rdiv. rewrite Rmult_assoc, Rinv_l; lra. }
    specialize (Seg H). assert ((1 - (q - D) / (2 * q)) * q = (q + D) / 2) by (field; lra). lra.
Qed.

Lemma ewE (z : list R) : length z = m -> (ew (A := A) N P x (bl z) : list R) = N (eta z).
Proof. intros Hz. unfold ew, eta. rewrite axpyE, litE, qm1. reflexivity. Qed.
Lemma stepE (z : list R) : length z = m -> (step_of (A := A) proj P x (bl z) : list R) = comb (-1) (E (N (eta z))) (eta z).
Proof.
  intros Hz. unfold step_of. rewrite axpyE, litE, qm1. fold (eta z). apply (ns_proj _ _ _ _ _ NS). now apply length_eta.
Qed.
Lemma N_zero : N (zero d) = zero m.
Proof.
  assert (E0 : zero d = comb (-1) x x) by (symmetry; now apply comb_m1). rewrite E0, (ns_lin _ _ _ _ _ NS) by auto.
  apply comb_m1. now apply (ns_len _ _ _ _ _ NS).
Qed.
Lemma step_tangent (z : list R) : length z = m -> N (comb (-1) (E (N (eta z))) (eta z)) = zero m.
Proof.
  intros Hz. pose proof (length_eta z Hz) as Le. pose proof (ns_len _ _ _ _ _ NS _ Le) as Ln.
  rewrite (ns_lin _ _ _ _ _ NS); auto using (ns_lenE _ _ _ _ _ NS). rewrite (ns_unit _ _ _ _ _ NS) by auto. now apply comb_m1.
Qed.
Lemma E_zero : E (zero m) = zero d.
Proof.
  pose proof (ns_lenE _ _ _ _ _ NS (zero m) (length_zero m)) as L.
  destruct (list_eq_dec Req_EM_T (E (zero m)) (zero d)) as [?|Hn]; [easy|].
  pose proof (inner_pos (E (zero m))) as H. rewrite L in H. specialize (H Hn).
  rewrite <- (ns_adj _ _ _ _ _ NS), inner_zero_r in H by auto using length_zero. lra.
Qed.
Lemma inner_self_zero v k : length v = k -> inner v v <= 0 -> v = zero k.
Proof.
  intros <- H. destruct (list_eq_dec Req_EM_T v (zero (length v))) as [?|Hn]; [easy|]. pose proof (inner_pos v Hn). lra.
Qed.
End prox.
End opt.
