(** The sphere: exponential map, its derivative and adjoint, parallel translation. *)
From Coq Require Import List Arith Bool Reals Lra Lia QArith Qreals.
Import ListNotations.
From Verif Require Import Arith MatOpsModel MatOpsReal TangentModel TangentSpec TangentProofs TangentOps.
Local Close Scope Q_scope.
Local Open Scope R_scope.

Lemma inner_combr a (u v w : list R) : length u = length v -> inner w (comb a u v) = a * inner w u + inner w v.
Proof. intros. rewrite inner_sym, inner_comb, !(inner_sym w) by auto. reflexivity. Qed.
Lemma inner_zero_r d v : inner v (zero d) = 0.
Proof. rewrite inner_sym. apply inner_zero_l. Qed.
Lemma sqrt_pos_inner v : v <> zero (length v) -> 0 < sqrt (inner v v).
Proof. intros. apply sqrt_lt_R0. now apply inner_pos. Qed.
Lemma sqrt_inner v : sqrt (inner v v) * sqrt (inner v v) = inner v v.
Proof. apply sqrt_sqrt, inner_ge0. Qed.

Ltac inn := repeat first [rewrite inner_comb by vlen | rewrite inner_combr by vlen]; rewrite ?inner_zero_l, ?inner_zero_r.
Section sphere.
Variables big epsv : R.
Notation A := (R_arith big epsv).
Lemma lincombE a b (u v : list R) : length u = length v ->
  lincomb (A := A) a u b v = comb a u (comb b v (zero (length v))).
Proof. intros. unfold lincomb. now rewrite axpyE, scalE. Qed.

Section exp.
Variables x eta : list R.
Hypothesis Hx : unit_vec x.
Hypothesis He : tangent x eta.
Hypothesis H0 : eta <> zero (length x).
Notation n := (sqrt (inner eta eta)).
Lemma n_pos : 0 < n.
Proof. apply sqrt_pos_inner. destruct He as [-> _]. exact H0. Qed.
Lemma raw_norm : let r := comb (cos n) x (comb (sin n / n) eta (zero (length eta))) in inner r r = 1.
Proof.
  destruct He as [L E]. pose proof n_pos. pose proof (sqrt_inner eta) as S. pose proof (sin2_cos2 n) as P. unfold Rsqr in P.
  cbv zeta. inn. set (m := n) in *. clearbody m. rewrite (inner_sym eta x), E, Hx, <- S.
  transitivity (sin m * sin m + cos m * cos m); [field; lra|exact P].
Qed.
Lemma exp_eq : exp_retraction (A := A) sin cos x eta = comb (cos n) x (comb (sin n / n) eta (zero (length eta))).
Proof.
  destruct He as [L E]. unfold exp_retraction. rewrite !dotpE. cbn [fsqrt R_arith].
  cbn [fdiv R_arith]. rewrite lincombE by auto. rewrite raw_norm, sqrt_1, litE.
  replace (Q2R 1) with 1 by (symmetry; apply q1).
  replace (1 / 1) with 1 by lra. rewrite scalE. vext. lra.
Qed.
Lemma exp_unit : unit_vec (exp_retraction (A := A) sin cos x eta).
Proof. rewrite exp_eq. exact raw_norm. Qed.
Lemma exp_length : length (exp_retraction (A := A) sin cos x eta) = length x.
Proof. rewrite exp_eq. destruct He. vlen. Qed.
End exp.

Lemma projection_eq (x v : list R) : length v = length x ->
  sphere_projection (A := A) x v = comb (- inner x v) x v.
Proof.
  intros L. unfold sphere_projection. rewrite axpyE, dotpE, !litE, qhalf. cbn [fadd fmul R_arith].
  replace (Q2R (-1)) with (-1) by (unfold Q2R; cbn; lra). f_equal. lra.
Qed.
Lemma diff_eq (x eta xi : list R) : length eta = length x -> length xi = length x ->
  let n := sqrt (inner eta eta) in
  exp_diff (A := A) sin cos x eta xi =
  comb ((cos n - sin n / n) * inner eta xi / n / n) eta
    (comb (- sin n * inner eta xi / n) x (comb (sin n / n) xi (zero (length xi)))).
Proof.
  intros L1 L2. unfold exp_diff. rewrite axpyE, !dotpE. cbn [fadd fmul fdiv fsub fopp fsqrt R_arith].
  now rewrite lincombE by congruence.
Qed.
Lemma cot_eq (x eta w : list R) : length eta = length x -> length w = length x ->
  let n := sqrt (inner eta eta) in
  exp_cotangent (A := A) sin cos x eta w =
  sphere_projection (A := A) x (comb (sin n / n) w
   (comb ((inner w eta * cos n / n - inner x w * sin n - inner w eta * sin n / n / n) / n) eta (zero (length eta)))).
Proof.
  intros L1 L2. unfold exp_cotangent. rewrite !dotpE. cbn [fadd fmul fdiv fsub fopp fsqrt R_arith].
  now rewrite lincombE by congruence.
Qed.
Lemma cotangent_adjoint (x eta xi w : list R) : unit_vec x -> tangent x eta -> tangent x xi ->
  eta <> zero (length x) -> length w = length x ->
  tangent x (exp_cotangent (A := A) sin cos x eta w) /\
  inner (exp_cotangent (A := A) sin cos x eta w) xi = inner w (exp_diff (A := A) sin cos x eta xi).
Proof.
  intros Hx He Hxi H0 Hw. pose proof (n_pos x eta He H0) as N. destruct He as [L E], Hxi as [L2 E2].
  rewrite cot_eq, diff_eq by auto. rewrite projection_eq by vlen.
  set (n := sqrt _) in *. set (v := comb (sin n / n) w _). assert (Lv : length v = length x) by (unfold v; vlen).
  split; [split; [vlen|]|].
  - rewrite inner_combr, Hx by congruence. lra.
  - rewrite inner_comb, E2 by congruence. unfold v. inn.
    rewrite (inner_sym w x). field. lra.
Qed.
Lemma diff_tangent (x eta xi : list R) : unit_vec x -> tangent x eta -> tangent x xi -> eta <> zero (length x) ->
  tangent (exp_retraction (A := A) sin cos x eta) (exp_diff (A := A) sin cos x eta xi).
Proof.
  intros Hx He Hxi H0. pose proof (n_pos x eta He H0) as N. rewrite exp_eq by auto. destruct He as [L E], Hxi as [L2 E2].
  rewrite diff_eq by auto. pose proof (sqrt_inner eta) as S.
  set (n := sqrt _) in *. split; [vlen|].
  inn. rewrite (inner_sym eta x), E, E2, Hx, <- S. field. lra.
Qed.

(** Derivative along t -> eta + t xi. *)
Lemma norm_line (eta xi : list R) t : length xi = length eta ->
  inner (comb t xi eta) (comb t xi eta) = inner eta eta + 2 * inner eta xi * t + inner xi xi * (t * t).
Proof.
  intros. rewrite inner_comb, !inner_combr by auto. rewrite (inner_sym xi eta). lra.
Qed.
Lemma dlim f z l l' : derivable_pt_lim f z l -> l = l' -> derivable_pt_lim f z l'.
Proof. now intros H <-. Qed.
Lemma norm_derivative (eta xi : list R) : length xi = length eta -> eta <> zero (length eta) ->
  derivable_pt_lim (fun t => sqrt (inner (comb t xi eta) (comb t xi eta))) 0 (inner eta xi / sqrt (inner eta eta)).
Proof.
  intros L H0. pose proof (inner_pos eta H0) as P. pose proof (sqrt_pos_inner eta H0) as P2.
  apply derivable_pt_lim_ext with (f := fun t => sqrt (inner eta eta + 2 * inner eta xi * t + inner xi xi * (t * t))).
  { intros t. now rewrite norm_line. }
  set (q := fun t => inner eta eta + 2 * inner eta xi * t + inner xi xi * (t * t)).
  assert (Hq : derivable_pt_lim q 0 (2 * inner eta xi)).
  { apply dlim with (0 + (2 * inner eta xi * 1) + inner xi xi * (1 * 0 + 0 * 1)); [|lra]. unfold q.
    apply (derivable_pt_lim_plus (fun t => inner eta eta + 2 * inner eta xi * t) (fun t => inner xi xi * (t * t))).
    - apply (derivable_pt_lim_plus (fun _ => inner eta eta) (fun t => 2 * inner eta xi * t)).
      + apply derivable_pt_lim_const.
      + apply (derivable_pt_lim_scal id). apply derivable_pt_lim_id.
    - apply (derivable_pt_lim_scal (fun t => t * t)). apply (derivable_pt_lim_mult id id); apply derivable_pt_lim_id. }
  replace (inner eta xi / sqrt (inner eta eta)) with (/ (2 * sqrt (q 0)) * (2 * inner eta xi)).
  - apply (derivable_pt_lim_comp q sqrt); auto. apply derivable_pt_lim_sqrt. unfold q. lra.
  - replace (q 0) with (inner eta eta) by (unfold q; ring). field. lra.
Qed.
Lemma raw_derivative (x eta xi : list R) i : length eta = length x -> length xi = length x -> eta <> zero (length eta) ->
  derivable_pt_lim (fun t => let e := comb t xi eta in let m := sqrt (inner e e) in
    nth i (comb (cos m) x (comb (sin m / m) e (zero (length e)))) 0) 0
  (nth i (exp_diff (A := A) sin cos x eta xi) 0).
Proof.
  intros L1 L2 H0. pose proof (sqrt_pos_inner eta H0) as P. pose proof (norm_derivative eta xi ltac:(congruence) H0) as D.
  rewrite diff_eq by auto. cbv zeta.
  set (N := fun t => sqrt (inner (comb t xi eta) (comb t xi eta))) in *.
  assert (N0 : N 0 = sqrt (inner eta eta)).
  { unfold N. rewrite norm_line by congruence. f_equal. lra. }
  rewrite <- N0 in *. set (n' := inner eta xi / N 0) in *.
  apply derivable_pt_lim_ext with (f := fun t => cos (N t) * nth i x 0 + sin (N t) / N t * (t * nth i xi 0 + nth i eta 0)).
  { intros t. assert (length (comb t xi eta) = length x) by vlen.
    repeat (rewrite nth_comb by vlen). rewrite nth_zero. unfold N. lra. }
  assert (DC : derivable_pt_lim (fun t => cos (N t)) 0 (- sin (N 0) * n')).
  { apply (derivable_pt_lim_comp N cos); auto. apply derivable_pt_lim_cos. }
  assert (DS : derivable_pt_lim (fun t => sin (N t)) 0 (cos (N 0) * n')).
  { apply (derivable_pt_lim_comp N sin); auto. apply derivable_pt_lim_sin. }
  assert (DQ : derivable_pt_lim (fun t => sin (N t) / N t) 0 ((cos (N 0) * n' * N 0 - n' * sin (N 0)) / Rsqr (N 0))).
  { apply (derivable_pt_lim_div (fun t => sin (N t)) N); auto. lra. }
  assert (DL : derivable_pt_lim (fun t => t * nth i xi 0 + nth i eta 0) 0 (nth i xi 0)).
  { apply dlim with (1 * nth i xi 0 + 0 * 0 + 0); [|lra].
    apply (derivable_pt_lim_plus (fun t => t * nth i xi 0) (fun _ => nth i eta 0)); [|apply derivable_pt_lim_const].
    apply (derivable_pt_lim_mult id (fun _ => nth i xi 0)); [apply derivable_pt_lim_id|apply derivable_pt_lim_const]. }
  repeat (rewrite nth_comb by vlen). rewrite nth_zero.
  match goal with |- derivable_pt_lim _ _ ?l => replace l with
    ((- sin (N 0) * n' * nth i x 0 + cos (N 0) * 0) +
     ((cos (N 0) * n' * N 0 - n' * sin (N 0)) / Rsqr (N 0) * (0 * nth i xi 0 + nth i eta 0) + sin (N 0) / N 0 * nth i xi 0)) end.
  - apply (derivable_pt_lim_plus (fun t => cos (N t) * nth i x 0) (fun t => sin (N t) / N t * (t * nth i xi 0 + nth i eta 0))).
    + apply (derivable_pt_lim_mult (fun t => cos (N t)) (fun _ => nth i x 0)); auto. apply derivable_pt_lim_const.
    + apply (derivable_pt_lim_mult (fun t => sin (N t) / N t) (fun t => t * nth i xi 0 + nth i eta 0)); auto.
  - unfold Rsqr, n'. field. lra.
Qed.
Lemma nonzero_near (eta xi : list R) : length xi = length eta -> eta <> zero (length eta) ->
  exists r, 0 < r /\ forall t, - r < t < r -> comb t xi eta <> zero (length eta).
Proof.
  intros L H0. pose proof (inner_pos eta H0) as P. pose proof (inner_ge0 xi) as P1.
  set (b := Rabs (inner eta xi)). assert (0 <= b) by apply Rabs_pos.
  exists (inner eta eta / (2 * b + 1 + inner eta eta)). split.
  - apply Rdiv_lt_0_compat; lra.
  - intros t Ht E. pose proof (norm_line eta xi t L) as N. rewrite E, inner_zero_l in N.
    assert (Ht' : Rabs t < inner eta eta / (2 * b + 1 + inner eta eta)) by (apply Rabs_def1; lra).
    assert (B : Rabs (inner eta xi * t) <= b * Rabs t) by (rewrite Rabs_mult; unfold b; lra).
    apply (Rmult_lt_compat_r (2 * b + 1 + inner eta eta)) in Ht'; [|lra].
    unfold Rdiv in Ht'. rewrite Rmult_assoc, Rinv_l, Rmult_1_r in Ht' by lra.
    pose proof (Rabs_pos t). pose proof (Rle_abs (- (inner eta xi * t))) as B2. rewrite Rabs_Ropp in B2.
    assert (0 <= inner xi xi * (t * t)) by (apply Rmult_le_pos; nra). nra.
Qed.
Lemma exp_derivative (x eta xi : list R) i : unit_vec x -> tangent x eta -> tangent x xi -> eta <> zero (length x) ->
  derivable_pt_lim (fun t => nth i (exp_retraction (A := A) sin cos x (comb t xi eta)) 0) 0
    (nth i (exp_diff (A := A) sin cos x eta xi) 0).
Proof.
  intros Hx He Hxi H0. assert (H0' : eta <> zero (length eta)) by (destruct He as [-> _]; auto).
  assert (Lxe : length xi = length eta) by (destruct He, Hxi; congruence).
  destruct (nonzero_near eta xi Lxe H0') as (r & Hr & Hn).
  apply derivable_pt_lim_locally_ext with (a := - r) (b := r) (f := fun t => let e := comb t xi eta in let m := sqrt (inner e e) in
    nth i (comb (cos m) x (comb (sin m / m) e (zero (length e)))) 0).
  - lra.
  - intros t Ht. cbv zeta. rewrite exp_eq; auto.
    + destruct He as [L E], Hxi as [L2 E2]. split; [vlen|]. rewrite inner_combr, E, E2 by auto. lra.
    + destruct He as [<- _]. now apply Hn.
  - destruct He, Hxi. now apply raw_derivative.
Qed.

(** Parallel translation. *)
Section par.
Variables x y : list R.
Hypothesis Hx : unit_vec x.
Hypothesis Hy : unit_vec y.
Hypothesis L : length y = length x.
Hypothesis H : comb 1 y x <> zero (length x).
Notation u := (comb 1 y x).
Lemma xpyE : xpy (A := A) x y = u.
Proof. unfold xpy. rewrite axpyE, litE. now rewrite q1. Qed.
Lemma uu : inner u u = 2 + 2 * inner x y /\ 2 + 2 * inner x y <> 0.
Proof.
  assert (E : inner u u = 2 + 2 * inner x y).
  { rewrite inner_comb, !inner_combr by auto. rewrite Hx, Hy, (inner_sym y x). lra. }
  split; auto. rewrite <- E. assert (0 < inner u u); [|lra]. apply inner_pos. rewrite length_comb; auto.
Qed.
Lemma transportE (v : list R) : length v = length x ->
  exp_transport (A := A) x y v = comb (-2 * inner v y / (2 + 2 * inner x y)) u v.
Proof.
  intros. unfold exp_transport. rewrite axpyE, !dotpE, xpyE, litE, qm2. destruct uu as [-> _]. reflexivity.
Qed.
Lemma inverseE (v : list R) : length v = length x ->
  exp_inverse_transport (A := A) x y v = comb (-2 * inner v x / (2 + 2 * inner x y)) u v.
Proof.
  intros. unfold exp_inverse_transport. rewrite axpyE, !dotpE, xpyE, litE, qm2. destruct uu as [-> _]. reflexivity.
Qed.
Lemma transport_tangent (v : list R) : tangent x v -> tangent y (exp_transport (A := A) x y v).
Proof.
  intros [Lv E]. rewrite transportE by auto. split; [vlen|].
  rewrite !inner_combr by vlen. rewrite Hy, (inner_sym v y), (inner_sym y x). field. apply uu.
Qed.
Lemma transport_isometry (v w : list R) : tangent x v -> tangent x w ->
  inner (exp_transport (A := A) x y v) (exp_transport (A := A) x y w) = inner v w.
Proof.
  intros [Lv E] [Lw Ew]. rewrite !transportE by auto. inn.
  rewrite Hx, Hy, Ew, (inner_sym y w), (inner_sym v x), E, (inner_sym y x). field. apply uu.
Qed.
Lemma inverse_transport (v : list R) : tangent x v ->
  exp_inverse_transport (A := A) x y (exp_transport (A := A) x y v) = v.
Proof.
  intros [Lv E]. rewrite transportE by auto. rewrite inverseE by vlen.
  rewrite !inner_comb by vlen. rewrite (inner_sym v x), E, (inner_sym y x), Hx. vext. field. apply uu.
Qed.
Lemma transport_inverse (w : list R) : tangent y w ->
  tangent x (exp_inverse_transport (A := A) x y w) /\
  exp_transport (A := A) x y (exp_inverse_transport (A := A) x y w) = w.
Proof.
  intros [Lw E]. rewrite inverseE by congruence. split; [split; [vlen|]|].
  - rewrite !inner_combr by vlen. rewrite Hx, (inner_sym w x). field. apply uu.
  - rewrite transportE by vlen. rewrite !inner_comb by vlen. rewrite (inner_sym w y), E, Hy. vext. field. apply uu.
Qed.

(** Rank-one updates of operators. *)
Lemma rank_right n s (C D : nat -> nat -> R) (p q v : list R) : length v = n -> length p = n -> length q = n ->
  (forall i j, (i < n)%nat -> (j < n)%nat -> D i j = C i j + s * entry_sum n (fun k => C i k * nth k p 0) * nth j q 0) ->
  times n D v = times n C (comb (s * inner q v) p v).
Proof.
  intros Hv Hp Hq HD. apply vec_eq; rewrite ?length_times; auto. intros i Hi. rewrite !nth_times by auto.
  rewrite (es_ext n (fun j => D i j * _) (fun j => (s * entry_sum n (fun k => C i k * nth k p 0)) * (nth j q 0 * nth j v 0) + C i j * nth j v 0)).
  2:{ intros j Hj. rewrite HD by auto. lra. }
  rewrite es_lin.
  rewrite (es_ext n (fun j => C i j * nth j (comb (s * inner q v) p v) 0) (fun j => (s * inner q v) * (C i j * nth j p 0) + C i j * nth j v 0)).
  2:{ intros j Hj. rewrite nth_comb by congruence. lra. }
  rewrite es_lin, (inner_es q v) by congruence. rewrite Hq. lra.
Qed.
Lemma rank_left n s (C D : nat -> nat -> R) (p q v : list R) : length v = n -> length p = n -> length q = n ->
  (forall i j, (i < n)%nat -> (j < n)%nat -> D i j = C i j + s * nth i p 0 * entry_sum n (fun k => C k j * nth k q 0)) ->
  times n D v = comb (s * inner q (times n C v)) p (times n C v).
Proof.
  intros Hv Hp Hq HD. pose proof (length_times n C v) as LT.
  apply vec_eq; [rewrite length_comb, !length_times; lia|]. rewrite length_times. intros i Hi.
  rewrite nth_comb, !nth_times by lia.
  rewrite (es_ext n (fun j => D i j * _) (fun j => (s * nth i p 0) * (entry_sum n (fun k => C k j * nth k q 0) * nth j v 0) + C i j * nth j v 0)).
  2:{ intros j Hj. rewrite HD by auto. lra. }
  rewrite es_lin, (inner_es q) by lia. rewrite Hq.
  rewrite (es_ext n (fun k => nth k q 0 * nth k (times n C v) 0) (fun k => entry_sum n (fun j => C k j * nth j v 0 * nth k q 0))).
  2:{ intros k Hk. rewrite nth_times by auto. rewrite <- es_scal. apply es_ext. intros. lra. }
  rewrite es_swap.
  rewrite (es_ext n (fun j => entry_sum n (fun k => C k j * nth k q 0) * nth j v 0) (fun j => entry_sum n (fun i0 => C i0 j * nth j v 0 * nth i0 q 0))).
  2:{ intros j Hj. rewrite Rmult_comm, <- es_scal. apply es_ext. intros. lra. }
  lra.
Qed.
Notation ope := (@ope A).
Lemma dot_es n (f : nat -> R) (p : list R) : length p = n ->
  dotp (A := A) (map (fun k => f (0 + k)%nat) (seq 0 n)) p = entry_sum n (fun k => f k * nth k p 0).
Proof.
  intros Hp. rewrite dotpE, inner_es; rewrite ?map_length, ?seq_length; auto.
  apply es_ext. intros k Hk. now rewrite (map_seq_nth (fun k => f (0 + k)%nat)).
Qed.
Lemma inb0 n i : (i < n)%nat -> inb 0 n i = true.
Proof. intros. apply inb_spec. lia. Qed.
Lemma HInvTran_times (Hop : ope) : exists D, exp_HInvTran (A := A) (length x) 0 x y Hop = Some D /\
  forall v, length v = length x -> times (length x) D v = times (length x) Hop (exp_inverse_transport (A := A) x y v).
Proof.
  unfold exp_HInvTran, ger. rewrite xpyE. cbn [Arith.F R_arith].
  rewrite !map_length, seq_length, !Nat.ltb_irrefl. cbn [orb]. eexists. split; [reflexivity|].
  intros v Hv. rewrite inverseE by auto.
  assert (Lu : length u = length x) by vlen.
  rewrite (rank_right (length x) (-2 / (2 + 2 * inner x y)) Hop _ u x); auto.
  - f_equal. f_equal. rewrite (inner_sym v x). field. apply uu.
  - intros i j Hi Hj. rewrite !inb0 by auto. cbn [andb]. rewrite !Nat.sub_0_r, dotpE, !litE, qm2, q0.
    destruct uu as [-> _]. rewrite (map_seq_nth (fun i => dotp (A := A) (map (fun k => Hop i (0 + k)%nat) (seq 0 (length x))) u)) by auto.
    rewrite (dot_es (length x) (Hop i)) by auto. reflexivity.
Qed.
Lemma TranH_times (Hop : ope) : exists D, exp_TranH (A := A) (length x) 0 x y Hop = Some D /\
  forall v, length v = length x -> times (length x) D v = exp_transport (A := A) x y (times (length x) Hop v).
Proof.
  unfold exp_TranH, ger. rewrite xpyE. cbn [Arith.F R_arith].
  assert (Lu : length u = length x) by vlen.
  rewrite !map_length, seq_length, Lu, !Nat.ltb_irrefl. cbn [orb]. eexists. split; [reflexivity|].
  intros v Hv. rewrite transportE by apply length_times.
  rewrite (rank_left (length x) (-2 / (2 + 2 * inner x y)) Hop _ u y); auto.
  - f_equal. rewrite (inner_sym y). field. apply uu.
  - intros i j Hi Hj. rewrite !inb0 by auto. cbn [andb]. rewrite !Nat.sub_0_r, dotpE, !litE, qm2, q0.
    destruct uu as [-> _]. rewrite (map_seq_nth (fun j => dotp (A := A) (map (fun k => Hop (0 + k)%nat j) (seq 0 (length x))) y)) by auto.
    rewrite (dot_es (length x) (fun k => Hop k j)) by auto. reflexivity.
Qed.
Lemma TranHInvTran_times (Hop : ope) : exists D, exp_TranHInvTran (A := A) x y Hop = Some D /\
  forall v, tangent x v -> times (length x) D (exp_transport (A := A) x y v) = exp_transport (A := A) x y (times (length x) Hop v).
Proof.
  unfold exp_TranHInvTran. destruct (HInvTran_times Hop) as (D & E & HD). cbn [Arith.F R_arith] in *. rewrite E.
  destruct (TranH_times D) as (D' & E' & HD'). exists D'. split; auto.
  intros v Hv. destruct (transport_tangent v Hv) as [Lv _]. rewrite HD', HD by congruence. now rewrite inverse_transport.
Qed.
End par.
(** The derivative of the exponential map along its own direction is the parallel translate. *)
Lemma locking (x eta : list R) : unit_vec x -> tangent x eta -> eta <> zero (length x) ->
  let y := exp_retraction (A := A) sin cos x eta in comb 1 y x <> zero (length x) ->
  exp_diff (A := A) sin cos x eta eta = exp_transport (A := A) x y eta.
Proof.
  intros Hx He H0 y Hu. pose proof (exp_unit x eta Hx He H0) as Hy. pose proof (exp_length x eta Hx He H0) as Ly.
  fold y in Hy, Ly. pose proof (uu x y Hx Hy Ly Hu) as [_ U]. pose proof (n_pos x eta He H0) as N.
  rewrite transportE, diff_eq by (destruct He; auto). unfold y in U |- *. rewrite exp_eq in * by auto.
  destruct He as [Le E]. pose proof (sqrt_inner eta) as S. set (n := sqrt _) in *.
  pose proof (sin2_cos2 n) as P. unfold Rsqr in P.
  rewrite !inner_combr in * by vlen. rewrite ?inner_zero_r, Hx, E, (inner_sym eta x), E, <- S in *.
  vext. rewrite ?nth_zero. apply Rminus_diag_uniq.
  match goal with |- ?g = 0 => replace g with (nth i eta 0 * (1 - (sin n * sin n + cos n * cos n)) / ( - (1 + cos n))) end.
  - rewrite P. unfold Rdiv. replace (1 - 1) with 0 by lra. lra.
  - replace (2 + 2 * (cos n * 1 + (sin n / n * 0 + 0))) with (2 * (1 + cos n)) in * by lra.
    assert (1 + cos n <> 0) by (intro Z; apply U; rewrite Z; lra). field. split; lra.
Qed.
End sphere.
