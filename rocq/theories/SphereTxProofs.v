(** The unit sphere of a tangent space, over the real numbers. *)
From Coq Require Import List Arith Bool Reals Lra Lia QArith Qreals.
Import ListNotations.
From Verif Require Import Arith MatOpsModel MatOpsReal TangentModel TangentSpec TangentProofs TangentSphere SphereTxModel SphereTxSpec.
Local Close Scope Q_scope.
Local Open Scope R_scope.

Section proofs.
Variables big epsv : R.
Notation A := (R_arith big epsv).
Variable d : nat.
Variable g : list R -> list R -> R.
Variable P : list R -> list R.
Hypothesis TS : tangent_space d g P.
Notation in_space := (in_space d P).
Notation on_sphere := (on_sphere d g P).
Notation tangent_at := (tangent_at d g P).
Let G := ts_ip _ _ _ TS.

Lemma qm1 : Q2R (-1) = -1. Proof. unfold Q2R. cbn. lra. Qed.
Lemma P_zero : P (zero d) = zero d.
Proof.
  assert (E : forall v, length v = d -> comb (-1) v v = zero d) by (intros v L; vext; lra).
  rewrite <- (E (zero d)) at 1 by apply length_zero.
  rewrite (ts_comb _ _ _ TS) by apply length_zero. apply E. apply (ts_length _ _ _ TS), length_zero.
Qed.
Lemma in_zero : in_space (zero d).
Proof. split; [apply length_zero|apply P_zero]. Qed.
Lemma in_comb a u v : in_space u -> in_space v -> in_space (comb a u v).
Proof.
  intros [L1 E1] [L2 E2]. split; [vlen|]. rewrite (ts_comb _ _ _ TS) by auto. congruence.
Qed.
Lemma in_P v : length v = d -> in_space (P v).
Proof. intros L. split; [now apply (ts_length _ _ _ TS)|now apply (ts_idem _ _ _ TS)]. Qed.
Lemma in_scal a v : in_space v -> in_space (scal (A := A) a v).
Proof. intros Hv. rewrite scalE. apply in_comb; auto. destruct Hv as [-> _]. apply in_zero. Qed.
Lemma gz w : length w = d -> g (zero d) w = 0. Proof. apply (g_zero _ _ G). Qed.
Lemma gzr w : length w = d -> g w (zero d) = 0.
Proof. intros. rewrite (ip_sym _ _ G); auto using gz, length_zero. Qed.
Lemma g_sym u v : length u = d -> length v = d -> g u v = g v u. Proof. apply (ip_sym _ _ G). Qed.
Lemma in_len v : in_space v -> length v = d. Proof. now intros [L _]. Qed.

Ltac side := vlen; auto using length_zero.
Ltac gexp := repeat first [rewrite (ip_comb _ _ G) by side | rewrite (g_combr _ _ G) by side]; rewrite ?gz, ?gzr by side.

(** normalisation *)
Lemma normalise v : in_space v -> v <> zero d -> on_sphere (scal (A := A) (1 / sqrt (g v v)) v).
Proof.
  intros Hv H0. split; [now apply in_scal|].
  pose proof (ip_pos _ _ G v (in_len _ Hv) H0) as Pv. pose proof (sqrt_lt_R0 _ Pv).
  rewrite (g_scal _ _ _ _ G), (g_scalr _ _ _ _ G) by (destruct Hv; vlen).
  rewrite <- (sqrt_sqrt (g v v)) at 3 by lra. field. lra.
Qed.
Lemma random_on_sphere v : length v = d -> P v <> zero d -> on_sphere (tx_random (A := A) g P v).
Proof.
  intros L H0. unfold tx_random. cbn [fsqrt fdiv R_arith]. rewrite litE.
  replace (Q2R 1) with 1 by (symmetry; apply q1). apply normalise; auto. now apply in_P.
Qed.
Lemma projE x v : tx_projection (A := A) g P x v = comb (- g x (P v)) x (P v).
Proof. unfold tx_projection. now rewrite axpyE. Qed.
Lemma projection_facts x v : on_sphere x -> length v = d ->
  tangent_at x (tx_projection (A := A) g P x v) /\
  forall w, tangent_at x w -> g (tx_projection (A := A) g P x v) w = g v w.
Proof.
  intros [Hx Nx] L. rewrite projE. pose proof (in_P v L) as HP. split.
  - split; [now apply in_comb|]. rewrite (g_combr _ _ G), Nx by (destruct Hx, HP; auto). lra.
  - intros w [[Lw Pw] Ew]. rewrite (ip_comb _ _ G), Ew by (destruct Hx, HP; auto).
    rewrite (ts_adj _ _ _ TS), Pw by auto. lra.
Qed.

(** the retraction *)
Lemma unit_nonzero x : on_sphere x -> x <> zero d.
Proof. intros [[L _] N] ->. rewrite gz in N by apply length_zero. lra. Qed.
Lemma combination x eta c s : on_sphere x -> tangent_at x eta ->
  let r := comb c x (comb s eta (zero (length eta))) in
  in_space r /\ g r r = c * c + s * s * g eta eta.
Proof.
  intros [Hx Nx] [He Ee]. destruct He as [Le Pe]. rewrite Le. cbv zeta.
  assert (I : in_space (comb s eta (zero d))) by (apply in_comb; [split; auto|apply in_zero]).
  split; [now apply in_comb|]. destruct Hx as [Lx Px].
  gexp. rewrite (g_sym eta x), Ee, Nx by side. lra.
Qed.
Lemma end_point_sphere x eta : on_sphere x -> tangent_at x eta -> on_sphere (end_point g x eta).
Proof.
  intros Hx He. unfold end_point. set (n := sqrt (g eta eta)).
  destruct (combination x eta (cos n) (sin n / n) Hx He) as [I E]. split; auto. rewrite E.
  pose proof (sin2_cos2 n) as S. unfold Rsqr in S.
  destruct He as [[Le _] _]. pose proof (g_ge0 _ _ G eta Le) as Pe.
  destruct (Req_dec n 0) as [N|N].
  - assert (g eta eta = 0) as -> by (apply sqrt_eq_0; auto). rewrite N, sin_0, cos_0. lra.
  - rewrite <- (sqrt_sqrt (g eta eta)) by auto. fold n.
    transitivity (sin n * sin n + cos n * cos n); [field; auto|auto].
Qed.
Lemma unit_scal r : g r r = 1 -> scal (A := A) (lit (A := A) 1 / sqrt (g r r)) r = r.
Proof.
  intros ->. rewrite sqrt_1, litE. replace (Q2R 1) with 1 by (symmetry; apply q1). vext. lra.
Qed.
Notation retr := (tx_retraction (A := A) sin cos g).
Lemma retr_long x eta : on_sphere x -> tangent_at x eta -> epsv <= sqrt (g eta eta) ->
  retr x eta = end_point g x eta.
Proof.
  intros Hx He Hn. unfold tx_retraction, tx_metric. cbn [fsqrt fdiv flt fepsv R_arith].
  rewrite (proj2 (Rltb_false _ _) Hn). rewrite lincombE by (destruct Hx as [[]], He as [[]]; vlen).
  apply unit_scal. now apply end_point_sphere.
Qed.
Lemma retr_short x eta : on_sphere x -> tangent_at x eta -> epsv <= 1 -> sqrt (g eta eta) < epsv ->
  retr x eta = x.
Proof.
  intros [[Lx Px] Nx] [[Le Pe] Ee] He Hn. unfold tx_retraction, tx_metric. cbn [fsqrt fdiv flt fepsv R_arith].
  rewrite (proj2 (Rltb_true _ _) Hn). set (n := sqrt (g eta eta)) in *.
  assert (Hc : 0 < cos n).
  { apply cos_gt_0. pose proof PI_RGT_0. pose proof (sqrt_pos (g eta eta)). fold n in H0. lra.
    pose proof PI2_1. unfold n in *. lra. }
  rewrite (g_scal _ _ _ _ G), (g_scalr _ _ _ _ G), Nx by vlen.
  replace (cos n * (cos n * 1)) with (cos n * cos n) by ring. rewrite sqrt_square by lra.
  rewrite litE. replace (Q2R 1) with 1 by (symmetry; apply q1). vext. field. lra.
Qed.
Lemma cos_bound n : 0 <= n -> 2 - 2 * cos n <= n * n.
Proof.
  intros Hn. replace n with (2 * (n / 2)) at 1 by lra. rewrite cos_2a_sin.
  assert (sin (n/2) * sin (n/2) <= n/2 * (n/2)); [|lra].
  destruct (Req_dec n 0) as [->|N]; [replace (0/2) with 0 by lra; rewrite sin_0; lra|].
  assert (0 < n / 2) by lra. pose proof (sin_lt_x (n/2) H).
  assert (- (n/2) < sin (n/2)).
  { destruct (Rle_dec (n/2) PI).
    - pose proof (sin_ge_0 (n/2) ltac:(lra) ltac:(lra)). lra.
    - pose proof (SIN_bound (n/2)). pose proof PI2_1. lra. }
  nra.
Qed.
Lemma retraction_facts x eta : on_sphere x -> tangent_at x eta -> 0 < epsv <= 1 ->
  on_sphere (retr x eta) /\
  (epsv <= sqrt (g eta eta) -> retr x eta = end_point g x eta) /\
  let diff := comb (-1) (retr x eta) (end_point g x eta) in sqrt (g diff diff) < epsv.
Proof.
  intros Hx He Hep. pose proof (end_point_sphere x eta Hx He) as HE.
  destruct (Rle_lt_dec epsv (sqrt (g eta eta))) as [Hn|Hn].
  - rewrite retr_long by auto. repeat split; try apply HE; auto. cbv zeta.
    replace (comb (-1) _ _) with (zero d).
    2:{ destruct HE as [[LE _] _]. vext. lra. }
    rewrite gz by apply length_zero. rewrite sqrt_0. lra.
  - rewrite retr_short by (auto; lra). repeat split; try apply Hx; auto; [intros; lra|]. cbv zeta.
    apply Rle_lt_trans with (sqrt (g eta eta)); auto.
    destruct Hx as [[Lx Px] Nx], HE as [[LE PE] NE], He as [[Le Pe] Ee].
    gexp. rewrite Nx, NE, (g_sym (end_point g x eta) x) by side.
    apply sqrt_le_1_alt.
    assert (X : g x (end_point g x eta) = cos (sqrt (g eta eta))).
    { unfold end_point. rewrite Le. gexp. rewrite Nx, Ee. lra. }
    rewrite X. pose proof (cos_bound (sqrt (g eta eta)) (sqrt_pos _)) as B.
    rewrite sqrt_sqrt in B by (apply (g_ge0 _ _ G); auto). lra.
Qed.
Lemma flat x eta : on_sphere x -> tangent_at x eta -> 0 < epsv <= 1 ->
  forall i, derivable_pt_lim (fun t => nth i (retr x (comb t eta (zero d))) 0) 0 0.
Proof.
  intros Hx He Hep i. pose proof He as [[Le Pe] Ee]. pose proof (g_ge0 _ _ G eta Le) as Q.
  set (r := epsv / (sqrt (g eta eta) + 1)). pose proof (sqrt_pos (g eta eta)) as S.
  assert (Hr : 0 < r) by (apply Rdiv_lt_0_compat; lra).
  apply derivable_pt_lim_locally_ext with (a := - r) (b := r) (f := fun _ => nth i x 0); [lra| |apply derivable_pt_lim_const].
  intros t Ht. rewrite retr_short; auto; try lra.
  - split; [apply in_comb; [split; auto|apply in_zero]|]. destruct Hx as [[Lx _] _].
    gexp. rewrite Ee. lra.
  - gexp.
    replace (t * (t * g eta eta + 0) + (t * 0 + 0)) with (t * t * g eta eta) by ring.
    rewrite sqrt_mult by (auto; nra). replace (t * t) with (Rsqr t) by reflexivity. rewrite sqrt_Rsqr_abs.
    assert (Rabs t < r) by (apply Rabs_def1; lra).
    apply Rle_lt_trans with (Rabs t * (sqrt (g eta eta) + 1)); [pose proof (Rabs_pos t); nra|].
    unfold r in H. apply (Rmult_lt_compat_r (sqrt (g eta eta) + 1)) in H; [|lra].
    unfold Rdiv in H. rewrite Rmult_assoc, Rinv_l, Rmult_1_r in H by lra. exact H.
Qed.

(** the transports *)
Section par.
Variables x y : list R.
Hypothesis Hx : on_sphere x.
Hypothesis Hy : on_sphere y.
Hypothesis H : y <> opposite x.
Notation u := (comb 1 y x).
Notation T := (tx_transport (A := A) g x).
Notation Ti := (tx_inverse_transport (A := A) g x).
Lemma Lx : length x = d. Proof. apply Hx. Qed.
Lemma Ly : length y = d. Proof. apply Hy. Qed.
Lemma swap : comb 1 x y = u.
Proof. pose proof Lx; pose proof Ly. vext. lra. Qed.
Lemma uu : g u u = 2 + 2 * g x y /\ 2 + 2 * g x y <> 0.
Proof.
  pose proof Lx as Lx; pose proof Ly as Ly. destruct Hx as [_ Nx], Hy as [_ Ny].
  assert (E : g u u = 2 + 2 * g x y).
  { gexp. rewrite Nx, Ny, (g_sym y x) by side. lra. }
  split; auto. rewrite <- E. assert (0 < g u u); [|lra]. apply (ip_pos _ _ G); [vlen|].
  intros Z. apply H. unfold opposite. apply vec_eq; [vlen|]. intros i _.
  assert (N : nth i (comb 1 y x) 0 = 0) by (rewrite Z; apply nth_zero).
  rewrite nth_comb in N by vlen. rewrite nth_comb, nth_zero by vlen. lra.
Qed.
Lemma TE eta v : T eta y v = comb (-2 * g v y / (2 + 2 * g x y)) u v.
Proof.
  unfold tx_transport. rewrite !axpyE, !litE, qm2. replace (Q2R 1) with 1 by (symmetry; apply q1).
  destruct uu as [-> _]. reflexivity.
Qed.
Lemma TiE eta v : Ti eta y v = comb (-2 * g v x / (2 + 2 * g x y)) u v.
Proof.
  unfold tx_inverse_transport. rewrite !axpyE, !litE, qm2. replace (Q2R 1) with 1 by (symmetry; apply q1).
  rewrite swap. destruct uu as [-> _]. reflexivity.
Qed.
Lemma in_u : in_space u.
Proof. apply in_comb; [apply Hy|apply Hx]. Qed.
Lemma transport_tangent eta v : tangent_at x v -> tangent_at y (T eta y v).
Proof.
  intros [Hv E]. rewrite TE. pose proof Lx as Lx; pose proof Ly as Ly. pose proof (in_len _ Hv) as Lv.
  split; [apply in_comb; auto using in_u|].
  gexp. rewrite (g_sym v y), (g_sym y x) by side. destruct Hy as [_ ->]. field. apply uu.
Qed.
Lemma inverse_tangent eta w : tangent_at y w -> tangent_at x (Ti eta y w).
Proof.
  intros [Hv E]. rewrite TiE. pose proof Lx as Lx; pose proof Ly as Ly. pose proof (in_len _ Hv) as Lv.
  split; [apply in_comb; auto using in_u|].
  gexp. rewrite (g_sym w x) by side. destruct Hx as [_ ->]. field. apply uu.
Qed.
Lemma transport_isometry eta v w : tangent_at x v -> tangent_at x w -> g (T eta y v) (T eta y w) = g v w.
Proof.
  intros [Hv Ev] [Hw Ew]. rewrite !TE. pose proof Lx as Lx; pose proof Ly as Ly.
  pose proof (in_len _ Hv) as Lv. pose proof (in_len _ Hw) as Lw.
  gexp.
  rewrite (g_sym v x), (g_sym y w), (g_sym y x), Ev, Ew by auto. destruct Hx as [_ ->], Hy as [_ ->]. field. apply uu.
Qed.
Lemma inverse_transport eta v : tangent_at x v -> Ti eta y (T eta y v) = v.
Proof.
  intros [Hv Ev]. rewrite TE, TiE. pose proof Lx as Lx; pose proof Ly as Ly. pose proof (in_len _ Hv) as Lv.
  gexp. rewrite (g_sym v x), (g_sym y x), Ev by auto. destruct Hx as [_ ->].
  vext. field. apply uu.
Qed.
Lemma transport_inverse eta w : tangent_at y w -> T eta y (Ti eta y w) = w.
Proof.
  intros [Hv Ev]. rewrite TiE, TE. pose proof Lx as Lx; pose proof Ly as Ly. pose proof (in_len _ Hv) as Lv.
  gexp. rewrite (g_sym w y), Ev by auto. destruct Hy as [_ ->].
  vext. field. apply uu.
Qed.
Lemma transport_facts eta :
  (forall v, tangent_at x v -> tangent_at y (T eta y v) /\ Ti eta y (T eta y v) = v) /\
  (forall v w, tangent_at x v -> tangent_at x w -> g (T eta y v) (T eta y w) = g v w) /\
  (forall w, tangent_at y w -> tangent_at x (Ti eta y w) /\ T eta y (Ti eta y w) = w).
Proof.
  auto 10 using transport_tangent, inverse_transport, transport_isometry, inverse_tangent, transport_inverse.
Qed.
End par.

(** derivative along the direction itself *)
Lemma same_direction_aux x eta c (y : list R) : on_sphere x -> tangent_at x eta -> 0 < epsv -> epsv < sqrt (g eta eta) ->
  y = end_point g x eta -> y <> opposite x ->
  forall i, derivable_pt_lim (fun t => nth i (retr x (comb t (comb c eta (zero d)) eta)) 0) 0
    (nth i (tx_diff_same_direction (A := A) g x eta y (comb c eta (zero d))) 0).
Proof.
  intros Hx He Hep Hn Ey Hop i. pose proof He as [[Le Pe] Ee]. pose proof Hx as [[Lx Px] Nx].
  assert (Hy : on_sphere y) by (rewrite Ey; now apply end_point_sphere).
  assert (Ly' : length y = d) by apply Hy.
  unfold tx_diff_same_direction. rewrite (TE x y Hx Hy Hop).
  set (n := sqrt (g eta eta)) in *.
  assert (Sn : g eta eta = n * n) by (symmetry; apply sqrt_sqrt, (g_ge0 _ _ G); auto).
  assert (Gx : g x y = cos n).
  { rewrite Ey. unfold end_point. fold n. rewrite Le. gexp. rewrite Nx, Ee. lra. }
  assert (Ge : g (comb c eta (zero d)) y = c * (n * sin n)).
  { rewrite Ey. unfold end_point. fold n. rewrite Le. gexp. rewrite (g_sym eta x), Ee, Sn by side.
    field. lra. }
  pose proof (uu x y Hx Hy Hop) as [_ U]. rewrite Gx in U. rewrite Gx, Ge.
  pose proof (sin2_cos2 n) as SC. unfold Rsqr in SC.
  match goal with |- derivable_pt_lim _ _ ?l => replace l with (- sin n * (c * n) * nth i x 0 + cos n * (c * n) / n * nth i eta 0) end.
  2:{ rewrite !nth_comb, nth_zero by vlen. 
      assert (Ei : nth i y 0 = cos n * nth i x 0 + sin n / n * nth i eta 0)
        by (rewrite Ey; unfold end_point; fold n; rewrite Le, !nth_comb, nth_zero by vlen; ring).
      rewrite Ei.
      set (a := nth i x 0). set (b := nth i eta 0). set (s := sin n) in *. set (k := cos n) in *.
      apply Rmult_eq_reg_r with (n * (2 + 2 * k)); [|intro Z; apply Rmult_integral in Z; lra].
      transitivity (- s * c * n * n * a * (2 + 2 * k) + k * c * n * b * (2 + 2 * k)); [field; lra|].
      symmetry. transitivity (-2 * c * n * s * (n * k * a + s * b + n * a) + c * b * n * (2 + 2 * k)); [field; lra|].
      assert (E : s * s = 1 - k * k) by lra.
      transitivity (-2 * c * n * n * s * (1 + k) * a - 2 * c * n * (s * s) * b + c * b * n * (2 + 2 * k)); [ring|].
      rewrite E. ring. }
  (* near 0 the curve is cos ((1 + c t) n) x + sin ((1 + c t) n) / n eta *)
  set (r := (1 - epsv / n) / (Rabs c + 1)).
  assert (En : epsv / n < 1).
  { apply (Rmult_lt_reg_r n); [lra|]. unfold Rdiv. rewrite Rmult_assoc, Rinv_l by lra. lra. }
  assert (En0 : 0 < epsv / n) by (apply Rdiv_lt_0_compat; lra).
  pose proof (Rabs_pos c) as Ac.
  assert (Hr : 0 < r) by (apply Rdiv_lt_0_compat; lra).
  apply derivable_pt_lim_locally_ext with (a := - r) (b := r)
    (f := fun t => cos ((1 + c * t) * n) * nth i x 0 + sin ((1 + c * t) * n) / n * nth i eta 0); [lra| |].
  - intros t Ht.
    assert (Hct : Rabs (c * t) < 1 - epsv / n).
    { rewrite Rabs_mult. assert (Rabs t < r) by (apply Rabs_def1; lra). pose proof (Rabs_pos t).
      apply Rle_lt_trans with ((Rabs c + 1) * Rabs t); [nra|].
      apply (Rmult_lt_compat_l (Rabs c + 1)) in H; [|lra]. unfold r in H.
      replace ((Rabs c + 1) * ((1 - epsv / n) / (Rabs c + 1))) with (1 - epsv / n) in H by (field; lra). exact H. }
    assert (Hp : epsv / n < 1 + c * t) by (pose proof (Rabs_def2 _ _ Hct); lra).
    assert (Ec : comb t (comb c eta (zero d)) eta = comb (1 + c * t) eta (zero d)) by (vext; lra).
    assert (Ht2 : tangent_at x (comb (1 + c * t) eta (zero d))).
    { split; [apply in_comb; [split; auto|apply in_zero]|]. gexp. rewrite Ee. lra. }
    assert (Nm : sqrt (g (comb (1 + c * t) eta (zero d)) (comb (1 + c * t) eta (zero d))) = (1 + c * t) * n).
    { gexp. rewrite Sn.
      replace ((1 + c * t) * ((1 + c * t) * (n * n) + 0) + ((1 + c * t) * 0 + 0)) with (((1 + c * t) * n) * ((1 + c * t) * n)) by ring.
      apply sqrt_square. apply Rmult_le_pos; lra. }
    rewrite Ec, retr_long; auto.
    + unfold end_point. rewrite Nm. rewrite !nth_comb, !nth_zero by vlen. field. split; lra.
    + rewrite Nm. apply (Rmult_lt_compat_r n) in Hp; [|lra]. unfold Rdiv in Hp. rewrite Rmult_assoc, Rinv_l in Hp by lra. lra.
  - set (w := fun t => (1 + c * t) * n).
    assert (Dw : derivable_pt_lim w 0 (c * n)).
    { apply dlim with ((0 + c * 1) * n + (1 + c * 0) * 0); [|lra]. unfold w.
      apply (derivable_pt_lim_mult (fun t => 1 + c * t) (fun _ => n)); [|apply derivable_pt_lim_const].
      apply (derivable_pt_lim_plus (fun _ => 1) (fun t => c * t)); [apply derivable_pt_lim_const|].
      apply (derivable_pt_lim_scal id). apply derivable_pt_lim_id. }
    assert (W0 : w 0 = n) by (unfold w; ring).
    assert (DC : derivable_pt_lim (fun t => cos (w t)) 0 (- sin n * (c * n))).
    { rewrite <- W0 at 1. apply (derivable_pt_lim_comp w cos); auto. apply derivable_pt_lim_cos. }
    assert (DS : derivable_pt_lim (fun t => sin (w t)) 0 (cos n * (c * n))).
    { rewrite <- W0 at 1. apply (derivable_pt_lim_comp w sin); auto. apply derivable_pt_lim_sin. }
    apply dlim with ((- sin n * (c * n) * nth i x 0 + cos (w 0) * 0) +
       ((cos n * (c * n) * / n + sin (w 0) * 0) * nth i eta 0 + sin (w 0) / n * 0)); [|field; lra].
    apply (derivable_pt_lim_plus (fun t => cos (w t) * nth i x 0) (fun t => sin (w t) / n * nth i eta 0)).
    + apply (derivable_pt_lim_mult (fun t => cos (w t)) (fun _ => nth i x 0)); auto. apply derivable_pt_lim_const.
    + apply (derivable_pt_lim_mult (fun t => sin (w t) / n) (fun _ => nth i eta 0)); [|apply derivable_pt_lim_const].
      apply (derivable_pt_lim_mult (fun t => sin (w t)) (fun _ => / n)); auto. apply derivable_pt_lim_const.
Qed.
Lemma same_direction x eta c : on_sphere x -> tangent_at x eta -> 0 < epsv -> epsv < sqrt (g eta eta) ->
  let y := retr x eta in y <> opposite x ->
  forall i, derivable_pt_lim (fun t => nth i (retr x (comb t (comb c eta (zero d)) eta)) 0) 0
    (nth i (tx_diff_same_direction (A := A) g x eta y (comb c eta (zero d))) 0).
Proof. intros. apply same_direction_aux; auto. apply retr_long; auto; lra. Qed.
End proofs.
