(** The locking-condition transport, over the real numbers. *)
From Coq Require Import List Arith Reals Lra Lia QArith Qreals.
Import ListNotations.
From Verif Require Import Arith MatOpsModel MatOpsReal TangentModel TangentSpec TangentProofs.
Local Close Scope Q_scope.
Local Open Scope R_scope.

Section lc.
Variables big epsv : R.
Notation A := (R_arith big epsv).
Notation scal := (@scal A).
Variable d : nat.
Variables gx gy : list R -> list R -> R.
Hypothesis Gx : inner_product d gx.
Hypothesis Gy : inner_product d gy.
Notation reflect := (@reflect A gy).
Notation rescale := (@rescale A gx gy).

Lemma reflectE (nu w : list R) : reflect nu w = comb (- gy w nu * (2 / gy nu nu)) nu w.
Proof. unfold TangentModel.reflect, tau. rewrite axpyE, litE, q2. reflexivity. Qed.
Lemma reflect_length (nu w : list R) : length nu = d -> length w = d -> length (reflect nu w) = d.
Proof. intros. rewrite reflectE. vlen. Qed.
Lemma pos_neq (v : list R) : length v = d -> v <> zero d -> gy v v <> 0.
Proof. intros H1 H2. pose proof (ip_pos _ _ Gy v H1 H2). lra. Qed.

Section nu.
Variable nu : list R.
Hypothesis Hl : length nu = d.
Hypothesis Hn : nu <> zero d.
Lemma reflect_isom (u v : list R) : length u = d -> length v = d -> gy (reflect nu u) (reflect nu v) = gy u v.
Proof.
  intros Hu Hv. rewrite !reflectE, (ip_comb _ _ Gy), !(g_combr _ _ Gy); vlen.
  rewrite (ip_sym _ _ Gy nu v); auto. field. now apply pos_neq.
Qed.
Lemma reflect_twice (w : list R) : length w = d -> reflect nu (reflect nu w) = w.
Proof.
  intros Hw. rewrite !reflectE, (ip_comb _ _ Gy) by vlen.
  vext. field. now apply pos_neq.
Qed.
End nu.
Lemma reflect_half (e : list R) : length e = d -> e <> zero d -> reflect (scal 2 e) e = scal (-1) e.
Proof.
  intros H1 H2. rewrite reflectE, (g_scal _ _ _ _ Gy), !(g_scalr _ _ _ _ Gy); vlen.
  vext. field. now apply pos_neq.
Qed.
Lemma reflect_swap (a b nu : list R) : length a = d -> length b = d -> nu = comb (-1) b a -> nu <> zero d ->
  gy a a = gy b b -> reflect nu a = b.
Proof.
  intros Ha Hb -> Hn E. pose proof (pos_neq (comb (-1) b a)) as P.
  rewrite length_comb in P by congruence. specialize (P Ha Hn).
  rewrite reflectE. rewrite (ip_comb _ _ Gy) in P by vlen.
  rewrite !(g_combr _ _ Gy) in P by vlen.
  rewrite (ip_comb _ _ Gy) by vlen.
  rewrite !(g_combr _ _ Gy) by vlen. rewrite (ip_sym _ _ Gy b a), E in * by auto.
  vext. field. intro E2. apply P. lra.
Qed.

Lemma sqrt_sq z : 0 <= z -> sqrt z * sqrt z = z. Proof. apply sqrt_sqrt. Qed.
Lemma rescaleE (v w : list R) : rescale v w = scal (sqrt (gx v v / gy w w)) w.
Proof. reflexivity. Qed.
Lemma rescale_length (v w : list R) : length w = d -> length (rescale v w) = d.
Proof. intros. rewrite rescaleE. vlen. Qed.
Lemma rescale_norm (v w : list R) : length v = d -> length w = d -> w <> zero d ->
  gy (rescale v w) (rescale v w) = gx v v.
Proof.
  intros Hv Hw H0. rewrite rescaleE, (g_scal _ _ _ _ Gy), (g_scalr _ _ _ _ Gy); vlen.
  pose proof (ip_pos _ _ Gy w Hw H0). pose proof (g_ge0 _ _ Gx v Hv).
  rewrite <- Rmult_assoc, sqrt_sq; [field; lra|].
  apply Rmult_le_pos; auto. left. now apply Rinv_0_lt_compat.
Qed.
Lemma rescale_id (v w : list R) : length v = d -> v <> zero d -> length w = d -> gy w w = gx v v -> rescale v w = w.
Proof.
  intros Hv H0 Hw E. rewrite rescaleE, E. pose proof (ip_pos _ _ Gx v Hv H0).
  unfold Rdiv. rewrite Rinv_r, sqrt_1 by lra. vext. lra.
Qed.
Lemma nonzero (v : list R) : length v = d -> gy v v <> 0 -> v <> zero d.
Proof. intros H1 H2 ->. apply H2. apply (g_zero _ _ Gy). apply length_zero. Qed.
Lemma beta_norm (eta res : list R) : length eta = d -> eta <> zero d -> length res = d -> res <> zero d ->
  length (beta_TReta (A := A) gx gy eta res) = d /\
  gy (beta_TReta (A := A) gx gy eta res) (beta_TReta (A := A) gx gy eta res) = gx eta eta.
Proof.
  intros H1 H2 H3 H4. assert (E : beta_TReta (A := A) gx gy eta res = rescale eta res).
  { unfold beta_TReta. rewrite rescaleE. f_equal. cbn.
    assert (0 < sqrt (gx eta eta)) by (apply sqrt_lt_R0, (ip_pos _ _ Gx); auto). field. lra. }
  rewrite E. split; [now apply rescale_length|now apply rescale_norm].
Qed.

Variables T Tinv : list R -> list R.
Notation nu1 := (@nu1 A gx gy T).
Notation nu2 := (@nu2 A gx gy T).
Notation eps1 := (@eps1 A gx gy T).
Notation lc_transport := (@lc_transport A gx gy T).
Notation lc_inverse := (@lc_inverse A gx gy T Tinv).
Lemma nu1E eta : nu1 eta = scal 2 (eps1 eta).
Proof. unfold TangentModel.nu1. now rewrite litE, q2. Qed.
Lemma nu2E (eta tr : list R) : length (eps1 eta) = length tr -> nu2 eta tr = comb (-1) tr (scal (-1) (eps1 eta)).
Proof.
  intros H. unfold TangentModel.nu2, lincomb. rewrite axpyE, !litE.
  replace (Q2R (-1)) with (-1) by (unfold Q2R; cbn; lra).
  set (e := eps1 eta) in *. clearbody e. vext. lra.
Qed.

Section at_eta.
Variables eta tr : list R.
Hypothesis He : length eta = d.
Hypothesis He0 : eta <> zero d.
Hypothesis HT : length (T eta) = d.
Hypothesis HT0 : T eta <> zero d.
Hypothesis Htr : length tr = d.
Hypothesis Hnorm : gy tr tr = gx eta eta.
Hypothesis Hnu2 : nu2 eta tr <> zero d.
Lemma eps1_length : length (eps1 eta) = d.
Proof. now apply rescale_length. Qed.
Lemma eps1_norm : gy (eps1 eta) (eps1 eta) = gx eta eta.
Proof. now apply rescale_norm. Qed.
Lemma eps1_neq : eps1 eta <> zero d.
Proof.
  apply nonzero; [apply eps1_length|]. rewrite eps1_norm. pose proof (ip_pos _ _ Gx eta He He0). lra.
Qed.
Lemma nu1_length : length (nu1 eta) = d.
Proof. rewrite nu1E. vlen. apply eps1_length. Qed.
Lemma nu1_neq : nu1 eta <> zero d.
Proof.
  apply nonzero; [apply nu1_length|]. rewrite nu1E, (g_scal _ _ _ _ Gy), (g_scalr _ _ _ _ Gy), eps1_norm; vlen; try apply eps1_length.
  pose proof (ip_pos _ _ Gx eta He He0). lra.
Qed.
Lemma nu2_length : length (nu2 eta tr) = d.
Proof. rewrite nu2E by now rewrite eps1_length. pose proof eps1_length as E. set (e := eps1 eta) in *. clearbody e. vlen. Qed.
Lemma lc_maps : lc_transport eta tr eta = tr.
Proof.
  unfold TangentModel.lc_transport. change (rescale eta (T eta)) with (eps1 eta).
  rewrite nu1E, reflect_half; auto using eps1_length, eps1_neq.
  apply reflect_swap; auto.
  - vlen. apply eps1_length.
  - apply nu2E. now rewrite eps1_length.
  - rewrite (g_scal _ _ _ _ Gy), (g_scalr _ _ _ _ Gy), eps1_norm; vlen; try apply eps1_length. lra.
Qed.
Lemma lc_norm (xi : list R) : length xi = d -> length (T xi) = d -> T xi <> zero d ->
  gy (lc_transport eta tr xi) (lc_transport eta tr xi) = gx xi xi.
Proof.
  intros H1 H2 H3. unfold TangentModel.lc_transport.
  rewrite !reflect_isom; auto using nu1_length, nu1_neq, nu2_length, reflect_length, rescale_length.
  now apply rescale_norm.
Qed.
Lemma lc_length (xi : list R) : length (T xi) = d -> length (lc_transport eta tr xi) = d.
Proof.
  intros. unfold TangentModel.lc_transport.
  auto using nu1_length, nu2_length, reflect_length, rescale_length.
Qed.
Section isom.
Hypothesis HI : isometry d gx gy T.
Lemma T_rescale (xi : list R) : length xi = d -> xi <> zero d -> rescale xi (T xi) = T xi.
Proof. intros H1 H2. destruct (HI xi xi H1 H1). now apply rescale_id. Qed.
Lemma lcE (xi : list R) : length xi = d -> xi <> zero d ->
  lc_transport eta tr xi = reflect (nu2 eta tr) (reflect (nu1 eta) (T xi)).
Proof. intros. unfold TangentModel.lc_transport. now rewrite T_rescale. Qed.
Lemma lc_isom (u v : list R) : length u = d -> length v = d -> u <> zero d -> v <> zero d ->
  gy (lc_transport eta tr u) (lc_transport eta tr v) = gx u v.
Proof.
  intros. destruct (HI u v), (HI v v); auto. rewrite !lcE; auto.
  rewrite !reflect_isom; auto using nu1_length, nu1_neq, nu2_length, reflect_length.
Qed.
Lemma lc_back (xi : list R) : length xi = d -> xi <> zero d -> Tinv (T xi) = xi ->
  lc_inverse eta tr (lc_transport eta tr xi) = xi.
Proof.
  intros. destruct (HI xi xi); auto. unfold TangentModel.lc_inverse. rewrite lcE; auto.
  assert (E : forall w : list R, length w = d -> lincomb (A := A) ((- gy w (nu2 eta tr)) * tau (A := A) gy (nu2 eta tr))%R (nu2 eta tr) (lit 1) w = reflect (nu2 eta tr) w).
  { intros w Hw. unfold lincomb, TangentModel.reflect. f_equal. rewrite litE, q1. vext. lra. }
  cbn [fmul fopp R_arith Arith.F] in E |- *. rewrite E by (auto using nu1_length, nu1_neq, nu2_length, reflect_length).
  rewrite !reflect_twice; auto using nu1_length, nu1_neq, nu2_length, reflect_length.
Qed.
End isom.
End at_eta.

Lemma isometry_neq (v : list R) : isometry d gx gy T -> length v = d -> v <> zero d -> T v <> zero d.
Proof.
  intros HI Hv H0. destruct (HI v v Hv Hv) as [L E]. apply nonzero; auto.
  rewrite E. pose proof (ip_pos _ _ Gx v Hv H0). lra.
Qed.
Lemma nu2_neq (eta tr : list R) : isometry d gx gy T -> length eta = d -> eta <> zero d -> length tr = d ->
  comb 1 tr (T eta) <> zero d -> nu2 eta tr <> zero d.
Proof.
  intros HI He H0 Ht Hn E. apply Hn. destruct (HI eta eta He He) as [L _].
  assert (E1 : eps1 eta = T eta) by now apply T_rescale.
  rewrite nu2E in E by (rewrite E1; etransitivity; [exact L|now symmetry]). rewrite E1 in E.
  vext. apply (f_equal (fun l => nth i l 0)) in E. rewrite nth_comb, nth_scal_R, nth_zero in E by vlen. lra.
Qed.
Lemma beta_multiple (eta res : list R) : length eta = d -> eta <> zero d -> length res = d -> res <> zero d ->
  exists b, 0 < b /\ forall i, nth i (beta_TReta (A := A) gx gy eta res : list R) 0 = b * nth i res 0.
Proof.
  intros H1 H2 H3 H4. eexists. split; [|intros i; unfold beta_TReta; apply nth_scal].
  pose proof (ip_pos _ _ Gx eta H1 H2) as P. pose proof (ip_pos _ _ Gy res H3 H4) as Q. cbn.
  pose proof (sqrt_lt_R0 _ P) as S. assert (S2 : 0 < sqrt (gx eta eta / gy res res)) by (apply sqrt_lt_R0, Rdiv_lt_0_compat; auto).
  replace (sqrt (gx eta eta) / sqrt (gx eta eta)) with 1 by (field; lra). lra.
Qed.
Lemma locking_condition (eta res : list R) : isometry d gx gy T -> length eta = d -> eta <> zero d -> length res = d -> res <> zero d ->
  let tr := beta_TReta (A := A) gx gy eta res in
  comb 1 tr (T eta) <> zero d ->
  (exists b, 0 < b /\ forall i, nth i (tr : list R) 0 = b * nth i res 0) /\
  lc_transport eta tr eta = tr /\
  (forall u v, length u = d -> length v = d -> u <> zero d -> v <> zero d ->
     gy (lc_transport eta tr u) (lc_transport eta tr v) = gx u v) /\
  (forall xi, length xi = d -> xi <> zero d -> Tinv (T xi) = xi -> lc_inverse eta tr (lc_transport eta tr xi) = xi).
Proof.
  intros HI He H0 Hr Hr0 tr Hn. destruct (beta_norm eta res He H0 Hr Hr0) as [Lt Nt]. fold tr in Lt, Nt.
  pose proof (isometry_neq eta HI He H0) as HT0. destruct (HI eta eta He He) as [LT _].
  pose proof (nu2_neq eta tr HI He H0 Lt Hn) as N2.
  repeat split.
  - now apply beta_multiple.
  - now apply lc_maps.
  - intros. now apply lc_isom.
  - intros. now apply lc_back.
Qed.
End lc.
