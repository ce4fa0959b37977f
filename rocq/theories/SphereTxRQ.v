(** The Rayleigh quotient of an operator on the unit sphere of a tangent space. *)
From Coq Require Import List Arith Bool Reals Lra Lia QArith Qreals.
Import ListNotations.
From Verif Require Import Arith MatOpsModel MatOpsReal TangentModel TangentSpec TangentProofs TangentSphere SphereTxModel SphereTxSpec SphereTxProofs.
Local Close Scope Q_scope.
Local Open Scope R_scope.

Section proofs.
Variables big epsv : R.
Notation A := (R_arith big epsv).
Variable d : nat.
Variable g : list R -> list R -> R.
Variable P : list R -> list R.
Hypothesis TS : tangent_space d g P.
Variable H : list R -> list R.
Hypothesis OP : operator d g P H.
Notation in_space := (in_space d P).
Notation on_sphere := (on_sphere d g P).
Notation tangent_at := (tangent_at d g P).
Let G := ts_ip _ _ _ TS.
Ltac side := vlen; auto using length_zero.
Ltac gexp := repeat first [rewrite (ip_comb _ _ G) by side | rewrite (g_combr _ _ G) by side]; rewrite ?(gz _ _ _ TS), ?(gzr _ _ _ TS) by side.
Variable ismin : bool.
Definition sg : R := if ismin then 1 else -1.
Notation f := (rq_f (A := A) g H ismin).
Notation grad := (rq_grad (A := A) g P H ismin).
Notation hess := (rq_hess (A := A) g P H ismin).

Lemma fE x : f x = sg * g (H x) x.
Proof. unfold rq_f, sg. destruct ismin; cbn [Arith.F fopp R_arith]; ring. Qed.
Lemma egE x : rq_EucGrad (A := A) H ismin x = scal (A := A) (2 * sg) (H x).
Proof. unfold rq_EucGrad, sg. rewrite !litE, q2, qm2. destruct ismin; f_equal; ring. Qed.
Lemma ehE x eta : rq_EucHessianEta (A := A) H ismin x eta = scal (A := A) (2 * sg) (H eta).
Proof. unfold rq_EucHessianEta, sg. rewrite !litE, q2, qm2. destruct ismin; f_equal; ring. Qed.
Lemma H_len v : in_space v -> length (H v) = d.
Proof. intros Hv. apply (op_in _ _ _ _ OP v Hv). Qed.
Lemma H_zero : H (zero d) = zero d.
Proof.
  pose proof (in_zero _ _ _ TS) as Z. pose proof (H_len _ Z) as L.
  assert (E : forall v, length v = d -> comb (-1) v v = zero d) by (intros v Lv; vext; lra).
  rewrite <- (E (zero d)) at 1 by apply length_zero.
  rewrite (op_comb _ _ _ _ OP) by auto. now apply E.
Qed.
Lemma scal_id u : in_space u -> P (scal (A := A) (2 * sg) u) = scal (A := A) (2 * sg) u.
Proof. intros Hu. apply (in_scal big epsv _ _ _ TS (2 * sg) u Hu). Qed.

Lemma gradE x : on_sphere x -> grad x = comb (- (2 * f x)) x (comb (2 * sg) (H x) (zero d)).
Proof.
  intros [Hx Nx]. unfold rq_grad, tx_EucGradToGrad. rewrite projE, egE.
  pose proof (op_in _ _ _ _ OP x Hx) as HH. rewrite scal_id by auto. pose proof (in_len _ _ _ HH) as LH.
  pose proof (in_len _ _ _ Hx) as Lx.
  rewrite (g_scalr _ _ _ _ G) by auto. rewrite scalE, LH, fE, (g_sym _ _ _ TS x (H x)) by auto. f_equal. ring.
Qed.
Lemma hess_facts x eta : on_sphere x -> tangent_at x eta ->
  tangent_at x (hess x eta) /\
  forall w, tangent_at x w -> g (hess x eta) w = 2 * sg * g (H eta) w - 2 * f x * g eta w.
Proof.
  intros Hx He. pose proof Hx as [Ix Nx]. pose proof He as [Ie Ee].
  pose proof (in_len _ _ _ Ix) as Lx. pose proof (in_len _ _ _ Ie) as Le.
  pose proof (H_len _ Ix) as LHx. pose proof (H_len _ Ie) as LHe.
  unfold rq_hess, tx_EucHvToHv.
  set (v := lincomb _ _ _ _).
  assert (Ev : v = comb 1 (comb (2 * sg) (H eta) (zero d)) (comb (- (2 * f x)) eta (zero d))).
  { unfold v. rewrite lincombE.
    - rewrite ehE, egE, !litE. replace (Q2R 1) with 1 by (symmetry; apply q1). rewrite scalE, LHe, Le.
      f_equal. f_equal. cbn [Arith.F fopp R_arith]. rewrite (g_scal _ _ _ _ G), fE by auto. ring.
    - rewrite ehE. vlen. }
  assert (Lv : length v = d) by (rewrite Ev; side).
  destruct (projection_facts big epsv _ _ _ TS x v Hx Lv) as [T1 T2]. split; auto.
  intros w Hw. rewrite T2 by auto. rewrite Ev. destruct Hw as [[Lw _] _]. gexp. ring.
Qed.
Lemma grad_facts x : on_sphere x -> tangent_at x (grad x) /\
  forall w, tangent_at x w -> g (grad x) w = 2 * sg * g (H x) w.
Proof.
  intros Hx. pose proof Hx as [Ix Nx]. pose proof (op_in _ _ _ _ OP x Ix) as HH.
  pose proof (in_len _ _ _ HH) as LH. pose proof (in_len _ _ _ Ix) as Lx.
  unfold rq_grad, tx_EucGradToGrad. rewrite egE.
  destruct (projection_facts big epsv _ _ _ TS x (scal (A := A) (2 * sg) (H x)) Hx ltac:(vlen)) as [T1 T2]. split; auto.
  intros w Hw. rewrite T2 by auto. destruct Hw as [[Lw _] _]. now rewrite (g_scal _ _ _ _ G) by auto.
Qed.
Lemma hess_sym x u v : on_sphere x -> tangent_at x u -> tangent_at x v -> g (hess x u) v = g u (hess x v).
Proof.
  intros Hx Hu Hv. destruct (hess_facts x u Hx Hu) as [[[L1 _] _] E1]. destruct (hess_facts x v Hx Hv) as [[[L2 _] _] E2].
  rewrite E1 by auto. rewrite (g_sym _ _ _ TS u (hess x v)) by (auto; apply Hu). rewrite E2 by auto.
  destruct Hu as [Hu _], Hv as [Hv _].
  rewrite (op_sym _ _ _ _ OP) by auto. rewrite (g_sym _ _ _ TS u (H v)), (g_sym _ _ _ TS u v) by (try apply Hu; try apply Hv; now apply H_len). ring.
Qed.

(** along great circles *)
Lemma circle x u t : in_space x -> in_space u ->
  f (great_circle x u t) = sg * (cos t * cos t * g (H x) x + 2 * (cos t * sin t) * g (H x) u + sin t * sin t * g (H u) u).
Proof.
  intros Hx Hu. pose proof (in_len _ _ _ Hx) as Lx. pose proof (in_len _ _ _ Hu) as Lu. pose proof (in_zero _ _ _ TS) as Z.
  pose proof (H_len _ Hx) as LHx. pose proof (H_len _ Hu) as LHu.
  rewrite fE. unfold great_circle. rewrite Lu.
  assert (in_space (comb (sin t) u (zero d))) by (apply (in_comb _ _ _ TS); auto).
  rewrite !(op_comb _ _ _ _ OP) by auto. rewrite H_zero. gexp.
  rewrite (op_sym _ _ _ _ OP u x) by auto. rewrite (g_sym _ _ _ TS u (H x)) by auto. cbn [Arith.F R_arith]. ring.
Qed.
Definition df x u (t : R) : R :=
  sg * (2 * (cos t * sin t) * (g (H u) u - g (H x) x) + 2 * (cos t * cos t - sin t * sin t) * g (H x) u).
Lemma dcs t : derivable_pt_lim (fun t => cos t * sin t) t (cos t * cos t - sin t * sin t).
Proof.
  apply dlim with (- sin t * sin t + cos t * cos t); [|ring].
  apply (derivable_pt_lim_mult cos sin); [apply derivable_pt_lim_cos|apply derivable_pt_lim_sin].
Qed.
Lemma dcc t : derivable_pt_lim (fun t => cos t * cos t) t (-2 * (cos t * sin t)).
Proof.
  apply dlim with (- sin t * cos t + cos t * - sin t); [|ring].
  apply (derivable_pt_lim_mult cos cos); apply derivable_pt_lim_cos.
Qed.
Lemma dss t : derivable_pt_lim (fun t => sin t * sin t) t (2 * (cos t * sin t)).
Proof.
  apply dlim with (cos t * sin t + sin t * cos t); [|ring].
  apply (derivable_pt_lim_mult sin sin); apply derivable_pt_lim_sin.
Qed.
Lemma lin3 (p q r : R -> R) t p' q' r' a b c : derivable_pt_lim p t p' -> derivable_pt_lim q t q' -> derivable_pt_lim r t r' ->
  derivable_pt_lim (fun t => a * p t + b * q t + c * r t) t (a * p' + b * q' + c * r').
Proof.
  intros D1 D2 D3. apply (derivable_pt_lim_plus (fun t => a * p t + b * q t) (fun t => c * r t)).
  - apply (derivable_pt_lim_plus (fun t => a * p t) (fun t => b * q t)); now apply derivable_pt_lim_scal.
  - now apply derivable_pt_lim_scal.
Qed.
Lemma derivatives x u : on_sphere x -> tangent_at x u -> g u u = 1 -> exists f',
  (forall t, derivable_pt_lim (fun t => f (great_circle x u t)) t (f' t)) /\
  f' 0 = g (grad x) u /\ derivable_pt_lim f' 0 (g (hess x u) u).
Proof.
  intros Hx Hu Nu. exists (df x u). pose proof Hx as [Ix Nx]. pose proof Hu as [Iu Eu]. repeat split.
  - intros t. eapply derivable_pt_lim_ext; [intros s; symmetry; apply (circle x u s Ix Iu)|].
    eapply derivable_pt_lim_ext with (f := fun t => (sg * g (H x) x) * (cos t * cos t) + (sg * 2 * g (H x) u) * (cos t * sin t) + (sg * g (H u) u) * (sin t * sin t)); [intros; ring|].
    eapply dlim; [apply lin3; [apply dcc|apply dcs|apply dss]|]. unfold df. ring.
  - unfold df. destruct (grad_facts x Hx) as [_ ->]; auto. rewrite sin_0, cos_0. ring.
  - destruct (hess_facts x u Hx Hu) as [_ ->]; auto. rewrite Nu, fE.
    eapply derivable_pt_lim_ext with (f := fun t => (sg * 2 * (g (H u) u - g (H x) x)) * (cos t * sin t) + (sg * 2 * g (H x) u) * (cos t * cos t) + (- (sg * 2 * g (H x) u)) * (sin t * sin t)); [intros; unfold df; ring|].
    eapply dlim; [apply lin3; [apply dcs|apply dcc|apply dss]|]. rewrite sin_0, cos_0. ring.
Qed.

(** second-order points are global minimizers and eigenvectors *)
Lemma sg2 : sg * sg = 1. Proof. unfold sg. destruct ismin; ring. Qed.
Lemma eigen x : on_sphere x -> grad x = zero d -> H x = comb (sg * f x) x (zero d).
Proof.
  intros Hx E0. pose proof Hx as [Ix Nx]. pose proof (H_len _ Ix) as LH. pose proof (in_len _ _ _ Ix) as Lx.
  rewrite gradE in E0 by auto. apply vec_eq; [side|]. intros i _.
  assert (E : nth i (comb (- (2 * f x)) x (comb (2 * sg) (H x) (zero d))) 0 = 0) by (rewrite E0; apply nth_zero).
  rewrite !nth_comb, nth_zero in E by side. rewrite nth_comb, nth_zero by side.
  pose proof sg2 as S. replace (nth i (H x) 0) with (sg * sg * nth i (H x) 0) by (rewrite S; ring).
  replace (sg * f x * nth i x 0) with (sg * (f x * nth i x 0)) by ring.
  replace (f x * nth i x 0) with (sg * nth i (H x) 0) by lra. ring.
Qed.
Lemma second_order x : on_sphere x -> grad x = zero d ->
  (forall eta, tangent_at x eta -> 0 <= g (hess x eta) eta) ->
  forall y, on_sphere y -> f x <= f y.
Proof.
  intros Hx E0 PS y Hy. pose proof (eigen x Hx E0) as EH.
  pose proof Hx as [Ix Nx]. pose proof Hy as [Iy Ny].
  pose proof (in_len _ _ _ Ix) as Lx. pose proof (in_len _ _ _ Iy) as Ly.
  set (a := g x y). set (w := comb (- a) x y).
  assert (Iw : in_space w) by (apply (in_comb _ _ _ TS); auto). pose proof (in_len _ _ _ Iw) as Lw.
  assert (Tw : tangent_at x w).
  { split; auto. unfold w. gexp. rewrite Nx. fold a. ring. }
  pose proof (PS w Tw) as Q. destruct (hess_facts x w Hx Tw) as [_ E]. rewrite E in Q by auto.
  assert (Ny2 : g w w = 1 - a * a).
  { unfold w. gexp. rewrite Nx, Ny, (g_sym _ _ _ TS y x) by auto. fold a. ring. }
  pose proof (H_len _ Ix) as LHx. pose proof (H_len _ Iy) as LHy.
  assert (X1 : g (H x) x = sg * f x) by (rewrite EH; gexp; rewrite Nx; ring).
  assert (X2 : g (H x) y = sg * f x * a) by (rewrite EH; gexp; fold a; ring).
  assert (Hw : g (H w) w = g (H y) y - sg * f x * (a * a)).
  { unfold w. rewrite (op_comb _ _ _ _ OP) by auto. gexp. rewrite (op_sym _ _ _ _ OP y x) by auto.
    rewrite (g_sym _ _ _ TS y (H x)) by auto. rewrite X1, X2. ring. }
  rewrite Hw, Ny2 in Q. rewrite (fE y).
  pose proof sg2 as S. replace (2 * sg * (g (H y) y - sg * f x * (a * a))) with (2 * (sg * g (H y) y) - 2 * (sg * sg) * f x * (a * a)) in Q by ring.
  rewrite S in Q. set (F := f x) in *. clearbody F. lra.
Qed.
End proofs.

Section eigen.
Variables big epsv : R.
Notation A := (R_arith big epsv).
Lemma extreme_eigenvalues d g P H x z : tangent_space d g P -> operator d g P H ->
  on_sphere d g P x -> rq_grad (A := A) g P H true x = zero d ->
  (forall eta, tangent_at d g P x eta -> 0 <= g (rq_hess (A := A) g P H true x eta) eta) ->
  on_sphere d g P z -> rq_grad (A := A) g P H false z = zero d ->
  (forall eta, tangent_at d g P z eta -> 0 <= g (rq_hess (A := A) g P H false z eta) eta) ->
  let (lo, hi) := eig_values (A := A) g H x z in
  H x = comb lo x (zero d) /\ H z = comb hi z (zero d) /\
  forall y, on_sphere d g P y -> lo <= g (H y) y <= hi.
Proof.
  intros TS OP Hx Gx Sx Hz Gz Sz. unfold eig_values.
  pose proof (eigen big epsv _ _ _ TS H OP true x Hx Gx) as E1.
  pose proof (eigen big epsv _ _ _ TS H OP false z Hz Gz) as E2. cbn [sg] in E1, E2.
  split; [|split].
  - rewrite E1 at 1. f_equal. unfold sg. apply Rmult_1_l.
  - rewrite E2 at 1. f_equal. unfold sg. cbn [Arith.F fopp R_arith]. ring.
  - intros y Hy. pose proof (second_order big epsv _ _ _ TS H OP true x Hx Gx Sx y Hy) as L1.
    pose proof (second_order big epsv _ _ _ TS H OP false z Hz Gz Sz y Hy) as L2.
    rewrite (fE big epsv g H true y) in L1. rewrite (fE big epsv g H false y) in L2. unfold sg in *. cbn [Arith.F fopp R_arith].
    cbn [Arith.F R_arith] in *. lra.
Qed.
End eigen.
