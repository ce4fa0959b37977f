(** Concrete cases and counterexamples for the search-direction theorems. *)
From Coq Require Import QArith Reals List Bool Lra Lia Psatz Arith Qreals.
From Coq Require Import Floats.SpecFloat.
From Verif Require Import Arith TrustRegionModel TrustRegionSpec TCGProofs DirectionModel DirectionSpec DirectionProofs NewtonProofs.
Local Open Scope R_scope.

(** ** The plane with the dot product, in any arithmetic. *)
Definition plane (A : arith) : rgeo A :=
  {| RP := nat; RT := F A * F A;
     rmet := fun _ v w => fadd (fmul (fst v) (fst w)) (fmul (snd v) (snd w));
     rscal := fun a v => (fmul a (fst v), fmul a (snd v));
     rcomb := fun a v b w => (fadd (fmul a (fst v)) (fmul b (fst w)), fadd (fmul a (snd v)) (fmul b (snd w)));
     rtran := fun _ _ _ v => v;
     rprec := fun _ v => v |}.

(** *** Binary64: three passes with gradients (1,0), (0,1), (1,0), default rule. *)
Definition d1 : spec_float := @fq D_arith 1.
Definition d0 : spec_float := @fq D_arith 0.
Definition ls_bad (s : rcg D_arith (plane D_arith)) : (spec_float * spec_float) * nat * (spec_float * spec_float) :=
  match riter s with
  | O => ((d0, d0), 1%nat, (d0, d1))
  | _ => ((d0, d0), 2%nat, (d1, d0))
  end.
Definition bad_start : rcg D_arith (plane D_arith) := rcg_start D_arith (plane D_arith) 0%nat (d1, d0) (d0, d0) (d0, d0) d0.
Definition slope_of (s : rcg D_arith (plane D_arith)) : spec_float := rmet (plane D_arith) (rx1 s) (reta1 s) (rgf1 s).

Lemma nan_direction :
  let s := rcg_dir D_arith (plane D_arith) HESTENES_STIEFEL ls_bad bad_start 2 in
  rgf1 s = (d1, d0) /\ reta1 s = (S754_infinity true, S754_infinity true) /\ slope_of s = S754_nan.
Proof. vm_compute. repeat split. Qed.

Lemma nan_refuted :
  exists (G : rgeo D_arith) m ls s0 k, let s := rcg_dir D_arith G m ls s0 k in
  flt (fq 0) (rmet G (rx1 s) (rgf1 s) (rgf1 s)) = true /\
  flt (rmet G (rx1 s) (reta1 s) (rgf1 s)) (fq 0) = false.
Proof.
  exists (plane D_arith), HESTENES_STIEFEL, ls_bad, bad_start, 2%nat. vm_compute. split; reflexivity.
Qed.

(** *** Exact arithmetic *)
Section plane.
Context {big eps : R}.
Notation A := (R_arith big eps).
Notation G := (plane A).

Lemma plane_laws : metric_laws G.
Proof.
  constructor; intros; cbn.
  - change ((fst v * fst w + snd v * snd w) = (fst w * fst v + snd w * snd v)). ring.
  - change (((a * fst v) * fst w + (a * snd v) * snd w) = a * (fst v * fst w + snd v * snd w)). ring.
  - change ((a * fst v + b * fst w) * fst u + (a * snd v + b * snd w) * snd u = a * (fst v * fst u + snd v * snd u) + b * (fst w * fst u + snd w * snd u)). ring.
  - change (0 <= fst v * fst v + snd v * snd v). nra.
Qed.
Lemma plane_euclidean : euclidean G.
Proof. constructor; [apply plane_laws| | |]; intros; reflexivity. Qed.

(** The quadratic x^2/2 + y^2 and its exact line search. *)
Definition Hq (v : R * R) : R * R := (fst v, 2 * snd v).
Definition tq (g d : R * R) : R := - (fst g * fst d + snd g * snd d) / (fst d * fst d + 2 * (snd d * snd d)).
Definition ls_exact (s : rcg A G) : (R * R) * nat * (R * R) :=
  let t := tq (rgf1 s) (reta1 s) in
  ((t * fst (reta1 s), t * snd (reta1 s)), 0%nat, (fst (rgf1 s) + t * fst (reta1 s), snd (rgf1 s) + t * (2 * snd (reta1 s)))).

Lemma quadratic_ok : convex_quadratic G Hq.
Proof.
  constructor.
  - intros x v w. change (fst v * fst w + (2 * snd v) * snd w = fst v * fst w + snd v * (2 * snd w)). ring.
  - intros x v (u & Hu). change (fst v * fst u + snd v * snd u <> 0) in Hu.
    change (0 < fst v * fst v + snd v * (2 * snd v)).
    destruct (Req_dec (fst v) 0) as [E1|E1]; destruct (Req_dec (snd v) 0) as [E2|E2].
    + exfalso. apply Hu. rewrite E1, E2. ring.
    + assert (0 < snd v * snd v) by (apply Rsqr_pos_lt; exact E2). nra.
    + assert (0 < fst v * fst v) by (apply Rsqr_pos_lt; exact E1). nra.
    + assert (0 < snd v * snd v) by (apply Rsqr_pos_lt; exact E2). nra.
Qed.

Lemma ls_exact_ok : exact_search (G := G) Hq ls_exact.
Proof.
  intros s eta2 x2 gf2 E. unfold ls_exact in E. inversion E; subst. clear E.
  split.
  - exists (tq (rgf1 s) (reta1 s)). intros u. set (t := tq _ _).
    change ((fst (rgf1 s) + t * fst (reta1 s)) * fst u + (snd (rgf1 s) + t * (2 * snd (reta1 s))) * snd u =
            fst (rgf1 s) * fst u + snd (rgf1 s) * snd u + t * (fst (reta1 s) * fst u + (2 * snd (reta1 s)) * snd u)). ring.
  - set (t := tq _ _). destruct (rgf1 s) as [a b], (reta1 s) as [c d]. cbn [fst snd] in t.
    change ((a + t * c) * c + (b + t * (2 * d)) * d = 0).
    destruct (Req_dec (c * c + 2 * (d * d)) 0) as [Z|Z].
    + assert (c = 0) by nra. assert (d = 0) by nra. subst. ring.
    + unfold t, tq. cbn [fst snd]. field. exact Z.
Qed.

Definition q_start : rcg A G := rcg_start A G 0%nat (1, 1) (0, 0) (0, 0) 0.
Lemma q_nonzero m i : (0 <= eps < 1) -> m <> OTHER -> (i <= 1)%nat ->
  let s := rcg_dir A G m ls_exact q_start i in 0 < rmet G 0%nat (rgf1 s) (rgf1 s).
Proof.
  intros Heps Hm Hi.
  assert (Z0 : 0 < rmet G 0%nat (rgf1 (rcg_dir A G m ls_exact q_start 0)) (rgf1 (rcg_dir A G m ls_exact q_start 0))).
  { destruct (gsd_keeps G q_start) as (_ & K & _). unfold rcg_dir. cbn [rcg_at]. rewrite K.
    change (0 < 1 * 1 + 1 * 1). lra. }
  destruct i as [|[|]]; [exact Z0| |lia].
  assert (C : CG G m Hq 0%nat ls_exact (1, 1) (0, 0) (0, 0) 0 0).
  { apply CG_0; auto using plane_euclidean. }
  pose proof (c_0 _ _ _ _ _ _ _ _ _ _ C) as D0. 
  change (rcg_start A G 0%nat (1, 1) (0, 0) (0, 0) 0) with q_start in D0.
  assert (G0 : rgf1 (rcg_dir A G m ls_exact q_start 0) = (1, 1)).
  { destruct (gsd_keeps G q_start) as (_ & K & _). unfold rcg_dir. cbn [rcg_at]. rewrite K. reflexivity. }
  rewrite G0 in D0.
  set (s0 := rcg_dir A G m ls_exact q_start 0) in *.
  assert (E0 : reta1 s0 = (-1, -1)).
  { destruct (reta1 s0) as [a b]. pose proof (D0 (1, 0)) as K1. pose proof (D0 (0, 1)) as K2.
    change (a * 1 + b * 0 = - (1 * 1 + 1 * 0)) in K1. change (a * 0 + b * 1 = - (1 * 0 + 1 * 1)) in K2. f_equal; lra. }
  assert (G1 : rgf1 (rcg_dir A G m ls_exact q_start 1) = (/ 3, - / 3)).
  { unfold rcg_dir. destruct (gsd_keeps G (rcg_at A G m ls_exact q_start 1)) as (_ & K & _). rewrite K.
    change (rcg_at A G m ls_exact q_start 1) with (let '(eta2, x2, gf2) := ls_exact s0 in update_data A G m s0 eta2 x2 gf2).
    unfold ls_exact. cbn [rgf1 update_data]. rewrite G0, E0. unfold tq. cbn [fst snd]. f_equal; field. }
  intros s. subst s. rewrite G1. change (0 < / 3 * / 3 + (- / 3) * (- / 3)). nra.
Qed.
End plane.

(** ** RNewton *)
Section nplane.
Context (h1 h2 : R).
Notation A := (R_arith 1 0).

(** The plane with Hessian diag(h1, h2), no preconditioner. *)
Definition nplane : tspace A :=
  Build_tspace A (R * R)
    (fun (a : R) v w => (a * fst v + fst w, a * snd v + snd w))
    (fun (a : R) v => (a * fst v, a * snd v))
    (fun v w => fst v * fst w + snd v * snd w)
    (fun v => v)
    (fun v => (h1 * fst v, h2 * snd v))
    (fun v => v).
(** The defaults, RNewton.cpp 21-25. *)
Definition ndefault : tcgparams A :=
  Build_tcgparams A 1000 0 (/ 10) (fun x => x) false.

Lemma nplane_ok : inner_product_space nplane.
Proof.
  constructor; unfold inp; cbn; intros; try reflexivity; try ring.
  - nra.
  - exact H.
Qed.
End nplane.

(** H = 2 I, gradient (1, 0): the first inner step solves the Newton equation and the residual
    test succeeds, but the direction returned is -g. *)
Lemma first_refuted :
  newton_dir _ (nplane 2 2) ndefault (1, 0) = ((-1, -0), LS_LCON, 0%nat).
Proof.
  unfold newton_dir.
  change (Max_Inner_Iter (R_arith 1 0) ndefault) with (S 999). generalize 999%nat; intros k.
  set (s := newton_init _ _ _ _).
  assert (Es : s = mkN _ (nplane 2 2) (0, 0) (1, 0) (-1, -0) 1 0).
  { unfold s, newton_init, newton_eta0, newton_Heta. cbn [useRand ndefault nplane vscal axpy prec met fst snd].
    change (@fq (R_arith 1 0) 0) with (Q2R 0). change (@fq (R_arith 1 0) (-1)) with (Q2R (-1)). rewrite lit0, litm1. 
    f_equal; try ring; f_equal; ring. }
  set (n0 := fsqrt _).
  assert (En : n0 = 1).
  { unfold n0. rewrite Es. change (sqrt (1 * 1 + 0 * 0) = 1). replace (1 * 1 + 0 * 0) with 1 by ring. apply sqrt_1. }
  assert (D : n_dHd _ (nplane 2 2) s = 2).
  { rewrite Es. change (-1 * (2 * -1) + -0 * (2 * -0) = 2). ring. }
  assert (Al : n_alpha _ (nplane 2 2) s = / 2).
  { unfold n_alpha. rewrite D, Es. change (1 / 2 = / 2). lra. }
  assert (Et : n_eta _ (nplane 2 2) s = (- / 2, 0)).
  { unfold n_eta. rewrite Al, Es. change ((/ 2 * -1 + 0, / 2 * -0 + 0) = (- / 2, 0)). f_equal; lra. }
  assert (Er : n_r _ (nplane 2 2) s = (0, 0)).
  { unfold n_r. rewrite Al, Es. change ((/ 2 * (2 * -1) + 1, / 2 * (2 * -0) + 0) = (0, 0)). f_equal; lra. }
  cbn [newton_loop].
  replace (fle (n_dHd _ (nplane 2 2) s) (fq 0)) with false
    by (rewrite D; symmetry; change (Rleb 2 (Q2R 0) = false); rewrite lit0; apply Rleb_false; lra).
  replace (n_error _ (nplane 2 2) ndefault (1, 0) s) with false.
  2:{ symmetry. unfold n_error, n_model, newton_Heta, newton_eta0. rewrite Et, Es. cbn [useRand ndefault nmodel].
      apply orb_false_iff. split.
      - change (Rleb 0 (- / 2 * 1 + 0 * 0 + Q2R (1#2) * (- / 2 * (Q2R 0 * 1) + 0 * (Q2R 0 * 0))) = false). rewrite lit0, lithalf. apply Rleb_false. lra.
      - change (Rleb (- 0) (- / 2 * 1 + 0 * 0) = false). apply Rleb_false. lra. }
  replace (n_small _ (nplane 2 2) ndefault n0 0 s) with true.
  2:{ symmetry. unfold n_small. rewrite Er, En. cbn [Min_Inner_Iter ndefault Nat.leb andb powtheta kappa].
      change (Rleb (sqrt (0 * 0 + 0 * 0)) (1 * (if Rltb 1 (/ 10) then 1 else / 10)) = true).
      replace (0 * 0 + 0 * 0) with 0 by ring. rewrite sqrt_0. apply Rleb_true.
      destruct (Rltb _ _); lra. }
  unfold n_conv. rewrite En. cbn [powtheta kappa ndefault].
  replace (@flt (R_arith 1 0) (/ 10) 1) with true by (symmetry; change (Rltb (/10) 1 = true); apply Rltb_true; lra).
  cbn [Nat.eqb]. rewrite Es. reflexivity.
Qed.

Lemma newton_first_refuted :
  exists (G : tspace (R_arith 1 0)) p g eta w, inner_product_space G /\ 0 < inp G g g /\
  newton_dir _ G p g = (eta, LS_LCON, 0%nat) /\
  (forall u, inp G w u = inp G g u + inp G (hess _ G eta) u) /\
  sqrt (inp G g g) * kappa _ p < sqrt (inp G w w).
Proof.
  exists (nplane 2 2), ndefault, (1, 0), (-1, -0), (-1, 0).
  split; [apply nplane_ok|]. split; [change (0 < 1 * 1 + 0 * 0); lra|]. split; [exact first_refuted|]. split.
  - intros u. change (-1 * fst u + 0 * snd u = (1 * fst u + 0 * snd u) + (2 * -1 * fst u + 2 * -0 * snd u)). ring.
  - change (sqrt (1 * 1 + 0 * 0) * / 10 < sqrt (-1 * -1 + 0 * 0)).
    replace (1 * 1 + 0 * 0) with 1 by ring. replace (-1 * -1 + 0 * 0) with 1 by ring. rewrite sqrt_1. lra.
Qed.

(** H = diag(1, 2), gradient (1, 1): two inner steps, the exact Newton step is returned. *)
Lemma second_converges :
  exists eta, newton_dir _ (nplane 1 2) ndefault (1, 1) = (eta, LS_LCON, 1%nat).
Proof.
  unfold newton_dir.
  change (Max_Inner_Iter (R_arith 1 0) ndefault) with (S (S 998)). generalize 998%nat; intros k.
  set (s := newton_init _ _ _ _).
  assert (Es : s = mkN _ (nplane 1 2) (0, 0) (1, 1) (-1, -1) 2 0).
  { unfold s, newton_init, newton_eta0, newton_Heta. cbn [useRand ndefault nplane vscal axpy prec met fst snd].
    change (@fq (R_arith 1 0) 0) with (Q2R 0). change (@fq (R_arith 1 0) (-1)) with (Q2R (-1)). rewrite lit0, litm1.
    f_equal; try lra; f_equal; lra. }
  set (n0 := fsqrt _).
  assert (En : n0 = sqrt 2).
  { unfold n0. rewrite Es. change (sqrt (1 * 1 + 1 * 1) = sqrt 2). f_equal. ring. }
  assert (B : 1 < sqrt 2 < 3 / 2).
  { split; [rewrite <- sqrt_1 at 1; apply sqrt_lt_1; lra|]. replace (3 / 2) with (sqrt (9 / 4)); [apply sqrt_lt_1; lra|].
    replace (9 / 4) with (3 / 2 * (3 / 2)) by field. apply sqrt_square. lra. }
  assert (NH : newton_Heta _ (nplane 1 2) ndefault (1, 1) = (0, 0)).
  { unfold newton_Heta, newton_eta0. cbn [useRand ndefault nplane vscal fst snd]. change (@fq (R_arith 1 0) 0) with (Q2R 0). rewrite lit0. f_equal; ring. }
  assert (D : n_dHd _ (nplane 1 2) s = 3).
  { rewrite Es. change (-1 * (1 * -1) + -1 * (2 * -1) = 3). ring. }
  assert (Al : n_alpha _ (nplane 1 2) s = 2 / 3) by (unfold n_alpha; rewrite D, Es; reflexivity).
  assert (Et : n_eta _ (nplane 1 2) s = (- 2 / 3, - 2 / 3)).
  { unfold n_eta. rewrite Al, Es. change ((2 / 3 * -1 + 0, 2 / 3 * -1 + 0) = (- 2 / 3, - 2 / 3)). f_equal; lra. }
  assert (Er : n_r _ (nplane 1 2) s = (/ 3, - / 3)).
  { unfold n_r. rewrite Al, Es. change ((2 / 3 * (1 * -1) + 1, 2 / 3 * (2 * -1) + 1) = (/ 3, - / 3)). f_equal; lra. }
  assert (Em : n_model _ (nplane 1 2) ndefault (1, 1) s = - 4 / 3).
  { unfold n_model. rewrite Et, NH. change (- 2 / 3 * 1 + - 2 / 3 * 1 + Q2R (1#2) * (- 2 / 3 * 0 + - 2 / 3 * 0) = - 4 / 3). lra. }
  set (s' := n_next _ (nplane 1 2) ndefault (1, 1) s).
  assert (Es' : s' = mkN _ (nplane 1 2) (- 2 / 3, - 2 / 3) (/ 3, - / 3) (- 4 / 9, 2 / 9) (2 / 9) (- 4 / 3)).
  { unfold s', n_next. rewrite Et, Er, Em, Es. cbn [nplane vscal axpy prec met fst snd nzr ndelta].
    change (@fq (R_arith 1 0) (-1)) with (Q2R (-1)). rewrite litm1.
    change (@fdiv (R_arith 1 0) ?a ?b) with (Rdiv a b).
    f_equal; [|field]. f_equal; field. }
  assert (D' : n_dHd _ (nplane 1 2) s' = 8 / 27).
  { rewrite Es'. change (- 4 / 9 * (1 * (- 4 / 9)) + 2 / 9 * (2 * (2 / 9)) = 8 / 27). field. }
  assert (Al' : n_alpha _ (nplane 1 2) s' = 3 / 4).
  { unfold n_alpha. rewrite D', Es'. change ((2 / 9) / (8 / 27) = 3 / 4). field. }
  assert (Et' : n_eta _ (nplane 1 2) s' = (-1, - / 2)).
  { unfold n_eta. rewrite Al', Es'. change ((3 / 4 * (- 4 / 9) + - 2 / 3, 3 / 4 * (2 / 9) + - 2 / 3) = (-1, - / 2)). f_equal; field. }
  assert (Er' : n_r _ (nplane 1 2) s' = (0, 0)).
  { unfold n_r. rewrite Al', Es'. change ((3 / 4 * (1 * (- 4 / 9)) + / 3, 3 / 4 * (2 * (2 / 9)) + - / 3) = (0, 0)). f_equal; field. }
  cbn [newton_loop]. fold s'.
  replace (fle (n_dHd _ (nplane 1 2) s) (fq 0)) with false
    by (rewrite D; symmetry; change (Rleb 3 (Q2R 0) = false); rewrite lit0; apply Rleb_false; lra).
  replace (n_error _ (nplane 1 2) ndefault (1, 1) s) with false.
  2:{ symmetry. unfold n_error. rewrite Em, Et, Es. cbn [nmodel].
      apply orb_false_iff. split.
      - change (Rleb 0 (- 4 / 3) = false). apply Rleb_false. lra.
      - change (Rleb (- 0) (- 2 / 3 * 1 + - 2 / 3 * 1) = false). apply Rleb_false. lra. }
  replace (n_small _ (nplane 1 2) ndefault n0 0 s) with false.
  2:{ symmetry. unfold n_small. rewrite Er, En. cbn [Min_Inner_Iter ndefault Nat.leb andb powtheta kappa].
      change (Rleb (sqrt (/ 3 * / 3 + - / 3 * - / 3)) (sqrt 2 * (if Rltb (sqrt 2) (/ 10) then sqrt 2 else / 10)) = false).
      replace (/ 3 * / 3 + - / 3 * - / 3) with (/ 3 * / 3 * 2) by ring. rewrite sqrt_mult by lra. rewrite sqrt_square by lra.
      apply Rleb_false. destruct (Rltb _ _) eqn:L; [apply Rltb_true in L|]; lra. }
  replace (fle (n_dHd _ (nplane 1 2) s') (fq 0)) with false
    by (rewrite D'; symmetry; change (Rleb (8/27) (Q2R 0) = false); rewrite lit0; apply Rleb_false; lra).
  replace (n_error _ (nplane 1 2) ndefault (1, 1) s') with false.
  2:{ symmetry. unfold n_error, n_model. rewrite NH, Et', Es'. cbn [nmodel].
      apply orb_false_iff. split.
      - change (Rleb (- 4 / 3) (-1 * 1 + - / 2 * 1 + Q2R (1#2) * (-1 * 0 + - / 2 * 0)) = false). apply Rleb_false. lra.
      - change (Rleb (- 0) (-1 * 1 + - / 2 * 1) = false). apply Rleb_false. lra. }
  replace (n_small _ (nplane 1 2) ndefault n0 1 s') with true.
  2:{ symmetry. unfold n_small. rewrite Er', En. cbn [Min_Inner_Iter ndefault Nat.leb andb powtheta kappa].
      change (Rleb (sqrt (0 * 0 + 0 * 0)) (sqrt 2 * (if Rltb (sqrt 2) (/ 10) then sqrt 2 else / 10)) = true).
      replace (0 * 0 + 0 * 0) with 0 by ring. rewrite sqrt_0. apply Rleb_true.
      destruct (Rltb _ _); nra. }
  unfold n_conv. rewrite En. cbn [powtheta kappa ndefault].
  replace (@flt (R_arith 1 0) (/ 10) (sqrt 2)) with true by (symmetry; change (Rltb (/10) (sqrt 2) = true); apply Rltb_true; lra).
  cbn [Nat.eqb]. exists (n_eta _ (nplane 1 2) s'). reflexivity.
Qed.
