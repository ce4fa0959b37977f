(** Proofs about the inner conjugate gradient iteration of RNewton, exact arithmetic. *)
From Coq Require Import QArith Reals List Bool Lra Lia Psatz Arith Qreals.
From Verif Require Import Arith TrustRegionModel TrustRegionSpec TCGProofs DirectionModel.
Local Open Scope R_scope.

Section newton.
Context {big eps : R}.
Notation A := (R_arith big eps).
Context (G : tspace A) (p : tcgparams A) (g : V A G).
Context (HG : inner_product_space G).
Notation V := (V A G). Notation inp := (inp G).
Notation H := (hess A G). Notation M := (prec A G).
Notation ncg := (ncg A G).
Notation eta := (@neta A G). Notation r := (@nr A G). Notation delta := (@ndelta A G). Notation zr := (@nzr A G).
Notation modelv := (@nmodel A G).
Notation dHd := (n_dHd A G). Notation alpha := (n_alpha A G).
Notation enew := (n_eta A G). Notation rnew := (n_r A G).

(** S grown by the direction d. *)
Definition ngrow (S : V -> Prop) (d : V) (w : V) : Prop :=
  exists v t, S v /\ forall u, inp w u = inp v u + t * inp d u.

Record NInv (S : V -> Prop) (s : ncg) : Prop := {
  n_lin : forall v w c u, S v -> S w -> (forall x, inp u x = inp v x + c * inp w x) -> S u;
  n_zero : forall v, (forall u, inp v u = 0) -> S v;
  n_in : S (eta s);
  n_res : forall u, inp (r s) u = inp g u + inp (H (eta s)) u;
  n_orth : forall v, S v -> inp (r s) v = 0;
  n_dir : exists v, S v /\ forall u, inp (M (r s)) u = - inp (delta s) u + inp v u;
  n_conj : forall v, S v -> inp (delta s) (H v) = 0;
  n_kry : forall v, S v -> ngrow S (delta s) (M (H v));
  n_zr : zr s = inp (M (r s)) (r s);
  n_zr0 : 0 < zr s;
  n_mod : modelv s = inp (eta s) g
}.

Lemma nHswap v w : inp v (H w) = inp w (H v).
Proof. now rewrite (inp_sym G HG), (hess_sym G HG). Qed.

Lemma nr_delta S s : NInv S s -> inp (r s) (delta s) = - zr s.
Proof.
  intros I. destruct (n_dir _ _ I) as (v & Hv & E).
  rewrite (n_zr _ _ I). rewrite E. rewrite (inp_sym G HG (delta s)), (inp_sym G HG v), (n_orth _ _ I v Hv). lra.
Qed.

Lemma g_delta S s : NInv S s -> inp g (delta s) = - zr s.
Proof.
  intros I. pose proof (nr_delta _ _ I) as E. rewrite (n_res _ _ I) in E.
  rewrite (inp_sym G HG (H _)), (n_conj _ _ I _ (n_in _ _ I)) in E. lra.
Qed.

Lemma n_eta_inp s u : inp (enew s) u = alpha s * inp (delta s) u + inp (eta s) u.
Proof. apply (inp_axpy G HG). Qed.
Lemma n_r_inp s u : inp (rnew s) u = alpha s * inp (H (delta s)) u + inp (r s) u.
Proof. unfold n_r. rewrite (inp_proj G HG). apply (inp_axpy G HG). Qed.

Lemma n_alpha_pos S s : NInv S s -> 0 < dHd s -> 0 < alpha s.
Proof. intros I Hd. apply Rdiv_lt_0_compat; [apply (n_zr0 _ _ I)|exact Hd]. Qed.
Lemma n_alpha_eq s : 0 < dHd s -> alpha s * dHd s = zr s.
Proof. intros Hd. unfold n_alpha. change (@fdiv A) with Rdiv. field. apply Rgt_not_eq, Hd. Qed.

(** The slope along the new iterate. *)
Lemma slope_new S s : NInv S s -> 0 < dHd s -> inp (enew s) g < inp (eta s) g.
Proof.
  intros I Hd. rewrite n_eta_inp, (inp_sym G HG (delta s)), (g_delta _ _ I).
  pose proof (n_alpha_pos _ _ I Hd). pose proof (n_zr0 _ _ I).
  assert (0 < alpha s * zr s) by (apply Rmult_lt_0_compat; assumption).
  replace (alpha s * - zr s) with (- (alpha s * zr s)) by ringR. lra.
Qed.

(** The residual recurrence computes the residual, with no assumption on the curvature. *)
Lemma res_new S s : NInv S s -> forall u, inp (rnew s) u = inp g u + inp (H (enew s)) u.
Proof.
  intros I u. rewrite n_r_inp, (n_res _ _ I), (hess_sym G HG (enew s)), n_eta_inp, <- !(hess_sym G HG). ringR.
Qed.

Lemma Heta0 u : inp (newton_Heta A G p g) u = 0.
Proof.
  assert (Z : forall u, inp (newton_eta0 A G g) u = 0).
  { intros w. unfold newton_eta0. rewrite (inp_vscal G HG). change (@fq A 0) with (Q2R 0). rewrite lit0. ringR. }
  unfold newton_Heta. destruct (useRand A p); [|apply Z]. rewrite (hess_sym G HG). apply Z.
Qed.

Lemma n_model_eq s : n_model A G p g s = inp (enew s) g.
Proof.
  unfold n_model. change (inp (enew s) g + Q2R (1#2) * inp (enew s) (newton_Heta A G p g) = inp (enew s) g).
  rewrite (inp_sym G HG _ (newton_Heta _ _ _ _)), Heta0. ringR.
Qed.

Lemma nr_new_orth S s : NInv S s -> 0 < dHd s -> forall w, ngrow S (delta s) w -> inp (rnew s) w = 0.
Proof.
  intros I Hd w (v & t & Hv & E). rewrite (inp_sym G HG), E.
  rewrite !(inp_sym G HG _ (rnew s)), !n_r_inp.
  rewrite (n_orth _ _ I v Hv), (nr_delta _ _ I).
  rewrite (hess_sym G HG (delta s) v), (n_conj _ _ I v Hv).
  rewrite (inp_sym G HG (H (delta s)) (delta s)). change (inp (delta s) (H (delta s))) with (dHd s).
  rewrite n_alpha_eq by exact Hd. ringR.
Qed.

Lemma ninv_next S s : NInv S s -> 0 < dHd s ->
  0 < inp (rnew s) (rnew s) -> NInv (ngrow S (delta s)) (n_next A G p g s).
Proof.
  intros I Hd Hr. pose proof (n_alpha_pos _ _ I Hd) as Ha. pose proof (n_alpha_eq s Hd) as Haq.
  pose proof (n_zr0 _ _ I) as Hz0.
  set (r' := rnew s) in *. set (z' := M r'). set (zr' := inp z' r').
  set (beta := zr' / zr s).
  set (d' := TrustRegionModel.axpy A G (-1) z' (vscal A G beta (delta s))).
  assert (Hd' : forall u, inp d' u = - inp z' u + beta * inp (delta s) u).
  { intros u. unfold d'. rewrite (inp_axpy G HG), (inp_vscal G HG). ringR. }
  assert (Hdel : delta (n_next A G p g s) = d').
  { unfold n_next, d'. cbn [ndelta]. change (fq (-1)) with (Q2R (-1)). rewrite litm1. reflexivity. }
  pose proof (nr_new_orth _ _ I Hd) as Ho. fold r' in Ho.
  destruct (n_dir _ _ I) as (sk & Hsk & Esk).
  assert (Sz : S (vscal A G 0 (delta s))).
  { apply (n_zero _ _ I). intros u. rewrite (inp_vscal G HG). ringR. }
  assert (Gd : ngrow S (delta s) (delta s)).
  { exists (vscal A G 0 (delta s)), 1. split; [exact Sz|]. intros u. rewrite (inp_vscal G HG). ringR. }
  assert (Gz : ngrow S (delta s) (M (r s))).
  { exists sk, (-1). split; [exact Hsk|]. intros u. rewrite Esk. ringR. }
  assert (Ge : ngrow S (delta s) (enew s)).
  { exists (eta s), (alpha s). split; [apply (n_in _ _ I)|]. intros u. rewrite n_eta_inp. ringR. }
  assert (HzH : alpha s * inp z' (H (delta s)) = zr').
  { assert (E : alpha s * inp (H (delta s)) z' = inp r' z' - inp (r s) z') by (unfold r'; rewrite n_r_inp; ring).
    rewrite (inp_sym G HG z' (H (delta s))), E.
    unfold z' at 2. rewrite <- (prec_sym G HG), (inp_sym G HG _ r'), (Ho _ Gz).
    unfold zr'. rewrite (inp_sym G HG r' z'). ringR. }
  assert (Hconj0 : inp d' (H (delta s)) = 0).
  { rewrite Hd'. change (inp (delta s) (H (delta s))) with (dHd s).
    apply Rmult_eq_reg_l with (alpha s); [|lra]. rewrite Rmult_plus_distr_l.
    replace (alpha s * - inp z' (H (delta s))) with (- (alpha s * inp z' (H (delta s)))) by ringR. rewrite HzH.
    replace (alpha s * (beta * dHd s)) with (beta * (alpha s * dHd s)) by ringR. rewrite Haq. unfold beta. field. lra. }
  assert (Hlin : forall v w c u, ngrow S (delta s) v -> ngrow S (delta s) w ->
      (forall x, inp u x = inp v x + c * inp w x) -> ngrow S (delta s) u).
  { intros v w c u (v1 & t1 & Hv1 & E1) (w1 & t2 & Hw1 & E2) E.
    exists (TrustRegionModel.axpy A G c w1 v1), (t1 + c * t2). split.
    - apply (n_lin _ _ I v1 w1 c); auto. intros x. rewrite (inp_axpy G HG). ringR.
    - intros x. rewrite E, E1, E2, (inp_axpy G HG). ringR. }
  assert (Hzr' : 0 < zr') by (apply (prec_pos G HG); exact Hr).
  constructor.
  - exact Hlin.
  - intros v Hv. exists v, 0. split; [apply (n_zero _ _ I v Hv)|]. intros u. ringR.
  - exact Ge.
  - apply (res_new _ _ I).
  - exact Ho.
  - exists (vscal A G beta (delta s)). split.
    + exists (vscal A G 0 (delta s)), beta. split; [exact Sz|]. intros u. rewrite !(inp_vscal G HG). ringR.
    + intros u. rewrite Hdel, Hd', (inp_vscal G HG). change (nr (n_next A G p g s)) with r'. fold z'. ringR.
  - intros w (v & t & Hv & E). rewrite Hdel.
    rewrite <- (hess_sym G HG), (inp_sym G HG (H d') w), E, !(inp_sym G HG _ (H d')), !(hess_sym G HG), Hconj0.
    rewrite Hd'. unfold z'. rewrite (prec_sym G HG), (Ho _ (n_kry _ _ I v Hv)), (n_conj _ _ I v Hv). ringR.
  - intros w (v & t & Hv & E). rewrite Hdel.
    destruct (n_kry _ _ I v Hv) as (v1 & t1 & Hv1 & E1).
    exists (TrustRegionModel.axpy A G (t / alpha s) (TrustRegionModel.axpy A G beta (delta s) (vscal A G (-1) (M (r s)))) (M (H v))), (- t / alpha s).
    split.
    + apply (Hlin (M (H v)) (TrustRegionModel.axpy A G beta (delta s) (vscal A G (-1) (M (r s)))) (t / alpha s)).
      * exists v1, t1. auto.
      * apply (Hlin (vscal A G (-1) (M (r s))) (delta s) beta); [|exact Gd|intros x; rewrite (inp_axpy G HG); ringR].
        destruct Gz as (v2 & t2 & Hv2 & E2). exists (vscal A G (-1) v2), (- t2). split.
        -- apply (n_lin _ _ I (vscal A G 0 (delta s)) v2 (-1)); auto. intros x. rewrite !(inp_vscal G HG). ringR.
        -- intros x. rewrite !(inp_vscal G HG), E2. ringR.
      * intros x. rewrite (inp_axpy G HG). ringR.
    + intros u. rewrite !(inp_axpy G HG), (inp_vscal G HG), Hd'.
      rewrite (prec_sym G HG (H w)), (hess_sym G HG w), E, <- !(hess_sym G HG), <- !(prec_sym G HG (H _)).
      assert (K : alpha s * inp (M (H (delta s))) u = inp z' u - inp (M (r s)) u).
      { unfold z'. rewrite !(prec_sym G HG). unfold r'. rewrite n_r_inp. ringR. }
      assert (K2 : inp (M (H (delta s))) u = (inp z' u - inp (M (r s)) u) / alpha s) by (rewrite <- K; field; lra).
      rewrite K2. field. lra.
  - reflexivity.
  - exact Hzr'.
  - apply n_model_eq.
Qed.

Lemma ninv_init : 0 < inp g g -> NInv (fun v => forall u, inp v u = 0) (newton_init A G p g).
Proof.
  intros Hg. set (s := newton_init A G p g). set (v0 := newton_eta0 A G g).
  assert (Z : forall u, inp v0 u = 0).
  { intros u. unfold v0, newton_eta0. rewrite (inp_vscal G HG). change (@fq A 0) with (Q2R 0). rewrite lit0. ringR. }
  assert (ZH : forall u, inp (H v0) u = 0) by (intros u; rewrite (hess_sym G HG); apply Z).
  assert (Rg : forall u, inp (r s) u = inp g u).
  { intros u. unfold s, newton_init; cbn [nr]. destruct (useRand A p); [|reflexivity].
    rewrite (inp_axpy G HG), Heta0. change (@fq A 1) with (Q2R 1). rewrite lit1. ringR. }
  assert (RR : 0 < inp (r s) (r s)) by (rewrite Rg, (inp_sym G HG), Rg; exact Hg).
  assert (D : forall u, inp (delta s) u = - inp (M (r s)) u).
  { intros u. unfold s at 1, newton_init; cbn [ndelta]. rewrite (inp_vscal G HG). change (@fq A (-1)) with (Q2R (-1)). rewrite litm1.
    match goal with |- _ = - inp (M ?a) u => change (-1 * inp (M a) u = - inp (M a) u) end. ringR. }
  assert (Zr : zr s = inp (M (r s)) (r s)) by reflexivity.
  assert (Eta : eta s = v0) by reflexivity.
  constructor.
  - intros v w c u Hv Hw E x. rewrite E, Hv, Hw. ringR.
  - auto.
  - rewrite Eta. exact Z.
  - intros u. rewrite Rg, Eta, ZH. ringR.
  - intros v Hv. rewrite (inp_sym G HG). apply Hv.
  - exists v0. split; [exact Z|]. intros u. rewrite D, Z. ringR.
  - intros v Hv. rewrite nHswap. apply Hv.
  - intros v Hv. exists v0, 0. split; [exact Z|]. intros u. rewrite Z, (prec_sym G HG), (hess_sym G HG), Hv. ringR.
  - exact Zr.
  - rewrite Zr. apply (prec_pos G HG), RR.
  - rewrite Eta, Z. unfold s, newton_init; cbn [nmodel]. destruct (useRand A p).
    + change (inp v0 g + Q2R (1#2) * inp v0 (newton_Heta A G p g) = 0). rewrite !Z. ringR.
    + apply lit0.
Qed.

Notation lres := (V * V * lsstatus * nat)%type.
Definition l_eta (x : lres) := fst (fst (fst x)).
Definition l_delta (x : lres) := snd (fst (fst x)).
Definition l_st (x : lres) := snd (fst x).
Definition l_j (x : lres) := snd x.

(** Residual bounds promised by the stopping test. *)
Definition converged (nr0 : R) (v : V) : Prop :=
  forall w, (forall u, inp w u = inp g u + inp (H v) u) ->
    sqrt (inp w w) <= nr0 * kappa A p /\ sqrt (inp w w) <= nr0 * powtheta A p nr0.

Lemma n_small_spec (nr0 : R) j s : 0 <= nr0 -> n_small A G p nr0 j s = true ->
  sqrt (inp (rnew s) (rnew s)) <= nr0 * kappa A p /\ sqrt (inp (rnew s) (rnew s)) <= nr0 * powtheta A p nr0.
Proof.
  intros Hn E. unfold n_small in E. apply andb_true_iff in E. destruct E as [_ E].
  set (q := (if flt (powtheta A p nr0) (kappa A p) then powtheta A p nr0 else kappa A p)) in E.
  change (Rleb (sqrt (inp (rnew s) (rnew s))) (nr0 * q) = true) in E. apply Rleb_true in E.
  assert (Q : q <= kappa A p /\ q <= powtheta A p nr0).
  { unfold q. destruct (flt _ _) eqn:L.
    - change (Rltb (powtheta A p nr0) (kappa A p) = true) in L. apply Rltb_true in L. lra.
    - change (Rltb (powtheta A p nr0) (kappa A p) = false) in L. apply Rltb_false in L. lra. }
  destruct Q. split; eapply Rle_trans; try exact E; apply Rmult_le_compat_l; auto.
Qed.

Lemma conv_of_small (nr0 : R) s j S : NInv S s -> 0 <= nr0 -> n_small A G p nr0 j s = true -> converged nr0 (enew s).
Proof.
  intros I Hn E w Hw. apply n_small_spec in E; [|exact Hn].
  assert (Ew : inp w w = inp (rnew s) (rnew s)).
  { rewrite Hw, <- (res_new _ _ I), (inp_sym G HG), Hw, <- (res_new _ _ I). reflexivity. }
  rewrite Ew. exact E.
Qed.

(** A state whose residual vanished: the next pass stops with the iterate it has. *)
Definition dead (s : ncg) : Prop := (forall u, inp (delta s) u = 0) /\ inp (eta s) g < 0.

Lemma dead_stop (nr0 : R) k j s : dead s -> 
  let x := newton_loop A G p g nr0 k j s in
  l_eta x = eta s /\ (l_st x = LS_MAXITER \/ l_st x = LS_NEGCURVTURE) /\ l_j x = j.
Proof.
  intros [D E]. destruct k; cbn [newton_loop]; [cbn; auto|].
  assert (Z : fle (dHd s) (fq 0) = true).
  { change (Rleb (inp (delta s) (H (delta s))) (Q2R 0) = true). rewrite D, lit0. apply Rleb_true. lra. }
  rewrite Z. cbn; auto.
Qed.

Lemma dead_next S s : NInv S s -> inp (rnew s) (rnew s) = 0 -> 0 < dHd s -> inp (enew s) g < 0 -> dead (n_next A G p g s).
Proof.
  intros I Hr Hd He. split; [|exact He].
  assert (CS : forall v u, inp v v = 0 -> inp v u = 0).
  { intros v u Hv. destruct (Req_dec (inp v u) 0) as [|N]; [assumption|]. exfalso.
    pose (t := - (inp u u + 1) / (2 * inp v u)).
    pose proof (inp_pos G HG (TrustRegionModel.axpy A G t v u)) as P.
    rewrite (inp_axpy G HG), (inp_sym G HG v (TrustRegionModel.axpy _ _ _ _ _)), (inp_sym G HG u (TrustRegionModel.axpy _ _ _ _ _)), !(inp_axpy G HG), Hv, (inp_sym G HG u v) in P.
    assert (E : t * inp v u = - (inp u u + 1) / 2) by (unfold t; field; exact N).
    replace (t * (t * 0 + inp v u) + (t * inp v u + inp u u)) with (2 * (t * inp v u) + inp u u) in P by ring.
    rewrite E in P. lra. }
  intros u. unfold n_next; cbn [ndelta]. rewrite (inp_axpy G HG), (inp_vscal G HG), (prec_sym G HG), (CS _ _ Hr).
  match goal with |- context [TrustRegionModel.met A G (M (rnew s)) (rnew s)] => 
    change (TrustRegionModel.met A G (M (rnew s)) (rnew s)) with (inp (M (rnew s)) (rnew s)) end.
  rewrite (prec_sym G HG), (CS _ _ Hr). change (@fdiv A 0 (zr s)) with (0 / zr s). unfold Rdiv. ringR.
Qed.

Lemma loop_good nr0 (Hn : 0 <= nr0) k : forall j S s, NInv S s -> inp (eta s) g <= 0 -> ((0 < j)%nat -> inp (eta s) g < 0) ->
  let x := newton_loop A G p g nr0 k j s in
  (j <= l_j x)%nat /\
  (l_j x = j -> l_delta x = delta s) /\
  ((0 < l_j x)%nat -> inp (l_eta x) g < 0) /\
  ((l_st x = LS_LCON \/ l_st x = LS_SCON) -> converged nr0 (l_eta x)).
Proof.
  induction k as [|k IH]; intros j S s I He He'; cbn [newton_loop].
  - cbn. split; [lia|]. split; [auto|]. split; [auto|]. intros [E|E]; discriminate.
  - destruct (fle (dHd s) (fq 0)) eqn:E1.
    { cbn. split; [lia|]. split; [auto|]. split; [auto|]. intros [E|E]; discriminate. }
    assert (Hd : 0 < dHd s).
    { change (Rleb (dHd s) (Q2R 0) = false) in E1. rewrite lit0 in E1. now apply Rleb_false. }
    assert (Hlt : inp (enew s) g < inp (eta s) g) by (apply (slope_new _ _ I Hd)).
    assert (Hneg : inp (enew s) g < 0) by lra.
    destruct (n_error A G p g s) eqn:E2.
    { cbn. split; [lia|]. split; [auto|]. split; [auto|]. intros [E|E]; discriminate. }
    destruct (n_small A G p nr0 j s) eqn:E3.
    { cbn. split; [lia|]. split; [auto|]. split; [auto|]. intros _. apply (conv_of_small _ _ _ _ I Hn E3). }
    destruct (Rle_lt_or_eq_dec _ _ (inp_pos G HG (rnew s))) as [Hr|Hr].
    + destruct (IH (Datatypes.S j) _ _ (ninv_next _ _ I Hd Hr)) as (Q1 & Q2 & Q3 & Q4); [apply Rlt_le, Hneg|intros _; exact Hneg|].
      set (x := newton_loop A G p g nr0 k (Datatypes.S j) (n_next A G p g s)) in *.
      split; [lia|]. split; [lia|]. split; [exact Q3|exact Q4].
    + destruct (dead_stop nr0 k (Datatypes.S j) _ (dead_next _ _ I (eq_sym Hr) Hd Hneg)) as (Q1 & Q2 & Q3).
      set (x := newton_loop A G p g nr0 k (Datatypes.S j) (n_next A G p g s)) in *.
      split; [lia|]. split; [lia|]. split.
      * intros _. rewrite Q1. exact Hneg.
      * intros [E|E]; rewrite E in Q2; destruct Q2; discriminate.
Qed.

Lemma newton_dir_good : 0 < inp g g ->
  let '(eta, st, j) := newton_dir A G p g in
  inp eta g < 0 /\
  (j = 0%nat -> forall u, inp eta u = - inp (M g) u) /\
  ((st = LS_LCON \/ st = LS_SCON) -> (0 < j)%nat ->
    forall w, (forall u, inp w u = inp g u + inp (H eta) u) ->
      sqrt (inp w w) <= sqrt (inp g g) * kappa A p /\
      sqrt (inp w w) <= sqrt (inp g g) * powtheta A p (sqrt (inp g g))).
Proof.
  intros Hg. unfold newton_dir. pose proof (ninv_init Hg) as I. set (s := newton_init A G p g) in *.
  assert (Z : forall u, inp (eta s) u = 0).
  { intros u. unfold s, newton_init, newton_eta0; cbn [neta]. rewrite (inp_vscal G HG). change (@fq A 0) with (Q2R 0). rewrite lit0. ringR. }
  assert (Rg : forall u, inp (r s) u = inp g u).
  { intros u. rewrite (n_res _ _ I), (hess_sym G HG (eta s)), Z. ringR. }
  assert (N0 : sqrt (inp (r s) (r s)) = sqrt (inp g g)) by (rewrite Rg, (inp_sym G HG), Rg; reflexivity).
  change (fsqrt (TrustRegionModel.met A G (r s) (r s))) with (sqrt (inp (r s) (r s))). rewrite N0.
  set (n0 := sqrt (inp g g)) in *.
  pose proof (loop_good n0 (sqrt_pos _) (Max_Inner_Iter A p) 0 _ s I) as K.
  rewrite Z in K. specialize (K (Rle_refl 0) ltac:(lia)).
  destruct (newton_loop A G p g n0 (Max_Inner_Iter A p) 0 s) as [[[e d] st] j]. unfold l_j, l_delta, l_eta, l_st in K; cbn [fst snd] in K.
  destruct K as (_ & K2 & K3 & K4).
  assert (D : j = 0%nat -> forall u, inp d u = - inp (M g) u).
  { intros Ej u. rewrite (K2 Ej). unfold s at 1, newton_init; cbn [ndelta]. rewrite (inp_vscal G HG).
    change (@fq A (-1)) with (Q2R (-1)). rewrite litm1.
    match goal with |- _ * inp (M ?a) u = _ => change a with (r s) end.
    rewrite (prec_sym G HG), Rg, <- (prec_sym G HG). ringR. }
  destruct (Nat.eqb j 0) eqn:Ej.
  - apply Nat.eqb_eq in Ej. split; [|split; [exact D|lia]].
    rewrite (D Ej). pose proof (prec_pos G HG g Hg). lra.
  - apply Nat.eqb_neq in Ej. split; [apply K3; lia|]. split; [lia|].
    intros Hst _. apply (K4 Hst).
Qed.
Lemma newton_descent : 0 < inp g g -> forall eta st j, newton_dir A G p g = (eta, st, j) -> inp eta g < 0.
Proof. intros Hg eta st j E. pose proof (newton_dir_good Hg) as K. rewrite E in K. apply K. Qed.
End newton.
