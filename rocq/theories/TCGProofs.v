(** Proofs about the truncated conjugate gradient method, exact arithmetic. *)
From Coq Require Import QArith Reals List Bool Lra Lia Psatz Arith Qreals.
From Verif Require Import Arith TrustRegionModel TrustRegionSpec.
Local Open Scope R_scope.

Ltac ringR := match goal with |- @eq _ ?a ?b => change (@eq R a b); ring end.

Lemma lit2 : Q2R 2 = 2. Proof. unfold Q2R. simpl. lra. Qed.
Lemma lit0 : Q2R 0 = 0. Proof. unfold Q2R. simpl. lra. Qed.
Lemma lit1 : Q2R 1 = 1. Proof. unfold Q2R. simpl. lra. Qed.
Lemma litm1 : Q2R (-1) = -1. Proof. unfold Q2R. simpl. lra. Qed.
Lemma lithalf : Q2R (1#2) = / 2. Proof. unfold Q2R. simpl. lra. Qed.

(** The step to the boundary of a ball. *)
Lemma boundary_root (a b c D : R) : 0 < a -> 0 <= c -> c <= D ->
  let t := (- b + sqrt (b * b + a * (D - c))) / a in
  c + 2 * t * b + t * t * a = D /\ 0 <= t.
Proof.
  intros Ha Hc HD t. pose (w := sqrt (b * b + a * (D - c))).
  assert (Hnn : 0 <= b * b + a * (D - c)) by nra.
  assert (Hw : w * w = b * b + a * (D - c)) by (apply sqrt_sqrt; exact Hnn).
  assert (Hw0 : 0 <= w) by apply sqrt_pos.
  assert (Ht : t * a = - b + w) by (unfold t; fold w; field; lra).
  split.
  - assert (E : a * (c + 2 * t * b + t * t * a) = a * D) by (transitivity (a * c + 2 * (t * a) * b + (t * a) * (t * a)); [ringR|]; rewrite Ht; nra).
    apply Rmult_eq_reg_l with a; lra.
  - assert (b <= w). { destruct (Rle_dec b 0); [lra|]. apply Rsqr_incr_0_var; [unfold Rsqr; nra|exact Hw0]. }
    assert (0 <= t * a) by lra. destruct (Rle_dec 0 t); [easy|]. nra.
Qed.

(** A point at or beyond the boundary is not before the boundary root. *)
Lemma beyond_root (a b c D t u : R) : 0 < a -> c < D -> 0 <= u ->
  c + 2 * t * b + t * t * a = D -> 0 <= t ->
  D <= c + 2 * u * b + u * u * a -> t <= u.
Proof.
  intros Ha Hc Hu Ht Ht0 Hb. destruct (Rle_dec t u); [easy|]. exfalso.
  assert (0 < t) by lra.
  (* convexity between 0 and t *)
  assert (K : t * (c + 2 * u * b + u * u * a) < t * D).
  { replace (t * (c + 2 * u * b + u * u * a)) with (c * (t - u) + u * (c + 2 * t * b + t * t * a) + u * t * a * (u - t)) by ringR.
    rewrite Ht. assert (u * t * a * (u - t) <= 0). { assert (0 <= u * t * a) by (apply Rmult_le_pos; [apply Rmult_le_pos|]; lra). nra. }
    assert (c * (t - u) < D * (t - u)) by (apply Rmult_lt_compat_r; lra). nra. }
  apply Rmult_lt_reg_l in K; lra.
Qed.

Section cg.
Context {big eps : R}.
Notation A := (R_arith big eps).
Context (G : tspace A) (p : tcgparams A) (g : V A G) (Delta : R) (Minv : V A G -> V A G).
Context (HG : inner_product_space G) (HM : inverse_of_prec G Minv) (HD : 0 < Delta).
Notation V := (V A G). Notation inp := (inp G).
Notation H := (hess A G). Notation M := (prec A G).
Notation cg := (cg A G).
Notation eta := (ceta A G). Notation Heta := (cHeta A G). Notation r := (cr A G). Notation delta := (cdelta A G).
Notation ePe := (cePe A G). Notation ePd := (cePd A G). Notation dPd := (cdPd A G). Notation zr := (czr A G).
Notation modelv := (cmodel A G).
Notation dHd := (d_Hd A G). Notation alpha := (alphatemp A G).

(** S grown by the direction d. *)
Definition grow (S : V -> Prop) (d : V) (w : V) : Prop :=
  exists v t, S v /\ forall u, inp w u = inp v u + t * inp d u.

Record Inv (S : V -> Prop) (s : cg) : Prop := {
  i_lin : forall v w c u, S v -> S w -> (forall x, inp u x = inp v x + c * inp w x) -> S u;
  i_zero : forall v, (forall u, inp v u = 0) -> S v;
  i_eta : S (eta s);
  i_r : forall u, inp (r s) u = inp g u + inp (H (eta s)) u;
  i_orth : forall v, S v -> inp (r s) v = 0;
  i_dir : exists v, S v /\ forall u, inp (M (r s)) u = - inp (delta s) u + inp v u;
  i_conj : forall v, S v -> inp (delta s) (H v) = 0;
  i_kry : forall v, S v -> grow S (delta s) (M (H v));
  i_Heta : forall u, inp (Heta s) u = inp (H (eta s)) u;
  i_zr : zr s = inp (M (r s)) (r s);
  i_zr0 : 0 < zr s;
  i_ePe : ePe s = inp (Minv (eta s)) (eta s);
  i_ePd : ePd s = inp (Minv (eta s)) (delta s);
  i_dPd : dPd s = inp (Minv (delta s)) (delta s);
  i_dPd0 : 0 < dPd s;
  i_in : ePe s < Delta * Delta;
  i_ePe0 : 0 <= ePe s;
  i_model : modelv s = quad G g (eta s)
}.

Lemma Hswap v w : inp v (H w) = inp w (H v).
Proof. now rewrite (inp_sym G HG), (hess_sym G HG). Qed.
Lemma Pswap v w : inp v (Minv w) = inp w (Minv v).
Proof. now rewrite (inp_sym G HG), (minv_sym _ _ HM). Qed.

Lemma r_delta S s : Inv S s -> inp (r s) (delta s) = - zr s.
Proof.
  intros I. destruct (i_dir _ _ I) as (v & Hv & E).
  rewrite (i_zr _ _ I). rewrite E. rewrite (inp_sym G HG (delta s)), (inp_sym G HG v), (i_orth _ _ I v Hv). lra.
Qed.

Lemma quad_along S s t w : Inv S s -> (forall u, inp w u = t * inp (delta s) u + inp (eta s) u) ->
  quad G g w = modelv s - t * zr s + / 2 * t * t * dHd s.
Proof.
  intros I Hw. rewrite (i_model _ _ I). unfold quad.
  assert (E1 : inp w (H w) = t * t * dHd s + 2 * t * inp (H (eta s)) (delta s) + inp (eta s) (H (eta s))).
  { rewrite Hw, (Hswap (delta s) w), (Hswap (eta s) w), !Hw, (Hswap (eta s) (delta s)).
    rewrite (inp_sym G HG (H (eta s)) (delta s)).
    change (d_Hd A G s) with (inp (delta s) (H (delta s))). ringR. }
  rewrite E1, Hw. pose proof (r_delta _ _ I) as Hr. rewrite (i_r _ _ I) in Hr.
  rewrite (inp_sym G HG (delta s) g). replace (zr s) with (- (inp g (delta s) + inp (H (eta s)) (delta s))) by lra. field.
Qed.

Lemma ePe_along S s t w : Inv S s -> (forall u, inp w u = t * inp (delta s) u + inp (eta s) u) ->
  inp (Minv w) w = ePe s + 2 * t * ePd s + t * t * dPd s.
Proof.
  intros I Hw. rewrite (i_ePe _ _ I), (i_ePd _ _ I), (i_dPd _ _ I).
  rewrite (inp_sym G HG _ w), Hw, (Pswap (delta s) w), (Pswap (eta s) w), !Hw.
  rewrite <- !(minv_sym _ _ HM), (minv_sym _ _ HM (delta s) (eta s)), (inp_sym G HG (delta s) (Minv (eta s))). ringR.
Qed.

Lemma eta_new_inp s u : inp (eta_new A G s) u = alpha s * inp (delta s) u + inp (eta s) u.
Proof. apply (inp_axpy G HG). Qed.

Lemma r_new_inp s u : inp (r_new A G s) u = alpha s * inp (H (delta s)) u + inp (r s) u.
Proof. unfold r_new. rewrite (inp_proj G HG). apply (inp_axpy G HG). Qed.

Lemma model_new_quad S s : Inv S s -> model_new A G g s = quad G g (eta_new A G s).
Proof.
  intros I. unfold model_new, quad. change (fq (1#2)) with (Q2R (1#2)). rewrite lithalf.
  change (inp (eta_new A G s) g + / 2 * inp (eta_new A G s) (Heta_new A G s) =
          inp (eta_new A G s) g + / 2 * inp (eta_new A G s) (H (eta_new A G s))).
  f_equal. f_equal. rewrite (inp_sym G HG _ (Heta_new A G s)).
  unfold Heta_new. rewrite (inp_axpy G HG), (i_Heta _ _ I).
  rewrite eta_new_inp, (Hswap (delta s)), (Hswap (eta s)).
  rewrite (inp_sym G HG (H (delta s))), (inp_sym G HG (H (eta s))). reflexivity.
Qed.

Lemma ePe_new_eq S s : Inv S s -> ePe_new A G s = inp (Minv (eta_new A G s)) (eta_new A G s).
Proof.
  intros I. rewrite (ePe_along _ _ _ _ I (eta_new_inp s)).
  unfold ePe_new. change (fq 2) with (Q2R 2). rewrite lit2. reflexivity.
Qed.

Lemma alpha_pos S s : Inv S s -> 0 < dHd s -> 0 < alpha s.
Proof. intros I Hd. apply Rdiv_lt_0_compat; [apply (i_zr0 _ _ I)|exact Hd]. Qed.

Lemma alpha_eq s : 0 < dHd s -> alpha s * dHd s = zr s.
Proof. intros Hd. unfold alphatemp. change (@fdiv A) with Rdiv. field. apply Rgt_not_eq, Hd. Qed.

Lemma grow_S S s v : Inv S s -> S v -> grow S (delta s) v.
Proof. intros I Hv. exists v, 0. split; [exact Hv|]. intros u. ringR. Qed.

(** Orthogonality of the new residual. *)
Lemma r_new_orth S s : Inv S s -> 0 < dHd s -> forall w, grow S (delta s) w -> inp (r_new A G s) w = 0.
Proof.
  intros I Hd w (v & t & Hv & E). rewrite (inp_sym G HG), E.
  rewrite !(inp_sym G HG _ (r_new A G s)), !r_new_inp.
  rewrite (i_orth _ _ I v Hv), (r_delta _ _ I).
  rewrite (hess_sym G HG (delta s) v), (i_conj _ _ I v Hv).
  change (inp (H (delta s)) (delta s)) with (TrustRegionSpec.inp G (H (delta s)) (delta s)).
  rewrite (inp_sym G HG (H (delta s)) (delta s)). change (inp (delta s) (H (delta s))) with (dHd s).
  rewrite alpha_eq by exact Hd. ringR.
Qed.

Lemma inv_next S s : Inv S s -> 0 < dHd s -> ePe_new A G s < Delta * Delta ->
  0 < inp (r_new A G s) (r_new A G s) -> Inv (grow S (delta s)) (cg_next A G g s).
Proof.
  intros I Hd Hin Hr. pose proof (alpha_pos _ _ I Hd) as Ha. pose proof (alpha_eq s Hd) as Haq.
  pose proof (i_zr0 _ _ I) as Hz0.
  set (r' := r_new A G s) in *. set (z' := M r'). set (zr' := inp z' r').
  set (beta := zr' / zr s).
  set (d' := TrustRegionModel.axpy A G (-1) z' (vscal A G beta (delta s))).
  assert (Hd' : forall u, inp d' u = - inp z' u + beta * inp (delta s) u).
  { intros u. unfold d'. rewrite (inp_axpy G HG), (inp_vscal G HG). ringR. }
  assert (Hdel : delta (cg_next A G g s) = d').
  { unfold cg_next, d'. simpl. change (fq (-1)) with (Q2R (-1)). rewrite litm1. reflexivity. }
  pose proof (r_new_orth _ _ I Hd) as Ho. fold r' in Ho.
  destruct (i_dir _ _ I) as (sk & Hsk & Esk).
  assert (Sz : S (vscal A G 0 (delta s))).
  { apply (i_zero _ _ I). intros u. rewrite (inp_vscal G HG). ringR. }
  assert (Gd : grow S (delta s) (delta s)).
  { exists (vscal A G 0 (delta s)), 1. split; [exact Sz|]. intros u. rewrite (inp_vscal G HG). ringR. }
  assert (Gz : grow S (delta s) (M (r s))).
  { exists sk, (-1). split; [exact Hsk|]. intros u. rewrite Esk. ringR. }
  assert (Ge : grow S (delta s) (eta_new A G s)).
  { exists (eta s), (alpha s). split; [apply (i_eta _ _ I)|]. intros u. rewrite eta_new_inp. ringR. }
  assert (HzH : alpha s * inp z' (H (delta s)) = zr').
  { assert (E : alpha s * inp (H (delta s)) z' = inp r' z' - inp (r s) z') by (unfold r'; rewrite r_new_inp; ring).
    rewrite (inp_sym G HG z' (H (delta s))), E.
    unfold z' at 2. rewrite <- (prec_sym G HG), (inp_sym G HG _ r'), (Ho _ Gz).
    unfold zr'. rewrite (inp_sym G HG r' z'). ringR. }
  assert (Hconj0 : inp d' (H (delta s)) = 0).
  { rewrite Hd'. change (inp (delta s) (H (delta s))) with (dHd s).
    apply Rmult_eq_reg_l with (alpha s); [|lra]. rewrite Rmult_plus_distr_l.
    replace (alpha s * - inp z' (H (delta s))) with (- (alpha s * inp z' (H (delta s)))) by ringR. rewrite HzH.
    replace (alpha s * (beta * dHd s)) with (beta * (alpha s * dHd s)) by ringR. rewrite Haq. unfold beta. field. lra. }
  assert (Hlin : forall v w c u, grow S (delta s) v -> grow S (delta s) w ->
      (forall x, inp u x = inp v x + c * inp w x) -> grow S (delta s) u).
  { intros v w c u (v1 & t1 & Hv1 & E1) (w1 & t2 & Hw1 & E2) E.
    exists (TrustRegionModel.axpy A G c w1 v1), (t1 + c * t2). split.
    - apply (i_lin _ _ I v1 w1 c); auto. intros x. rewrite (inp_axpy G HG). ringR.
    - intros x. rewrite E, E1, E2, (inp_axpy G HG). ringR. }
  assert (Hzr' : 0 < zr') by (apply (prec_pos G HG); exact Hr).
  constructor.
  - exact Hlin.
  - intros v Hv. exists v, 0. split; [apply (i_zero _ _ I v Hv)|]. intros u. ringR.
  - exact Ge.
  - intros u. change (inp r' u = inp g u + inp (H (eta_new A G s)) u).
    unfold r'. rewrite r_new_inp, (i_r _ _ I), (hess_sym G HG (eta_new A G s)), eta_new_inp, <- !(hess_sym G HG). ringR.
  - exact Ho.
  - exists (vscal A G beta (delta s)). split.
    + exists (vscal A G 0 (delta s)), beta. split; [exact Sz|]. intros u. rewrite !(inp_vscal G HG). ringR.
    + intros u. rewrite Hdel, Hd', (inp_vscal G HG). change (cr A G (cg_next A G g s)) with r'. fold z'. ringR.
  - intros w (v & t & Hv & E). rewrite Hdel.
    rewrite <- (hess_sym G HG), (inp_sym G HG (H d') w), E, !(inp_sym G HG _ (H d')), !(hess_sym G HG), Hconj0.
    rewrite Hd'. unfold z'. rewrite (prec_sym G HG), (Ho _ (i_kry _ _ I v Hv)), (i_conj _ _ I v Hv). ringR.
  - intros w (v & t & Hv & E). rewrite Hdel.
    destruct (i_kry _ _ I v Hv) as (v1 & t1 & Hv1 & E1).
    (* M H w = M H v + t M H delta, M H delta = (z' - z)/alpha *)
    exists (TrustRegionModel.axpy A G (t / alpha s) (TrustRegionModel.axpy A G beta (delta s) (vscal A G (-1) (M (r s)))) (M (H v))), (- t / alpha s).
    split.
    + apply (Hlin (M (H v)) (TrustRegionModel.axpy A G beta (delta s) (vscal A G (-1) (M (r s)))) (t / alpha s)).
      * exists v1, t1. auto.
      * apply (Hlin (vscal A G (-1) (M (r s))) (delta s) beta); [|exact Gd|intros x; rewrite (inp_axpy G HG); ringR].
        destruct Gz as (v2 & t2 & Hv2 & E2). exists (vscal A G (-1) v2), (- t2). split.
        -- apply (i_lin _ _ I (vscal A G 0 (delta s)) v2 (-1)); auto. intros x. rewrite !(inp_vscal G HG). ringR.
        -- intros x. rewrite !(inp_vscal G HG), E2. ringR.
      * intros x. rewrite (inp_axpy G HG). ringR.
    + intros u. rewrite !(inp_axpy G HG), (inp_vscal G HG), Hd'.
      rewrite (prec_sym G HG (H w)), (hess_sym G HG w), E, <- !(hess_sym G HG), <- !(prec_sym G HG (H _)).
      assert (K : alpha s * inp (M (H (delta s))) u = inp z' u - inp (M (r s)) u).
      { unfold z'. rewrite !(prec_sym G HG). unfold r'. rewrite r_new_inp. ringR. }
      assert (K2 : inp (M (H (delta s))) u = (inp z' u - inp (M (r s)) u) / alpha s) by (rewrite <- K; field; lra).
      rewrite K2. field. lra.
  - intros u. change (inp (Heta_new A G s) u = inp (H (eta_new A G s)) u). unfold Heta_new.
    rewrite (inp_axpy G HG), (i_Heta _ _ I), (hess_sym G HG (eta_new A G s)), eta_new_inp, <- !(hess_sym G HG). reflexivity.
  - reflexivity.
  - exact Hzr'.
  - apply (ePe_new_eq _ _ I).
  - rewrite Hdel. change (ePd (cg_next A G g s)) with (beta * (ePd s + alpha s * dPd s)).
    change (ceta A G (cg_next A G g s)) with (eta_new A G s).
    rewrite (inp_sym G HG _ d'), Hd'. unfold z'. rewrite <- (minv_sym _ _ HM (M r')), (minv_prec _ _ HM), (Ho _ Ge).
    rewrite <- (minv_sym _ _ HM (delta s)), (inp_sym G HG (Minv (delta s))), eta_new_inp.
    rewrite (i_ePd _ _ I), (i_dPd _ _ I), (inp_sym G HG (eta s)), (minv_sym _ _ HM (delta s) (eta s)), (inp_sym G HG (delta s) (Minv (eta s))),
      (inp_sym G HG (delta s) (Minv (delta s))). match goal with |- @eq _ ?a ?b => change (@eq R a b) end. ringR.
  - rewrite Hdel. change (dPd (cg_next A G g s)) with (zr' + beta * beta * dPd s).
    assert (F1 : forall v, inp v (Minv z') = inp r' v) by (intros v; rewrite (inp_sym G HG); apply (minv_prec _ _ HM)).
    rewrite (inp_sym G HG _ d'), Hd', (Pswap z' d'), (Pswap (delta s) d'), !Hd', (Pswap z' (delta s)), !F1, (Ho _ Gd).
    rewrite (inp_sym G HG r' z'). fold zr'. rewrite (i_dPd _ _ I), (inp_sym G HG (delta s) (Minv (delta s))).
    match goal with |- @eq _ ?a ?b => change (@eq R a b) end. ringR.
  - change (0 < zr' + beta * beta * dPd s). pose proof (i_dPd0 _ _ I). assert (0 <= beta * beta) by nra. nra.
  - exact Hin.
  - change (0 <= ePe_new A G s). rewrite (ePe_new_eq _ _ I). apply (minv_pos _ _ HM).
  - apply (model_new_quad _ _ I).
Qed.

Lemma inv_init : 0 < inp g g -> Inv (fun v => forall u, inp v u = 0) (cg_init A G p g (initial_vector A G g)).
Proof.
  intros Hg.
  set (v0 := initial_vector A G g).
  assert (Z : forall u, inp v0 u = 0).
  { intros u. unfold v0, initial_vector. rewrite (inp_vscal G HG). change (@fq A 0) with (Q2R 0). rewrite lit0. ringR. }
  assert (ZH : forall u, inp (H v0) u = 0) by (intros u; rewrite (hess_sym G HG); apply Z).
  set (s := cg_init A G p g v0).
  assert (R : forall u, inp (r s) u = inp g u).
  { intros u. unfold s, cg_init; simpl. destruct (useRand A p); [|reflexivity].
    rewrite (inp_axpy G HG), ZH. change (@fq A 1) with (Q2R 1). rewrite lit1. ringR. }
  assert (RR : 0 < inp (r s) (r s)) by (rewrite R, (inp_sym G HG), R; exact Hg).
  assert (D : forall u, inp (delta s) u = - inp (M (r s)) u).
  { intros u. unfold s at 1, cg_init; cbn [cdelta]. rewrite (inp_vscal G HG). change (@fq A (-1)) with (Q2R (-1)). rewrite litm1.
    match goal with |- _ = - inp (M ?a) u => change (-1 * inp (M a) u = - inp (M a) u) end. ringR. }
  assert (Zr : zr s = inp (M (r s)) (r s)) by reflexivity.
  assert (Dd : dPd s = zr s) by reflexivity.
  assert (Zr0 : 0 < zr s) by (rewrite Zr; apply (prec_pos G HG), RR).
  assert (Eta : eta s = v0) by reflexivity.
  assert (SW0 : forall u, inp u v0 = 0) by (intros u; rewrite (inp_sym G HG); apply Z).
  constructor.
  - intros v w c u Hv Hw E x. rewrite E, Hv, Hw. ringR.
  - auto.
  - rewrite Eta. exact Z.
  - intros u. rewrite R, Eta, ZH. ringR.
  - intros v Hv. rewrite (inp_sym G HG). apply Hv.
  - exists v0. split; [exact Z|]. intros u. rewrite D, Z. ringR.
  - intros v Hv. rewrite Hswap. apply Hv.
  - intros v Hv. exists v0, 0. split; [exact Z|]. intros u. rewrite Z, (prec_sym G HG), (hess_sym G HG), Hv. ringR.
  - intros u. rewrite Eta, ZH. unfold s, cg_init; cbn [cHeta]. destruct (useRand A p); [apply ZH|].
    rewrite (inp_vscal G HG), Z. ringR.
  - exact Zr.
  - exact Zr0.
  - rewrite Eta, SW0. unfold s, cg_init; cbn [cePe]. destruct (useRand A p); [apply Z|apply lit0].
  - rewrite Eta, (minv_sym _ _ HM), Z. unfold s, cg_init; cbn [cePd]. destruct (useRand A p); [apply Z|apply lit0].
  - rewrite Dd, Zr, (inp_sym G HG (Minv (delta s))), D, (inp_sym G HG (M (r s)) (Minv (delta s))), (minv_sym _ _ HM), D,
      (inp_sym G HG (M (r s)) (Minv _)), (minv_prec _ _ HM), (inp_sym G HG). ringR.
  - rewrite Dd. exact Zr0.
  - assert (E : ePe s = 0) by (unfold s, cg_init; cbn [cePe]; destruct (useRand A p); [apply Z|apply lit0]).
    rewrite E. nra.
  - assert (E : ePe s = 0) by (unfold s, cg_init; cbn [cePe]; destruct (useRand A p); [apply Z|apply lit0]).
    rewrite E. apply Rle_refl.
  - unfold quad. rewrite Eta, !Z. unfold s, cg_init; cbn [cmodel]. destruct (useRand A p).
    + change (inp v0 g + Q2R (1#2) * inp v0 (H v0) = 0 + / 2 * 0). rewrite !Z. ringR.
    + change (Q2R 0 = 0 + / 2 * 0). rewrite lit0. ringR.
Qed.

(** ** The loop *)

Lemma leaves_cases s : leaves A G Delta s = true -> dHd s <= 0 \/ Delta * Delta <= ePe_new A G s.
Proof.
  unfold leaves. intros E. apply orb_true_iff in E. destruct E as [E|E].
  - left. change (Rleb (dHd s) (Q2R 0) = true) in E. rewrite lit0 in E. now apply Rleb_true.
  - right. change (Rleb (Delta * Delta) (ePe_new A G s) = true) in E. now apply Rleb_true.
Qed.
Lemma stays s : leaves A G Delta s = false -> 0 < dHd s /\ ePe_new A G s < Delta * Delta.
Proof.
  unfold leaves. intros E. apply orb_false_iff in E. destruct E as [E1 E2].
  change (Rleb (dHd s) (Q2R 0) = false) in E1. rewrite lit0 in E1. apply Rleb_false in E1.
  change (Rleb (Delta * Delta) (ePe_new A G s) = false) in E2. apply Rleb_false in E2. auto.
Qed.

Definition good (nr0 : R) (s : cg) (k : nat) (v : V) (st : tcgstatus) : Prop :=
  inp (Minv v) v <= Delta * Delta /\
  (st = EXCREGION \/ st = NEGCURVTURE -> inp (Minv v) v = Delta * Delta) /\
  quad G g v <= modelv s /\
  ((0 < k)%nat -> forall t, 0 <= t -> ePe s + 2 * t * ePd s + t * t * dPd s <= Delta * Delta ->
     quad G g v <= modelv s - t * zr s + / 2 * t * t * dHd s) /\
  st <> TRERROR /\ st <> TRMIN /\
  (st = LCON \/ st = SCON ->
     forall w, (forall u, inp w u = inp g u + inp (H v) u) ->
       sqrt (inp w w) <= nr0 * kappa A p /\ sqrt (inp w w) <= nr0 * powtheta A p nr0).

Lemma tau_spec S s : Inv S s ->
  let t := tautemp A G Delta s in
  ePe s + 2 * t * ePd s + t * t * dPd s = Delta * Delta /\ 0 <= t.
Proof.
  intros I. apply boundary_root; [apply (i_dPd0 _ _ I)|apply (i_ePe0 _ _ I)|apply Rlt_le, (i_in _ _ I)].
Qed.

Lemma along_min (a z D t u : R) : 0 < z -> 0 <= t <= u -> (D <= 0 \/ u <= a /\ a * D = z) ->
  - u * z + / 2 * u * u * D <= - t * z + / 2 * t * t * D.
Proof.
  intros Hz Htu HD'. 
  assert (E : (- t * z + / 2 * t * t * D) - (- u * z + / 2 * u * u * D) = (u - t) * (z - / 2 * (t + u) * D)) by field.
  assert (0 <= z - / 2 * (t + u) * D).
  { destruct HD' as [HD'|[Hu Ea]].
    - assert ((t + u) * D <= 0) by nra. nra.
    - destruct (Rle_dec D 0); [assert ((t + u) * D <= 0) by nra; nra|].
      assert ((t + u) * D <= 2 * z) by nra. lra. }
  assert (0 <= (u - t) * (z - / 2 * (t + u) * D)) by (apply Rmult_le_pos; lra). lra.
Qed.

Lemma boundary_good S s nr0 k : Inv S s -> leaves A G Delta s = true ->
  good nr0 s k (fst (boundary A G Delta s)) (snd (boundary A G Delta s)).
Proof.
  intros I L. destruct (tau_spec _ _ I) as [T1 T2]. set (tau := tautemp A G Delta s) in *.
  assert (W : forall u, inp (fst (boundary A G Delta s)) u = tau * inp (delta s) u + inp (eta s) u).
  { intros u. apply (inp_axpy G HG). }
  pose proof (quad_along _ _ _ _ I W) as Q. pose proof (ePe_along _ _ _ _ I W) as E. rewrite T1 in E.
  pose proof (i_zr0 _ _ I) as Hz.
  assert (C : dHd s <= 0 \/ tau <= alpha s /\ alpha s * dHd s = zr s).
  { destruct (Rle_dec (dHd s) 0) as [|Hd]; [auto|]. right. assert (Hd' : 0 < dHd s) by lra.
    split; [|now apply alpha_eq]. destruct (leaves_cases _ L) as [L'|L']; [lra|].
    apply (beyond_root (dPd s) (ePd s) (ePe s) (Delta * Delta)); auto.
    - apply (i_dPd0 _ _ I). - apply (i_in _ _ I). - left. apply (alpha_pos _ _ I Hd').
    - unfold ePe_new in L'. change (fq 2) with (Q2R 2) in L'. rewrite lit2 in L'. exact L'. }
  split; [lra|]. split; [intros; exact E|]. split; [|split; [|split; [|split]]].
  - rewrite Q. pose proof (along_min (alpha s) (zr s) (dHd s) 0 tau Hz ltac:(lra) C). lra.
  - intros _ t Ht Hin. rewrite Q.
    assert (t <= tau).
    { destruct (Rle_dec t tau); [easy|]. exfalso.
      assert (tau <= t) by lra.
      assert (Hc : Delta * Delta < ePe s + 2 * t * ePd s + t * t * dPd s).
      { (* strictly increasing beyond the root *)
        pose proof (i_dPd0 _ _ I) as Hd0. pose proof (i_in _ _ I) as Hi.
        assert (Hs : 0 < tau * dPd s + 2 * ePd s).
        { assert (0 < tau * (tau * dPd s + 2 * ePd s)) by lra.
          destruct (Rle_dec (tau * dPd s + 2 * ePd s) 0); [|lra]. nra. }
        assert (E2 : (ePe s + 2 * t * ePd s + t * t * dPd s) - Delta * Delta = (t - tau) * (2 * ePd s + (t + tau) * dPd s)).
        { rewrite <- T1. ringR. }
        assert (0 < (t - tau) * (2 * ePd s + (t + tau) * dPd s)).
        { apply Rmult_lt_0_compat; [lra|]. nra. }
        lra. }
      lra. }
    pose proof (along_min (alpha s) (zr s) (dHd s) t tau Hz ltac:(lra) C). lra.
  - unfold boundary; cbn [snd]; destruct (flt _ _); discriminate.
  - unfold boundary; cbn [snd]; destruct (flt _ _); discriminate.
  - unfold boundary; cbn [snd]; destruct (flt _ _); intros [?|?]; discriminate.
Qed.

Lemma interior_min S s t : Inv S s -> 0 < dHd s ->
  quad G g (eta_new A G s) <= modelv s - t * zr s + / 2 * t * t * dHd s.
Proof.
  intros I Hd. rewrite (quad_along _ _ _ _ I (eta_new_inp s)). rewrite <- (alpha_eq s Hd).
  assert (0 <= dHd s * ((t - alpha s) * (t - alpha s))) by (apply Rmult_le_pos; [apply Rlt_le, Hd|apply Rle_0_sqr]).
  match goal with |- ?a <= ?b => assert (E : b - a = / 2 * (dHd s * ((t - alpha s) * (t - alpha s)))) by field; lra end.
Qed.

Lemma interior_less S s : Inv S s -> 0 < dHd s -> quad G g (eta_new A G s) < modelv s.
Proof.
  intros I Hd. rewrite (quad_along _ _ _ _ I (eta_new_inp s)). pose proof (alpha_eq s Hd). pose proof (alpha_pos _ _ I Hd).
  pose proof (i_zr0 _ _ I). nra.
Qed.

Lemma small_spec nr0 j s : 0 <= nr0 -> small A G p nr0 j s = true ->
  sqrt (inp (r_new A G s) (r_new A G s)) <= nr0 * kappa A p /\
  sqrt (inp (r_new A G s) (r_new A G s)) <= nr0 * powtheta A p nr0.
Proof.
  intros Hn Hs. unfold small in Hs. apply andb_true_iff in Hs. destruct Hs as [_ Hs].
  change (Rleb (sqrt (inp (r_new A G s) (r_new A G s)))
     (nr0 * (if Rltb (powtheta A p nr0) (kappa A p) then powtheta A p nr0 else kappa A p)) = true) in Hs.
  apply Rleb_true in Hs. destruct (Rltb (powtheta A p nr0) (kappa A p)) eqn:E.
  - apply Rltb_true in E. split; [|exact Hs]. eapply Rle_trans; [exact Hs|]. apply Rmult_le_compat_l; lra.
  - apply Rltb_false in E. split; [exact Hs|]. eapply Rle_trans; [exact Hs|]. apply Rmult_le_compat_l; lra.
Qed.

Lemma r_new_res S s u : Inv S s -> inp (r_new A G s) u = inp g u + inp (H (eta_new A G s)) u.
Proof.
  intros I. rewrite r_new_inp, (i_r _ _ I), (hess_sym G HG (eta_new A G s)), eta_new_inp, <- !(hess_sym G HG). ringR.
Qed.

(** The status, whatever passes are forced. *)
Definition goods (nr0 : R) (v : V) (st : tcgstatus) : Prop :=
  st <> TRERROR /\ st <> TRMIN /\
  (st = LCON \/ st = SCON ->
     forall w, (forall u, inp w u = inp g u + inp (H v) u) ->
       sqrt (inp w w) <= nr0 * kappa A p /\ sqrt (inp w w) <= nr0 * powtheta A p nr0).
Lemma null_all v : inp v v = 0 -> forall u, inp v u = 0.
Proof.
  intros E u. destruct (Req_dec (inp v u) 0) as [|N]; [easy|]. exfalso.
  set (a := - (1 + inp u u) / (2 * inp v u)). pose (W := axpy A G a v u).
  assert (Wx : forall x, inp W x = a * inp v x + inp u x) by (intros; apply (inp_axpy G HG)).
  pose proof (inp_pos G HG W) as P. change (TrustRegionSpec.inp G W W) with (inp W W) in P.
  rewrite Wx, (inp_sym G HG v W), (inp_sym G HG u W), !Wx, E, (inp_sym G HG u v) in P.
  assert (X : - (1 + inp u u) / (2 * inp v u) * inp v u = - (1 + inp u u) / 2) by (field; exact N).
  fold a in X. rewrite Rmult_0_r, Rplus_0_l, X in P. lra.
Qed.
Lemma solved_leaves s : (forall u, inp (delta s) u = 0) -> leaves A G Delta s = true.
Proof.
  intros D. assert (Z : dHd s = 0) by (unfold d_Hd; change (inp (delta s) (H (delta s)) = 0); apply D).
  unfold leaves. apply orb_true_iff. left. change (Rleb (dHd s) (Q2R 0) = true). rewrite lit0, Z. apply Rleb_true. lra.
Qed.
Lemma solved_next S s : Inv S s -> inp (r_new A G s) (r_new A G s) = 0 -> forall u, inp (delta (cg_next A G g s)) u = 0.
Proof.
  intros I E u. pose proof (null_all _ E) as Z. unfold cg_next. cbn [cdelta].
  assert (Zz : met A G (prec A G (r_new A G s)) (r_new A G s) = 0).
  { change (inp (M (r_new A G s)) (r_new A G s) = 0). rewrite (prec_sym G HG). apply Z. }
  rewrite (inp_axpy G HG), (inp_vscal G HG), Zz, (prec_sym G HG), Z.
  change (@fdiv A) with Rdiv. unfold Rdiv. rewrite !Rmult_0_l, Rmult_0_r. ringR.
Qed.
Lemma boundary_status s : snd (boundary A G Delta s) = NEGCURVTURE \/ snd (boundary A G Delta s) = EXCREGION.
Proof. unfold boundary. cbn [snd]. destruct (flt _ _); auto. Qed.
Lemma loop_status nr0 : 0 <= nr0 -> forall k j S s, Inv S s \/ (forall u, inp (delta s) u = 0) ->
  let '(v, st, _) := tcg_loop A G p g Delta nr0 k j s in goods nr0 v st.
Proof.
  intros Hn. induction k as [|k IH]; intros j S s I; cbn [tcg_loop].
  - split; [discriminate|]. split; [discriminate|]. intros [?|?]; discriminate.
  - destruct (leaves A G Delta s) eqn:L.
    + pose proof (boundary_status s) as B. destruct (boundary A G Delta s) as [v st]. cbn [snd] in B.
      split; [destruct B as [-> | ->]; discriminate|]. split; [destruct B as [-> | ->]; discriminate|].
      destruct B as [-> | ->]; intros [?|?]; discriminate.
    + destruct I as [I|Z]; [|rewrite (solved_leaves _ Z) in L; discriminate].
      destruct (stays _ L) as [Hd Hin].
      assert (Hm : @fle A (cmodel A G s) (model_new A G g s) = false).
      { change (Rleb (modelv s) (model_new A G g s) = false). apply Rleb_false.
        rewrite (model_new_quad _ _ I). now apply (interior_less S). }
      rewrite Hm. destruct (small A G p nr0 j s) eqn:Sm.
      * split; [unfold conv_status; destruct (flt _ _); discriminate|].
        split; [unfold conv_status; destruct (flt _ _); discriminate|].
        intros _ w Hw. assert (E : inp w w = inp (r_new A G s) (r_new A G s)).
        { assert (E' : forall u, inp w u = inp (r_new A G s) u) by (intros u; rewrite Hw; symmetry; now apply (r_new_res S)).
          rewrite E', (inp_sym G HG), E'. reflexivity. }
        rewrite E. now apply (small_spec nr0 j).
      * destruct (inp_pos G HG (r_new A G s)) as [Hr|Hr].
        -- exact (IH (Datatypes.S j) _ _ (or_introl (inv_next _ _ I Hd Hin Hr))).
        -- exact (IH (Datatypes.S j) S _ (or_intror (solved_next _ _ I (eq_sym Hr)))).
Qed.

(** The returned status: no assumption on the forced passes, nor on the gradient. *)
Theorem tcg_status :
  let '(v, st, _) := tcg A G p g Delta (initial_vector A G g) in goods (sqrt (inp g g)) v st.
Proof.
  unfold tcg. set (s := cg_init A G p g (initial_vector A G g)).
  destruct (inp_pos G HG g) as [Hg|Hg].
  - pose proof (inv_init Hg) as I. fold s in I.
    assert (Z : forall u, inp (eta s) u = 0).
    { intros u. change (eta s) with (initial_vector A G g). unfold initial_vector. rewrite (inp_vscal G HG).
      change (@fq A 0) with (Q2R 0). rewrite lit0. ringR. }
    assert (ZH : forall u, inp (H (eta s)) u = 0) by (intros u; rewrite (hess_sym G HG); apply Z).
    assert (Rg : forall u, inp (r s) u = inp g u) by (intros u; rewrite (i_r _ _ I), ZH; ring).
    assert (N0 : met A G (r s) (r s) = inp g g) by (change (inp (r s) (r s) = inp g g); rewrite Rg, (inp_sym G HG), Rg; reflexivity).
    rewrite N0. change (@fsqrt A) with sqrt.
    exact (loop_status (sqrt (inp g g)) (sqrt_pos _) (Max_Inner_Iter A p) 0 _ _ (or_introl I)).
  - assert (Zg := null_all g (eq_sym Hg)).
    assert (Zr : forall u, inp (r s) u = 0).
    { intros u. unfold s, cg_init, initial_vector. cbn [cr]. destruct (useRand A p); [|apply Zg].
      rewrite (inp_axpy G HG), Zg, (hess_sym G HG), (inp_vscal G HG), Zg. ringR. }
    assert (Zd : forall u, inp (delta s) u = 0).
    { intros u. change (delta s) with (vscal A G (fq (-1)) (M (r s))). rewrite (inp_vscal G HG), (prec_sym G HG), Zr. ringR. }
    assert (N0 : met A G (r s) (r s) = inp g g) by (change (inp (r s) (r s) = inp g g); rewrite Zr; exact Hg).
    rewrite N0. change (@fsqrt A) with sqrt.
    exact (loop_status (sqrt (inp g g)) (sqrt_pos _) (Max_Inner_Iter A p) 0 (fun _ => True) _ (or_intror Zd)).
Qed.

(** ** The step *)
Context (Hmin : never_solved G Minv p g Delta) (Hkappa : 0 <= kappa A p) (Hpow : forall x, 0 <= x -> 0 <= powtheta A p x).
Lemma not_small S nr0 j s : Inv S s -> ePe_new A G s < Delta * Delta -> 0 <= nr0 -> small A G p nr0 j s = false ->
  0 < inp (r_new A G s) (r_new A G s).
Proof.
  intros I Hin Hn Hs. destruct Hmin as [Hm|Hs'].
  2:{ apply (Hs' (eta_new A G s)); [rewrite <- (ePe_new_eq _ _ I); exact Hin|]. intros x. now apply (r_new_res S). }
  destruct (inp_pos G HG (r_new A G s)) as [|E]; [easy|]. exfalso.
  unfold small in Hs. rewrite Hm in Hs. cbn [Nat.leb andb] in Hs.
  change (Rleb (sqrt (inp (r_new A G s) (r_new A G s)))
     (nr0 * (if Rltb (powtheta A p nr0) (kappa A p) then powtheta A p nr0 else kappa A p)) = false) in Hs.
  rewrite <- E, sqrt_0 in Hs. apply Rleb_false in Hs. pose proof (Hpow nr0 Hn).
  destruct (Rltb _ _); nra.
Qed.

Lemma loop_good nr0 : 0 <= nr0 -> forall k j S s, Inv S s ->
  let '(v, st, _) := tcg_loop A G p g Delta nr0 k j s in good nr0 s k v st.
Proof.
  intros Hn. induction k as [|k IH]; intros j S s I; cbn [tcg_loop].
  - split; [rewrite <- (i_ePe _ _ I); apply Rlt_le, (i_in _ _ I)|].
    split; [intros [?|?]; discriminate|]. split; [rewrite (i_model _ _ I); apply Rle_refl|].
    split; [lia|]. split; [discriminate|]. split; [discriminate|]. intros [?|?]; discriminate.
  - destruct (leaves A G Delta s) eqn:L.
    + pose proof (boundary_good S s nr0 (Datatypes.S k) I L) as B. destruct (boundary A G Delta s) as [v st]. exact B.
    + destruct (stays _ L) as [Hd Hin].
      assert (Hm : @fle A (cmodel A G s) (model_new A G g s) = false).
      { change (Rleb (modelv s) (model_new A G g s) = false). apply Rleb_false.
        rewrite (model_new_quad _ _ I). now apply (interior_less S). }
      rewrite Hm. destruct (small A G p nr0 j s) eqn:Sm.
      * split; [rewrite <- (ePe_new_eq _ _ I); lra|].
        split; [unfold conv_status; destruct (flt _ _); intros [?|?]; discriminate|].
        split; [apply Rlt_le; now apply (interior_less S)|].
        split; [intros _ t _ _; now apply (interior_min S)|].
        split; [unfold conv_status; destruct (flt _ _); discriminate|].
        split; [unfold conv_status; destruct (flt _ _); discriminate|].
        intros _ w Hw. assert (E : inp w w = inp (r_new A G s) (r_new A G s)).
        { assert (E' : forall u, inp w u = inp (r_new A G s) u).
          { intros u. rewrite Hw, r_new_inp, (i_r _ _ I), (hess_sym G HG (eta_new A G s)), eta_new_inp, <- !(hess_sym G HG). ringR. }
          rewrite E', (inp_sym G HG), E'. reflexivity. }
        rewrite E. now apply (small_spec nr0 j).
      * pose proof (inv_next _ _ I Hd Hin (not_small _ _ _ _ I Hin Hn Sm)) as I'.
        specialize (IH (Datatypes.S j) _ _ I').
        destruct (tcg_loop A G p g Delta nr0 k (Datatypes.S j) (cg_next A G g s)) as [[v st] n].
        destruct IH as (G1 & G2 & G3 & _ & G5 & G6 & G7).
        change (modelv (cg_next A G g s)) with (model_new A G g s) in G3. rewrite (model_new_quad _ _ I) in G3.
        split; [exact G1|]. split; [exact G2|].
        split; [eapply Rle_trans; [exact G3|]; apply Rlt_le; now apply (interior_less S)|].
        split; [intros _ t _ _; eapply Rle_trans; [exact G3|]; now apply (interior_min S)|].
        split; [exact G5|]. split; [exact G6|exact G7].
Qed.

(** The returned step. *)
Theorem tcg_good : 0 < inp g g ->
  let '(v, st, _) := tcg A G p g Delta (initial_vector A G g) in
  (inp (Minv v) v <= Delta * Delta /\
   (st = EXCREGION \/ st = NEGCURVTURE -> inp (Minv v) v = Delta * Delta)) /\
  (quad G g v <= 0 /\
   ((0 < Max_Inner_Iter A p)%nat -> forall t w, 0 <= t -> (forall u, inp w u = - t * inp (M g) u) ->
      inp (Minv w) w <= Delta * Delta -> quad G g v <= quad G g w)) /\
  st <> TRERROR /\
  (st = LCON \/ st = SCON -> forall w, (forall u, inp w u = inp g u + inp (H v) u) ->
     sqrt (inp w w) <= sqrt (inp g g) * kappa A p /\
     sqrt (inp w w) <= sqrt (inp g g) * powtheta A p (sqrt (inp g g))).
Proof.
  intros Hg. pose proof (inv_init Hg) as I. unfold tcg.
  set (s := cg_init A G p g (initial_vector A G g)) in *.
  assert (Z : forall u, inp (eta s) u = 0).
  { intros u. change (eta s) with (initial_vector A G g). unfold initial_vector. rewrite (inp_vscal G HG).
    change (@fq A 0) with (Q2R 0). rewrite lit0. ringR. }
  assert (ZH : forall u, inp (H (eta s)) u = 0) by (intros u; rewrite (hess_sym G HG); apply Z).
  assert (Rg : forall u, inp (r s) u = inp g u) by (intros u; rewrite (i_r _ _ I), ZH; ring).
  assert (N0 : met A G (r s) (r s) = inp g g) by (change (inp (r s) (r s) = inp g g); rewrite Rg, (inp_sym G HG), Rg; reflexivity).
  rewrite N0. change (@fsqrt A) with sqrt.
  pose proof (loop_good (sqrt (inp g g)) (sqrt_pos _) (Max_Inner_Iter A p) 0 _ _ I) as L.
  destruct (tcg_loop A G p g Delta (sqrt (inp g g)) (Max_Inner_Iter A p) 0 s) as [[v st] n].
  destruct L as (G1 & G2 & G3 & G4 & G5 & _ & G7).
  assert (M0 : modelv s = 0).
  { rewrite (i_model _ _ I). unfold quad. rewrite !Z. ringR. }
  rewrite M0 in G3, G4. split; [auto|]. split; [|auto]. split; [exact G3|].
  intros Hk t w Ht Hw Hin.
  destruct (i_dir _ _ I) as (sk & Hsk & Esk).
  assert (W : forall u, inp w u = t * inp (delta s) u + inp (eta s) u).
  { intros u. rewrite Hw, Z. assert (Em : inp (M g) u = - inp (delta s) u).
    { assert (Eq : inp (M g) u = inp (M (r s)) u) by (rewrite !(prec_sym G HG), Rg; reflexivity).
      rewrite Eq, Esk, Hsk. ringR. }
    rewrite Em. ringR. }
  rewrite (quad_along _ _ _ _ I W), M0. apply (G4 Hk t Ht). rewrite <- (ePe_along _ _ _ _ I W). exact Hin.
Qed.
End cg.
