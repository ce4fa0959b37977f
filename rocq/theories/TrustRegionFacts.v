(** Radius bounds and monotonicity of trust-region runs. *)
From Coq Require Import QArith Reals List Bool Lia Arith Lra Sorted Qreals.
From Verif Require Import Arith TrustRegionModel TrustRegionSpec TrustRegionProofs TCGProofs.
Import ListNotations.
Local Open Scope nat_scope.

Lemma Q2R_34 : Q2R (3#4) = (3/4)%R. Proof. unfold Q2R; simpl; lra. Qed.
Lemma Q2R_14 : Q2R (1#4) = (1/4)%R. Proof. unfold Q2R; simpl; lra. Qed.

Section xrun.
Context {big eps : R}.
Notation A := (X_arith big eps).
Context {G : trgeo A} {X : Type} (q : trparams A) (e : tenv A G (X:=X)).
Notation ts := (ts A G (X:=X)).

(** ** The radius *)
Section radius.
Context (sh mg dmin dmax d0 : R).
Context (Hsh : Shrinked_tau A q = Fin sh) (Hmg : Magnified_tau A q = Fin mg)
        (Hmin : minimum_Delta A q = Fin dmin) (Hmax : maximum_Delta A q = Fin dmax).
Context (Bsh : (0 < sh <= 1)%R) (Bmg : (1 <= mg)%R) (Bd : (dmin <= dmax)%R).

Definition radius_ok (s : ts) : Prop := exists d, tDelta A G s = Fin d /\ (0 < d <= dmax)%R /\ (dmin <= d)%R.

Lemma next_radius (s : ts) : radius_ok s -> (0 < dmax)%R ->
  exists d, fst (next_Delta A G q s) = Fin d /\ (0 < d <= dmax)%R /\ (snd (next_Delta A G q s) = false -> (dmin <= d)%R).
Proof.
  intros (d & Ed & B1 & B2) Hpos. unfold next_Delta. rewrite Ed, Hsh, Hmg, Hmin, Hmax.
  destruct (flt (fq (3#4)) (trho A G s)).
  - cbn [fst snd].
    assert (K : exists D, (if grows (tstatus A G s) then @fmul A (Fin d) (Fin mg) else Fin d) = Fin D /\ (d <= D)%R).
    { destruct (grows _); [exists (d * mg)%R|exists d]; split; auto; [|lra]. nra. }
    destruct K as (D & -> & HD). change (@flt A (Fin dmax) (Fin D)) with (Rltb dmax D).
    destruct (Rltb dmax D) eqn:E.
    + exists dmax. split; auto. split; [lra|]. intros _; lra.
    + apply Rltb_false in E. exists D. split; auto. split; [lra|]. intros _; lra.
  - destruct (_ && _).
    + cbn [fst snd]. change (@fmul A (Fin d) (Fin sh)) with (Fin (d * sh)).
      change (@flt A (Fin (d * sh)) (Fin dmin)) with (Rltb (d * sh) dmin).
      exists (d * sh)%R. split; auto. split; [nra|]. intros E. apply Rltb_false in E. exact E.
    + exists d. cbn. auto.
Qed.

Lemma tvisited_radius s0 s l : tvisited q e s0 s l -> radius_ok s0 -> radius_ok s.
Proof.
  intros Hv H0. induction Hv as [|s l s' Hv IH Hg Hb]; auto.
  destruct (tbody_inl _ _ _ _ Hb).
  assert (Hr : radius_ok (before e s)).
  { destruct IH as (d & Ed & B). exists d. destruct (before_fields e s) as (_ & _ & _ & _ & _ & _ & B7 & _). now rewrite B7. }
  assert (Hpos : (0 < dmax)%R) by (destruct IH as (d & _ & B & _); lra).
  destruct (next_radius _ Hr Hpos) as (d & Ed & B1 & B2).
  exists d. rewrite tp_delta. auto.
Qed.

Lemma tends_radius s0 s l : tends q e s0 s l -> radius_ok s0 ->
  exists d, tDelta A G s = Fin d /\ (0 < d <= dmax)%R.
Proof.
  intros He H0. inversion He as [s1 l' Hv Hg|s1 l' sf' Hv Hg Hb]; subst.
  - destruct (tvisited_radius _ _ _ Hv H0) as (d & ? & ? & ?). eauto.
  - pose proof (tvisited_radius _ _ _ Hv H0) as IH. rewrite tbody_cases in Hb.
    assert (Hpos : (0 < dmax)%R) by (destruct IH as (d & _ & B & _); lra).
    destruct (before_fields e s1) as (_ & _ & _ & _ & _ & _ & B7 & _).
    destruct (fbad _).
    + injection Hb as <-. destruct IH as (d & Ed & B & _). exists d. split; auto.
      unfold with_cand. destruct (inner A G e s1). exact Ed.
    + destruct (snd _); [|destruct (with_record _ _ _ _); discriminate]. injection Hb as <-.
      assert (Hr : radius_ok (before e s1)).
      { destruct IH as (d & Ed & B). exists d. now rewrite B7. }
      destruct (next_radius _ Hr Hpos) as (d & Ed & B1 & _). exists d. auto.
Qed.
End radius.

Lemma start_radius x0 x20 gf20 eta20 rho0 st0 aux0 d0 : initial_Delta A q = Fin d0 ->
  tDelta A G (tstart A G q e x0 x20 gf20 eta20 rho0 st0 aux0) = Fin d0.
Proof. intros H. exact H. Qed.

(** ** Monotonicity *)
Lemma norm_quot (a b : xr) t : (0 <= t)%R -> xlt (xdiv (xsqrt a) (xadd (xsqrt b) (Fin t))) (Fin 0) = false.
Proof.
  intros Ht.
  assert (S : forall c, xsqrt c = NaN \/ xsqrt c = PInf \/ exists r, xsqrt c = Fin r /\ (0 <= r)%R).
  { intros [r| | |]; simpl; auto. destruct (Rlt_dec r 0); auto. right; right. exists (sqrt r). split; auto. apply sqrt_pos. }
  destruct (S a) as [->|[->|(ra & -> & Ha)]]; [reflexivity| |]; destruct (S b) as [->|[->|(rb & -> & Hb)]]; try reflexivity.
  - simpl. unfold xsign. destruct (Rlt_dec 0 (rb + t)); [reflexivity|]. destruct (Rlt_dec (rb + t) 0); [lra|reflexivity].
  - simpl. apply Rltb_false. lra.
  - simpl. unfold xsign. destruct (Rlt_dec 0 (rb + t)); [|destruct (Rlt_dec (rb + t) 0); [lra|]].
    + apply Rltb_false. apply Rle_mult_inv_pos; lra.
    + destruct (Rlt_dec 0 ra); [reflexivity|]. destruct (Rlt_dec ra 0); [lra|reflexivity].
Qed.

Lemma tngf0_visited s0 s l : tvisited q e s0 s l -> tngf0 A G s = tngf0 A G s0.
Proof.
  intros Hv. induction Hv as [|s l s' Hv IH Hg Hb]; auto.
  destruct (tbody_inl _ _ _ _ Hb). destruct tp_dec as (_ & _ & _ & _ & _ & E & _). congruence.
Qed.

Context (x0 x20 : P A G) (gf20 eta20 : T A G) (rho0 : xr) (st0 : tcgstatus) (aux0 : X).
Let s0 := tstart A G q e x0 x20 gf20 eta20 rho0 st0 aux0.

(** The step from a visited state, when the model predicts decrease. *)
Lemma step_decreases s l s' m c tol v0 :
  tvisited q e s0 s l -> tbody A G q e s = inl s' ->
  Acceptence_Rho A q = Fin c -> (0 <= c)%R -> tTolerance A q = Fin tol -> (0 <= tol)%R -> tAccuracy A q = Fin 0 ->
  tf A G x0 = Fin v0 ->
  model_diff A G e (with_cand A G e s) = Fin m -> (m < 0)%R ->
  exists v v', tf1 A G s = Fin v /\ tf1 A G s' = Fin v' /\
  ((tx1 A G s' = tx1 A G s /\ v' = v) \/
   (tx1 A G s' = tretr A G (tx1 A G s) (fst (inner A G e s)) /\ (v' < v)%R)).
Proof.
  intros Hv Hb Hc Bc Ht Bt Hacc Hv0 Hm Bm.
  destruct (tvisited_belongs q e x0 x20 gf20 eta20 rho0 st0 aux0 _ _ Hv) as ((J1 & J2 & J3) & J4 & J5 & J6).
  assert (Ev : exists v, tf1 A G s = Fin v).
  { destruct J6 as [J6|J6]; [exists v0; congruence|]. destruct (tf1 A G s) as [v| | |]; try discriminate. eauto. }
  destruct Ev as [v Ev]. exists v.
  destruct (tbody_inl _ _ _ _ Hb). destruct tp_dec as (E1 & E2 & _).
  destruct (before_fields e s) as (B1 & B2 & B3 & B4 & B5 & B6 & B7 & B8 & B9 & B10 & B11 & B12).
  destruct (tf2 A G (before e s)) as [v2| | |] eqn:E2v; try discriminate.
  unfold decide in E1, E2. destruct (accepts A G q (judged q e s)) eqn:Ea.
  - cbn -[before judged next_Delta] in E1, E2. rewrite E1, E2. unfold judged. cbn -[before next_Delta]. rewrite E2v.
    exists v2. split; auto. split; auto. right. split.
    + exact (before_cand e s).
    + unfold accepts in Ea. unfold judged in Ea. cbn -[before next_Delta accurate tiny_change] in Ea.
      rewrite !orb_true_iff in Ea. destruct Ea as [[Ea|Ea]|Ea].
      * unfold before in Ea. cbn -[model_diff with_cand] in Ea. rewrite Hm, Hc in Ea.
        change (tf1 A G (with_cand A G e s)) with (tf1 A G (before e s)) in Ea.
        change (tf2 A G (with_cand A G e s)) with (tf2 A G (before e s)) in Ea.
        rewrite B2, Ev, E2v in Ea. simpl in Ea. unfold xsign in Ea. destruct (Rlt_dec 0 (- m)); [|lra].
        apply Rltb_true in Ea.
        assert (K : (0 < (v + - v2) * / - m)%R) by (unfold Rdiv in Ea; lra).
        assert (Hi : (0 < / - m)%R) by (apply Rinv_0_lt_compat; lra). nra.
      * apply andb_true_iff in Ea as [_ Ea]. change (@flt A) with xlt in Ea. rewrite B2, E2v, Ev in Ea. now apply Rltb_true in Ea.
      * apply andb_true_iff in Ea as [Ea _]. exfalso. unfold accurate in Ea. cbn -[before next_Delta] in Ea.
        rewrite B5, B4, J3, Ht, Hacc, (tngf0_visited _ _ _ Hv) in Ea. cbn -[before next_Delta] in Ea.
        now rewrite norm_quot in Ea.
  - cbn -[before judged next_Delta] in E1, E2. rewrite E1, E2. unfold judged. cbn -[before next_Delta]. rewrite B1, B2, Ev.
    exists v. auto.
Qed.

Definition not_above (s s' : ts) : Prop :=
  exists v v', tf1 A G s = Fin v /\ tf1 A G s' = Fin v' /\ (v <= v')%R.

Lemma run_monotone s l c tol v0 :
  tvisited q e s0 s l ->
  Acceptence_Rho A q = Fin c -> (0 <= c)%R -> tTolerance A q = Fin tol -> (0 <= tol)%R -> tAccuracy A q = Fin 0 ->
  tf A G x0 = Fin v0 ->
  (forall r, In r (tl l) -> exists m, model_diff A G e (with_cand A G e r) = Fin m /\ (m < 0)%R) ->
  Sorted not_above l.
Proof.
  intros Hv Hc Bc Ht Bt Hacc Hv0. induction Hv as [|s l s' Hv IH Hg Hb]; intros Hm.
  - constructor; constructor.
  - assert (Hd : exists l', l = s :: l').
    { inversion Hv; eauto. }
    destruct Hd as [l' ->]. constructor.
    + apply IH. intros r Hr. apply Hm. simpl in *. auto.
    + constructor. destruct (Hm s) as (m & Em & Bm); [now left|].
      destruct (step_decreases _ _ _ _ _ _ _ Hv Hb Hc Bc Ht Bt Hacc Hv0 Em Bm) as (v & v' & V1 & V2 & [[_ ->]|[_ Hlt]]).
      * exists v, v. repeat split; auto; lra.
      * exists v', v. repeat split; auto; lra.
Qed.
End xrun.

(** ** A whole solver in exact arithmetic: trust region with truncated CG *)
Section newton.
Context {big eps : R}.
Notation A := (R_arith big eps).
Context (G : trgeo A) (vscal0 : P A G -> R -> T A G -> T A G) (proj0 : P A G -> T A G -> T A G)
        (hess0 prec0 minv0 : P A G -> T A G -> T A G).

(** The tangent space at x. *)
Definition space_at (x : P A G) : tspace A :=
  Build_tspace A (T A G) (taxpy A G x) (vscal0 x) (tmet A G x) (proj0 x) (hess0 x) (prec0 x).

(** SolversSMTR with a Hessian action and no solver-specific data (RTRNewton.cpp). *)
Definition newton_env (p : tcgparams A) (el : nat -> R) : tenv A G (X:=unit) :=
  Build_tenv A G
    (fun s => let x := tx1 A G s in
       fst (tcg A (space_at x) p (tgf1 A G s) (tDelta A G s) (initial_vector A (space_at x) (tgf1 A G s))))
    (fun s v => hess0 (tx1 A G s) v) (fun _ => tt) (fun _ => tt) el None.

Context (p : tcgparams A) (el : nat -> R) (q : trparams A).
Let e := newton_env p el.
Context (HG : forall x, inner_product_space (space_at x)) (HM : forall x, inverse_of_prec (space_at x) (minv0 x)).
Context (Hp : Min_Inner_Iter A p = 0) (Hp1 : 0 < Max_Inner_Iter A p).
Context (Hk : (0 <= kappa A p)%R) (Hpow : forall t : R, (0 <= t)%R -> (0 <= powtheta A p t)%R).
Local Open Scope R_scope.

Context (HA : 0 <= Acceptence_Rho A q) (HT : 0 < tTolerance A q) (HAcc : tAccuracy A q = 0)
        (Hcrit : tcrit A q = TGRAD_F) (Hmin : tMin_Iteration A q = 0%nat)
        (Hsh : 0 < Shrinked_tau A q) (Hmg : 0 < Magnified_tau A q) (Hmx : 0 < maximum_Delta A q) (Hd0 : 0 < initial_Delta A q).
Context (x0 x20 : P A G) (gf20 eta20 : T A G) (rho0 : R) (st0 : tcgstatus).
Let s0 := tstart A G q e x0 x20 gf20 eta20 rho0 st0 tt.

Lemma newton_delta s l : tvisited q e s0 s l -> 0 < tDelta A G s.
Proof.
  intros Hv. induction Hv as [|s l s' Hv IH Hg Hb]; [exact Hd0|].
  destruct (tbody_inl _ _ _ _ Hb). rewrite tp_delta.
  destruct (before_fields e s) as (_ & _ & _ & _ & _ & _ & B7 & _). unfold next_Delta. rewrite B7.
  destruct (flt _ _).
  - cbn [fst]. destruct (flt _ _); [exact Hmx|]. destruct (grows _); [|exact IH]. now apply Rmult_lt_0_compat.
  - destruct (_ && _); cbn [fst]; [|exact IH]. now apply Rmult_lt_0_compat.
Qed.

Lemma newton_grad s l : tvisited q e s0 s l -> tgoes_on A G q s = true ->
  0 < tmet A G (tx1 A G s) (tgf1 A G s) (tgf1 A G s).
Proof.
  intros Hv Hg.
  assert (K : tstop A G s = false -> tTolerance A q <= tngf1 A G s).
  { clear Hg. induction Hv as [|s l s' Hv IH Hg Hb].
    - unfold s0, tstart. cbn. unfold tis_stopped. cbn. destruct (Rltb _ _); [discriminate|].
      unfold tcriterion. rewrite Hcrit. cbn. intros E. now apply Rltb_false in E.
    - destruct (tbody_inl _ _ _ _ Hb). destruct tp_dec as (_ & _ & _ & E4 & _ & _ & E7).
      destruct (before_fields e s) as (_ & _ & _ & _ & B5 & _ & _ & _ & B9 & _).
      rewrite E4, E7. unfold decide. destruct (accepts A G q (judged q e s)).
      + cbn -[judged before tis_stopped]. unfold tis_stopped. cbn -[judged before with_grad]. destruct (Rltb _ _); [discriminate|].
        unfold tcriterion. rewrite Hcrit. cbn -[judged before]. intros E. now apply Rltb_false in E.
      + cbn -[judged before]. unfold judged. cbn -[before next_Delta]. rewrite B5, B9. exact IH. }
  destruct (tvisited_belongs q e x0 x20 gf20 eta20 rho0 st0 tt _ _ Hv) as ((J1 & J2 & J3) & _).
  assert (Hs : tstop A G s = false).
  { unfold tgoes_on in Hg. rewrite Hmin in Hg. cbn in Hg. rewrite orb_false_r in Hg.
    apply andb_true_iff in Hg as [Hg _]. now apply negb_true_iff in Hg. }
  specialize (K Hs). rewrite J3 in K. rewrite J2.
  pose proof (inp_pos _ (HG (tx1 A G s)) (tgrad A G (tx1 A G s))) as Hp0. unfold inp in Hp0. cbn in Hp0.
  destruct Hp0 as [Hp0|Hp0]; [exact Hp0|]. exfalso. rewrite <- Hp0 in K. change (@fsqrt A) with sqrt in K. rewrite sqrt_0 in K.
  apply (Rlt_irrefl 0). eapply Rlt_le_trans; [exact HT|exact K].
Qed.

(** Some admissible point on the steepest-descent ray has a negative model value. *)
Lemma ray_negative (a h D : R) : 0 < a -> 0 < D -> exists t, 0 <= t /\ t * t * a <= D * D /\ - t * a + / 2 * (t * t * h) < 0.
Proof.
  intros Ha HD. pose (t1 := D / sqrt a). pose (t2 := a / (Rabs h + 1)).
  assert (Hs : 0 < sqrt a) by now apply sqrt_lt_R0. assert (Hss : sqrt a * sqrt a = a) by (apply sqrt_sqrt; lra).
  assert (Hh : 0 <= Rabs h) by apply Rabs_pos.
  assert (P1 : 0 < t1) by (apply Rdiv_lt_0_compat; lra). assert (P2 : 0 < t2) by (apply Rdiv_lt_0_compat; lra).
  assert (E1 : t1 * t1 * a = D * D) by (unfold t1; rewrite <- Hss at 3; field; lra).
  assert (E2 : t2 * (Rabs h + 1) = a) by (unfold t2; field; lra).
  exists (Rmin t1 t2). assert (Hm1 := Rmin_l t1 t2). assert (Hm2 := Rmin_r t1 t2). assert (Hm : 0 < Rmin t1 t2) by now apply Rmin_pos.
  set (t := Rmin t1 t2) in *. split; [lra|]. split.
  - rewrite <- E1. apply Rmult_le_compat_r; [lra|]. apply Rmult_le_compat; lra.
  - assert (K : t * h <= a). { apply Rle_trans with (t * (Rabs h + 1)). apply Rmult_le_compat_l; [lra|]. pose proof (Rle_abs h); lra.
      rewrite <- E2. apply Rmult_le_compat_r; lra. }
    nra.
Qed.

(** The model difference computed by the loop is the quadratic model, and it is negative. *)
Lemma newton_model s l : tvisited q e s0 s l -> tgoes_on A G q s = true ->
  (model_diff A G e (with_cand A G e s) : R) < 0.
Proof.
  intros Hv Hg. pose proof (newton_grad _ _ Hv Hg) as Hgr. pose proof (newton_delta _ _ Hv) as HD.
  remember (tx1 A G s) as x eqn:Ex. remember (tgf1 A G s) as g eqn:Eg.
  pose proof (tcg_good (space_at x) p g (tDelta A G s) (minv0 x) (HG x) (HM x) HD (or_introl Hp) Hk Hpow Hgr) as T.
  assert (Ei : inner A G e s = fst (tcg A (space_at x) p g (tDelta A G s) (initial_vector A (space_at x) g))) by (subst; reflexivity).
  destruct (tcg A (space_at x) p g (tDelta A G s) (initial_vector A (space_at x) g)) as [[v st] n].
  destruct T as (_ & (_ & T) & _). cbn [fst] in Ei.
  assert (Eq : model_diff A G e (with_cand A G e s) = quad (space_at x) g v).
  { unfold model_diff, with_cand. rewrite Ei. cbn. rewrite <- Ex, <- Eg. unfold quad.
    pose proof (inp_sym _ (HG x)) as Sy. pose proof (inp_axpy _ (HG x)) as Ax. unfold inp in *. cbn in *.
    rewrite (Sy v (taxpy A G x _ _ _)), Ax, (Sy v g), (Sy v (hess0 x v)). change (@fq A (1#2)) with (Q2R (1#2)). rewrite lithalf. ringR. }
  rewrite Eq.
  set (Mg := prec0 x g). set (a := inp (space_at x) Mg g). set (h := inp (space_at x) Mg (hess0 x Mg)).
  assert (Ha : 0 < a) by exact (prec_pos _ (HG x) g Hgr).
  destruct (ray_negative a h (tDelta A G s) Ha HD) as (t & Ht & Bt & Nt).
  set (w := vscal0 x (- t) Mg).
  assert (Hw : forall u, inp (space_at x) w u = - t * inp (space_at x) Mg u) by (intros u; exact (inp_vscal _ (HG x) (- t) Mg u)).
  assert (Hww : forall u, inp (space_at x) u w = - t * inp (space_at x) u Mg) by (intros u; rewrite (inp_sym _ (HG x)), Hw, (inp_sym _ (HG x)); reflexivity).
  specialize (T Hp1 t w Ht Hw).
  assert (Hin : inp (space_at x) (minv0 x w) w = t * t * a).
  { rewrite Hww, (minv_sym _ _ (HM x)), Hw, <- (minv_sym _ _ (HM x)). unfold Mg at 1.
    rewrite (minv_prec _ _ (HM x) g). unfold a. rewrite (inp_sym _ (HG x) g). ringR. }
  assert (Hq : quad (space_at x) g w = - t * a + / 2 * (t * t * h)).
  { assert (Eh : inp (space_at x) w (hess0 x w) = t * t * h).
    { rewrite Hw. assert (E : inp (space_at x) Mg (hess0 x w) = - t * h).
      { transitivity (inp (space_at x) (hess0 x Mg) w); [symmetry; exact (hess_sym _ (HG x) Mg w)|].
        rewrite Hww. unfold h. rewrite (inp_sym _ (HG x) Mg). reflexivity. }
      rewrite E. ringR. }
    unfold quad. change (hess A (space_at x)) with (hess0 x). rewrite Eh, Hw. reflexivity. }
  rewrite Hin in T. specialize (T Bt). rewrite Hq in T. eapply Rle_lt_trans; [exact T|exact Nt].
Qed.

(** Function values never increase along the run. *)
Lemma newton_step s l s' : tvisited q e s0 s l -> tgoes_on A G q s = true -> tbody A G q e s = inl s' ->
  (tx1 A G s' = tx1 A G s /\ tf1 A G s' = tf1 A G s) \/
  (tx1 A G s' = tretr A G (tx1 A G s) (fst (inner A G e s)) /\ (tf1 A G s' : R) < tf1 A G s).
Proof.
  intros Hv Hg Hb. pose proof (newton_model _ _ Hv Hg) as Hm.
  destruct (tvisited_belongs q e x0 x20 gf20 eta20 rho0 st0 tt _ _ Hv) as ((J1 & J2 & J3) & _).
  destruct (tbody_inl _ _ _ _ Hb). destruct tp_dec as (E1 & E2 & _).
  destruct (before_fields e s) as (B1 & B2 & B3 & B4 & B5 & B6 & B7 & B8 & B9 & B10 & B11 & B12).
  unfold decide in E1, E2. destruct (accepts A G q (judged q e s)) eqn:Ea.
  - right. cbn -[before judged next_Delta] in E1, E2. rewrite E1, E2. unfold judged. cbn -[before next_Delta]. split.
    + exact (before_cand e s).
    + unfold accepts in Ea. unfold judged in Ea. cbn -[before next_Delta accurate tiny_change] in Ea.
      rewrite !orb_true_iff in Ea. destruct Ea as [[Ea|Ea]|Ea].
      * unfold before in Ea. cbn -[model_diff with_cand] in Ea.
        change (tf1 A G (with_cand A G e s)) with (tf1 A G (before e s)) in Ea.
        change (tf2 A G (with_cand A G e s)) with (tf2 A G (before e s)) in Ea. rewrite B2 in Ea.
        apply Rltb_true in Ea.
        remember (model_diff A G e (with_cand A G e s) : R) as m. remember (tf1 A G s : R) as v. remember (tf2 A G (before e s) : R) as v2.
        clear - HA Hm Ea.
        assert (K : 0 < (v - v2) * / - m) by (eapply Rle_lt_trans; [exact HA|exact Ea]).
        assert (Hi : 0 < / - m) by (apply Rinv_0_lt_compat; lra).
        apply Rmult_lt_reg_r with (/ - m); [exact Hi|]. rewrite Rmult_minus_distr_r in K. lra.
      * apply andb_true_iff in Ea as [_ Ea]. change (@flt A) with Rltb in Ea. rewrite B2 in Ea. now apply Rltb_true in Ea.
      * apply andb_true_iff in Ea as [Ea _]. exfalso. unfold accurate in Ea. cbn -[before next_Delta] in Ea.
        rewrite B5, B4, J3, HAcc in Ea. apply Rltb_true in Ea.
        assert (N0 : 0 <= tngf0 A G s).
        { assert (En : tngf0 A G s = tngf0 A G s0).
          { clear - Hv. induction Hv as [|s l s' Hv IH Hg Hb]; auto.
            destruct (tbody_inl _ _ _ _ Hb). destruct tp_dec as (_ & _ & _ & _ & _ & E & _). congruence. }
          rewrite En. apply sqrt_pos. }
        revert Ea. apply Rle_not_lt. apply Rle_mult_inv_pos; [apply sqrt_pos|]. apply Rplus_le_lt_0_compat; [exact N0|exact HT].
  - left. cbn -[before judged next_Delta] in E1, E2. rewrite E1, E2. unfold judged. cbn -[before next_Delta]. auto.
Qed.

Lemma newton_monotone s l : tvisited q e s0 s l -> Sorted (fun a b => (tf1 A G a : R) <= tf1 A G b) l.
Proof.
  intros Hv. induction Hv as [|s l s' Hv IH Hg Hb]; [constructor; constructor|].
  assert (Hd : exists l', l = s :: l') by (inversion Hv; eauto).
  destruct Hd as [l' ->]. constructor; [exact IH|]. constructor.
  destruct (newton_step _ _ _ Hv Hg Hb) as [[_ ->]|[_ Hlt]]; [apply Rle_refl|now apply Rlt_le].
Qed.
End newton.

(** ** Restatements of the inner solver's guarantees *)
Section inner.
Context (big eps : R).
Notation A := (R_arith big eps).
Local Open Scope R_scope.

Lemma inner_region (G : tspace A) Minv p g (Delta : R) v st n :
  inner_product_space G -> inverse_of_prec G Minv -> rlimits p -> never_solved G Minv p g Delta -> 0 < Delta -> 0 < inp G g g ->
  tcg A G p g Delta (initial_vector A G g) = (v, st, n) ->
  inp G (Minv v) v <= Delta * Delta /\
  (st = EXCREGION \/ st = NEGCURVTURE -> inp G (Minv v) v = Delta * Delta).
Proof.
  intros HG HM (H2 & H3) H1 HD Hg E. pose proof (tcg_good G p g Delta Minv HG HM HD H1 H2 H3 Hg) as T. rewrite E in T. apply T.
Qed.

Lemma inner_norm (G : tspace A) p g (Delta : R) v st n :
  inner_product_space G -> (forall w, prec A G w = w) -> rlimits p -> never_solved G (fun w => w) p g Delta -> 0 < Delta -> 0 < inp G g g ->
  tcg A G p g Delta (initial_vector A G g) = (v, st, n) ->
  sqrt (inp G v v) <= Delta /\ (st = EXCREGION \/ st = NEGCURVTURE -> sqrt (inp G v v) = Delta).
Proof.
  intros HG Hid Hl Hs HD Hg E.
  assert (HM : inverse_of_prec G (fun w => w)).
  { split; intros; [apply eq_refl|now rewrite Hid|apply (inp_pos G HG)]. }
  destruct (inner_region G _ p g Delta v st n HG HM Hl Hs HD Hg E) as [T1 T2].
  assert (Es : sqrt (Delta * Delta) = Delta) by (apply sqrt_square; lra).
  split.
  - rewrite <- Es. apply sqrt_le_1_alt. exact T1.
  - intros Ht. rewrite (T2 Ht). exact Es.
Qed.

Lemma inner_model (G : tspace A) Minv p g (Delta : R) v st n :
  inner_product_space G -> inverse_of_prec G Minv -> rlimits p -> never_solved G Minv p g Delta -> 0 < Delta -> 0 < inp G g g ->
  tcg A G p g Delta (initial_vector A G g) = (v, st, n) ->
  quad G g v <= 0 /\
  ((0 < Max_Inner_Iter A p)%nat -> forall t w, 0 <= t -> (forall u, inp G w u = - t * inp G (prec A G g) u) ->
     inp G (Minv w) w <= Delta * Delta -> quad G g v <= quad G g w).
Proof.
  intros HG HM (H2 & H3) H1 HD Hg E. pose proof (tcg_good G p g Delta Minv HG HM HD H1 H2 H3 Hg) as T. rewrite E in T. apply T.
Qed.

Lemma inner_residual (G : tspace A) Minv p g (Delta : R) v st n w :
  inner_product_space G -> inverse_of_prec G Minv -> 0 < Delta ->
  tcg A G p g Delta (initial_vector A G g) = (v, st, n) ->
  (forall u, inp G w u = inp G g u + inp G (hess A G v) u) ->
  st <> TRERROR /\
  (st = LCON \/ st = SCON ->
   sqrt (inp G w w) <= sqrt (inp G g g) * kappa A p /\ sqrt (inp G w w) <= sqrt (inp G g g) * powtheta A p (sqrt (inp G g g))).
Proof.
  intros HG HM HD E Hw. pose proof (tcg_status G p g Delta Minv HG HM HD) as T. rewrite E in T.
  destruct T as (T1 & _ & T2). split; [exact T1|]. intros Hs. exact (T2 Hs w Hw).
Qed.
End inner.

(** ** Restatements about whole runs *)
Section whole.
Context {A : arith} {G : trgeo A} {X : Type} (q : trparams A) (e : tenv A G (X:=X)).
Context (x0 x20 : P A G) (gf20 eta20 : T A G) (rho0 : F A) (st0 : tcgstatus) (aux0 : X).
Let s0 := tstart A G q e x0 x20 gf20 eta20 rho0 st0 aux0.

Lemma trun_done n sf : trun A G q e n s0 = TDone A G sf ->
  tf1 A G sf = tf A G (tx1 A G sf) /\ tgf1 A G sf = tgrad A G (tx1 A G sf) /\
  tngf1 A G sf = fsqrt (tmet A G (tx1 A G sf) (tgrad A G (tx1 A G sf)) (tgrad A G (tx1 A G sf))) /\
  (tx1 A G sf = x0 \/ fbad (tf1 A G sf) = false) /\
  titer A G sf <= Nat.max (tMax_Iteration A q) (tMin_Iteration A q) /\
  exists l, tends q e s0 sf l /\ hd_error (map (tx1 A G) l) = Some (tx1 A G sf).
Proof.
  intros H. destruct (tloop_ends _ _ _ _ _ _ _ (tvisited_start _ _ _) H) as [l Hl].
  destruct (tends_belongs _ _ _ _ _ _ _ _ _ _ _ Hl) as ((B1 & B2 & B3) & B4 & B5 & B6 & B7 & _).
  repeat (split; [assumption|]). exists l. auto.
Qed.

Lemma trun_returns n : Nat.max (tMax_Iteration A q) (tMin_Iteration A q) <= n -> trun A G q e n s0 <> TNoAnswer A G.
Proof. intros Hn. apply tloop_answers. unfold s0, tstart. cbn. lia. Qed.

Lemma trun_in_bounds n : trecording A q = false \/ tMin_Iteration A q <= tMax_Iteration A q -> trun A G q e n s0 <> TOutOfBounds A G.
Proof. intros H. eapply tloop_in_bounds; [exact H|apply tvisited_start]. Qed.

(** The histories. Iterate k is the k-th state from the oldest. *)
Lemma tends_histories sf l : trecording A q = true -> tends q e s0 sf l ->
  tfun A G sf = map Some (map (tf2 A G) (rev l)) ++ repeat None (tMax_Iteration A q - titer A G sf) /\
  tgrads A G sf = map Some (map (fun s => fsqrt (tmet A G (tx1 A G s) (tgrad A G (tx1 A G s)) (tgrad A G (tx1 A G s)))) (rev l))
     ++ repeat None (tMax_Iteration A q - titer A G sf).
Proof.
  intros Hr He. destruct (tends_belongs _ _ _ _ _ _ _ _ _ _ _ He) as (_ & _ & B5 & B6 & _ & B8).
  destruct (B8 Hr) as [-> ->]. unfold tfilled. rewrite !map_length, !rev_length.
  assert (Hl : l <> []) by (destruct l; [discriminate|easy]).
  replace (S (tMax_Iteration A q) - length l) with (tMax_Iteration A q - titer A G sf) by (destruct l; [easy|simpl in *; lia]).
  split; [reflexivity|]. f_equal. f_equal. apply map_ext_in. intros s Hs. apply in_rev in Hs.
  assert (Hin : exists l', tvisited q e s0 s l').
  { assert (Hv : exists s1, tvisited q e s0 s1 l) by (inversion He; eauto). destruct Hv as [s1 Hv]. clear - Hs Hv.
    induction Hv as [|s1 l s' Hv IH Hg Hb].
    - destruct Hs as [<-|[]]. exists [s0]. constructor.
    - destruct Hs as [<-|Hs]; [|auto]. exists (s' :: l). econstructor; eauto. }
  destruct Hin as [l' Hin]. destruct (tvisited_belongs _ _ _ _ _ _ _ _ _ _ _ Hin) as ((_ & _ & B3) & B4 & _). congruence.
Qed.

(** The function entry of an iterate reached by an accepted step (or the start) is its value;
    after a rejected step it is the value of the rejected candidate. *)
Lemma step_entry s l s' : tvisited q e s0 s l -> tbody A G q e s = inl s' ->
  tf2 A G s0 = tf A G x0 /\
  let y := tretr A G (tx1 A G s) (fst (inner A G e s)) in
  ((tx1 A G s' = y /\ tf2 A G s' = tf A G y) \/ (tx1 A G s' = tx1 A G s /\ tf2 A G s' = tf A G y)).
Proof.
  intros Hv Hb. split; [reflexivity|]. destruct (tbody_inl _ _ _ _ Hb). destruct tp_dec as (E1 & E2 & _).
  destruct (before_fields e s) as (B1 & B2 & B3 & B4 & B5 & B6 & B7 & B8 & B9 & B10 & B11 & B12).
  cbv zeta. rewrite E1, tp_f2, B12, before_cand. unfold decide. destruct (accepts A G q (judged q e s)); [left|right]; split; auto.
  exact (before_cand e s).
Qed.
End whole.

(** ** Radius, from the start of a run *)
Section radii.
Context (big eps : R).
Notation A := (X_arith big eps).
Local Open Scope R_scope.
(** The checks of CheckParams 275-286 on the radius parameters. *)
Definition radius_params (q : trparams A) (sh mg dmin dmax d0 : R) : Prop :=
  Shrinked_tau A q = Fin sh /\ Magnified_tau A q = Fin mg /\ minimum_Delta A q = Fin dmin /\ maximum_Delta A q = Fin dmax /\
  initial_Delta A q = Fin d0 /\ 0 < sh < 1 /\ 1 < mg /\ 0 < dmin <= d0 /\ d0 <= dmax.

Lemma run_radius (G : trgeo A) (X : Type) q (e : tenv A G (X:=X)) x0 x20 gf20 eta20 rho0 st0 aux0 sh mg dmin dmax d0 :
  radius_params q sh mg dmin dmax d0 ->
  let s0 := tstart A G q e x0 x20 gf20 eta20 rho0 st0 aux0 in
  (forall s l, tvisited q e s0 s l -> exists d, tDelta A G s = Fin d /\ 0 < d <= dmax /\ dmin <= d) /\
  (forall sf l, tends q e s0 sf l -> exists d, tDelta A G sf = Fin d /\ 0 < d <= dmax).
Proof.
  intros (H1 & H2 & H3 & H4 & H5 & B1 & B2 & B3 & B4) s0.
  assert (H0 : radius_ok (G:=G) (X:=X) dmin dmax s0) by (exists d0; split; [exact H5|split; lra]).
  split.
  - intros s l Hv. apply (tvisited_radius q e sh mg dmin dmax H1 H2 H3 H4) with (s0 := s0) (l := l); auto; lra.
  - intros sf l He. apply (tends_radius q e sh mg dmin dmax H1 H2 H3 H4) with (s0 := s0) (l := l); auto; lra.
Qed.
End radii.
