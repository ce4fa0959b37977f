(** Termination of the line searches over the extended reals (objective values, gradients
    and slopes may be infinite or NaN). *)
From Coq Require Import QArith Reals List Bool Lra Lia Arith Qreals.
From Verif Require Import Arith LineSearchModel LineSearchSpec LineSearchProofs.
Import ListNotations.
Local Open Scope R_scope.

Lemma xlt_fin a b : xlt (Fin a) (Fin b) = true <-> a < b.
Proof. apply Rltb_true. Qed.
Lemma xlt_fin_false a b : xlt (Fin a) (Fin b) = false <-> b <= a.
Proof. apply Rltb_false. Qed.
Lemma xlt_nan x : xlt x NaN = false.
Proof. now destruct x. Qed.
Lemma xlt_nan_l x : xlt NaN x = false.
Proof. reflexivity. Qed.
Lemma xmul_nan x : xmul x NaN = NaN.
Proof. now destruct x. Qed.

Lemma pow_small (q m r : R) : 0 <= q < 1 -> 0 < m -> exists n, r * q ^ n < m.
Proof.
  intros Hq Hm.
  destruct (Rle_dec r 0) as [Hr|Hr]; [exists O; simpl; lra|].
  destruct (pow_lt_1_zero q ltac:(rewrite Rabs_pos_eq; lra) (m / r)) as [N HN].
  { apply Rdiv_lt_0_compat; lra. }
  exists N. specialize (HN N (Nat.le_refl _)).
  rewrite Rabs_pos_eq in HN by (apply pow_le; lra).
  apply Rmult_lt_compat_l with (r := r) in HN; [|lra].
  replace (r * (m / r)) with m in HN by (field; lra). exact HN.
Qed.

Section term.
Context (big eps : R).
Notation A := (X_arith big eps).
Context (G : geometry A) (p : lsparams A) (c : lsctx A G).
Notation ls := (ls A G).
Notation ss := (ss A G).

(** *** Backtracking *)
Lemma backtrack_term r1 m : LS_ratio1 A p = Fin r1 -> Minstepsize A p = Fin m -> 0 < r1 < 1 -> 0 < m ->
  forall n mp s r, ss s = Fin r -> r * r1 ^ n < m ->
  backtrack A G p c (S n) mp s <> None.
Proof.
  intros E1 Em H1 Hm.
  induction n as [|n IH]; intros mp s r Hs Hr.
  - simpl in Hr. cbn [backtrack].
    destruct (armijo_fails A G p c mp s); [|discriminate].
    cbn [LineSearchModel.ss set_ss]. rewrite Hs, E1, Em. cbn.
    replace (Rltb (r * r1) m) with true; [discriminate|].
    symmetry. apply Rltb_true. destruct (Rle_dec r 0); nra.
  - cbn [backtrack].
    destruct (armijo_fails A G p c mp s); [|discriminate].
    destruct (flt (ss (set_ss A G s _)) _); [discriminate|].
    apply IH with (r := r * r1).
    + cbn. rewrite Hs, E1. reflexivity.
    + simpl in Hr. lra.
Qed.

Lemma backtrack_mono : forall n mp s, backtrack A G p c n mp s <> None ->
  forall k, (n <= k)%nat -> backtrack A G p c k mp s <> None.
Proof.
  induction n as [|n IH]; intros mp s H k Hk; [now simpl in H|].
  destruct k as [|k]; [lia|]. cbn [backtrack] in *.
  destruct (armijo_fails A G p c mp s); [|discriminate].
  destruct (flt _ _); [discriminate|]. apply IH; auto. lia.
Qed.

(** *** Interpolation *)
Lemma clamp_fin r1 r2 : LS_ratio1 A p = Fin r1 -> LS_ratio2 A p = Fin r2 -> 0 < r1 -> r1 < r2 -> r2 < 1 ->
  forall t r, exists r', clamp A p t (Fin r) = Fin r' /\ (0 <= r -> r1 * r <= r' <= r2 * r) /\ (r <= 0 -> r' <= 0).
Proof.
  intros E1 E2 H1 H12 H2 t r. unfold clamp. rewrite E1, E2. cbn.
  assert (Hcase : forall u, u <= r2 * r -> exists r', (if Rltb (r1 * r) u then Fin u else Fin (r1 * r)) = Fin r' /\
      (0 <= r -> r1 * r <= r' <= r2 * r) /\ (r <= 0 -> r' <= 0)).
  { intros u Hu. destruct (Rltb (r1 * r) u) eqn:E.
    - apply Rltb_true in E. exists u. split; [reflexivity|]. split; intros; nra.
    - exists (r1 * r). split; [reflexivity|]. split; intros; nra. }
  destruct t as [t| | |]; cbn.
  - destruct (Rltb t (r2 * r)) eqn:E; cbn.
    + apply Rltb_true in E. apply Hcase. lra.
    + apply Hcase. lra.
  - apply Hcase. lra.
  - exists (r1 * r). split; [reflexivity|]. split; intros; nra.
  - apply Hcase. lra.
Qed.

Lemma interpolate_term r1 r2 m : LS_ratio1 A p = Fin r1 -> LS_ratio2 A p = Fin r2 -> Minstepsize A p = Fin m ->
  0 < r1 -> r1 < r2 -> r2 < 1 -> 0 < m ->
  forall n mp pre2 fp s r, ss s = Fin r -> r * r2 ^ n < m ->
  interpolate A G p c (S n) mp (Fin r) pre2 fp s <> None.
Proof.
  intros E1 E2 Em H1 H12 H2 Hm.
  induction n as [|n IH]; intros mp pre2 fp s r Hs Hr.
  - simpl in Hr. cbn [interpolate].
    destruct (armijo_fails A G p c mp s); [|discriminate].
    cbn [LineSearchModel.ss set_ss].
    destruct (clamp_fin r1 r2 E1 E2 H1 H12 H2 (cubic_step A G c (Fin r) pre2 (f2 A G s) fp) r) as (r' & -> & Ha & Hb).
    rewrite Em. change (@flt A (Fin r') (Fin m)) with (Rltb r' m).
    replace (Rltb r' m) with true; [discriminate|].
    symmetry. apply Rltb_true. destruct (Rle_dec r 0); [specialize (Hb r0); lra|]. nra.
  - cbn [interpolate].
    destruct (armijo_fails A G p c mp s); [|discriminate].
    destruct (clamp_fin r1 r2 E1 E2 H1 H12 H2 (cubic_step A G c (Fin r) pre2 (f2 A G s) fp) r) as (r' & -> & Ha & Hb).
    cbn [LineSearchModel.ss set_ss].
    destruct (@flt A (Fin r') _); [discriminate|].
    apply IH; [reflexivity|]. simpl in Hr.
    assert (0 < r2 ^ n) by (apply pow_lt; lra).
    destruct (Rle_dec r 0); [specialize (Hb r0); nra|].
    assert (r' <= r2 * r) by (apply Ha; lra). nra.
Qed.

Lemma interpolate_mono : forall n mp a b d s, interpolate A G p c n mp a b d s <> None ->
  forall k, (n <= k)%nat -> interpolate A G p c k mp a b d s <> None.
Proof.
  induction n as [|n IH]; intros mp a b d s H k Hk; [now simpl in H|].
  destruct k as [|k]; [lia|]. cbn [interpolate] in *.
  destruct (armijo_fails A G p c mp s); [|discriminate].
  destruct (flt _ _); [discriminate|]. apply IH; auto. lia.
Qed.

Definition fin_or_nan (x : xr) : Prop := finite x \/ x = NaN.

Lemma armijo_nan mp s : ss s = NaN -> armijo_fails A G p c mp s = false.
Proof. intros E. unfold armijo_fails. rewrite E. cbn. rewrite xmul_nan. apply xlt_nan. Qed.

Lemma armijo_terminates r1 r2 m pre num s0 :
  LS_ratio1 A p = Fin r1 -> LS_ratio2 A p = Fin r2 -> Minstepsize A p = Fin m ->
  0 < r1 < 1 -> r2 < 1 -> 0 < m -> fin_or_nan (ss s0) ->
  exists n, forall fuel, (n <= fuel)%nat -> armijo A G p c fuel pre num s0 <> None.
Proof.
  intros E1 E2 Em H1 H2 Hm Hs. unfold armijo. rewrite E1, E2. cbn [fle A].
  set (mp := maxpref _ _ _ _ _). set (s := h _ _ _ _).
  assert (Es : ss s = ss s0) by reflexivity. clearbody s mp.
  destruct (xle (Fin r2) (Fin r1)) eqn:E.
  - assert (exists n, forall fuel, (n <= fuel)%nat -> backtrack A G p c fuel mp s <> None) as [n Hn].
    { destruct Hs as [[r Hs]|Hs]; rewrite <- Es in Hs.
      - destruct (pow_small r1 m r) as [n Hn]; [lra|lra|]. exists (S n).
        apply backtrack_mono. eapply backtrack_term; eauto.
      - exists 1%nat. apply backtrack_mono. cbn [backtrack]. rewrite armijo_nan; [discriminate|auto]. }
    exists n. intros fuel Hf. specialize (Hn fuel Hf).
    destruct (backtrack _ _ _ _ _ _ _); [discriminate|auto].
  - apply Rleb_false in E.
    destruct (armijo_fails A G p c mp s) eqn:Ef.
    + destruct Hs as [[r Hs]|Hs]; rewrite <- Es in Hs; [|rewrite (armijo_nan mp s Hs) in Ef; discriminate Ef].
      set (t := fdiv _ _). cbn [LineSearchModel.ss set_ss].
      destruct (clamp_fin r1 r2 E1 E2 ltac:(lra) E H2 t r) as (r' & Hc & _ & _).
      rewrite Hs, Hc.
      destruct (pow_small r2 m r') as [n Hn]; [lra|lra|]. exists (S n). intros fuel Hf.
      pose proof (interpolate_term r1 r2 m E1 E2 Em ltac:(lra) E H2 Hm n mp (Fin r) (f2 A G s)
        (h A G c (set_ss A G s (Fin r'))) r' eq_refl Hn) as Hi.
      pose proof (interpolate_mono _ _ _ _ _ _ Hi fuel Hf) as Hj.
      match goal with |- match ?x with _ => _ end <> None => change (x <> None) in Hj; destruct x; [intros K; inversion K|intros _; exact (Hj eq_refl)] end.
    + exists 1%nat. intros [|fuel] Hf; [lia|]. cbn [interpolate]. rewrite Ef. discriminate.
Qed.

(** *** Exact *)
Lemma exact_inner_term r1 ms : LS_ratio1 A p = Fin r1 -> 0 < r1 < 1 -> 0 < ms ->
  forall n a1 dir sf1 sgf1 r s, r * r1 ^ n < ms -> 0 < r ->
  exact_inner A G p c (S n) a1 dir sf1 sgf1 (Fin ms) (Fin r) s <> None.
Proof.
  intros E1 H1 Hm. induction n as [|n IH]; intros a1 dir sf1 sgf1 r s Hr Hr0.
  - cbn [exact_inner]. destruct (flt _ (f2 A G s)); [|discriminate].
    rewrite E1. cbn [fmul A xmul flt xlt].
    replace (Rltb _ ms) with true; [discriminate|]. symmetry. apply Rltb_true. simpl in Hr.
    assert (r * r1 * r1 < r); [|lra]. assert (r1 * r1 < 1) by nra. nra.
  - remember (S n) as sn. cbn [exact_inner]. subst sn. destruct (flt _ (f2 A G s)); [|discriminate].
    rewrite E1. destruct (flt (fmul (fmul _ _) _) _); [discriminate|].
    change (@fmul A (Fin r) (Fin r1)) with (Fin (r * r1)).
    apply IH; [|nra]. simpl in Hr. lra.
Qed.

Lemma exact_inner_mono : forall n a d e f g t s, exact_inner A G p c n a d e f g t s <> None ->
  forall k, (n <= k)%nat -> exact_inner A G p c k a d e f g t s <> None.
Proof.
  induction n as [|n IH]; intros a d e f g t s H k Hk; [now simpl in H|].
  destruct k as [|k]; [lia|]. cbn [exact_inner] in *.
  destruct (flt _ (f2 A G s)); [|discriminate].
  destruct (flt (fmul (fmul _ _) _) _); [discriminate|]. apply IH; auto. lia.
Qed.

Lemma exact_terminates r1 s0 :
  LS_ratio1 A p = Fin r1 -> 0 < r1 < 1 -> 0 < eps ->
  exists n, forall fuel, (n <= fuel)%nat -> exact A G p c fuel s0 <> None.
Proof.
  intros E1 H1 He.
  set (ms := Q2R 100 * sqrt eps).
  assert (Hms : 0 < ms).
  { apply Rmult_lt_0_compat; [|now apply sqrt_lt_R0]. unfold Q2R; simpl; lra. }
  assert (Em : fmul (fq 100) (fsqrt (@fepsv A)) = Fin ms).
  { cbn. destruct (Rlt_dec eps 0); [lra|]. reflexivity. }
  destruct (pow_small r1 ms 1) as [n Hn]; [lra|lra|].
  assert (E0 : @fq A 1 = Fin 1).
  { cbn. f_equal. unfold Q2R; simpl; lra. }
  exists (S n). intros fuel Hf. unfold exact. rewrite Em.
  assert (Ho : forall k a1 sgf1 sf1 B s, exact_outer A G p c fuel k a1 sgf1 sf1 B (Fin ms) s <> None).
  { induction k as [|k IH]; intros a1 sgf1 sf1 B s; [discriminate|]. cbn [exact_outer].
    rewrite E0.
    match goal with |- context [exact_inner A G p c fuel ?a ?b ?d ?e ?f ?g ?s] =>
      pose proof (exact_inner_mono _ _ _ _ _ _ _ _
        (exact_inner_term r1 ms E1 H1 Hms n a b d e 1 s ltac:(lra) ltac:(lra)) fuel Hf) as Hi
    end.
    destruct (exact_inner _ _ _ _ _ _ _ _ _ _ _ _) as [[s2 t]|]; [|congruence].
    destruct (status A G s2); try discriminate;
    (destruct (@flt A _ (Fin ms)); [discriminate|]);
    (destruct (flt _ (fq _)); [discriminate|]); apply IH. }
  match goal with |- context [exact_outer A G p c fuel 20 ?a ?b ?d ?e ?f ?s] => specialize (Ho 20%nat a b d e s) end.
  destruct (exact_outer _ _ _ _ _ _ _ _ _ _ _ _); [discriminate|congruence].
Qed.

(** *** Strong Wolfe *)
Lemma sw_mono : forall n a b d s, sw_loop A G p c n a b d s <> None ->
  forall k, (n <= k)%nat -> sw_loop A G p c k a b d s <> None.
Proof.
  induction n as [|n IH]; intros a b d s H k Hk; [now simpl in H|].
  destruct k as [|k]; [lia|]. cbn [sw_loop] in *.
  destruct (_ || _); [discriminate|].
  destruct (fle (fabs _) _); [discriminate|].
  destruct (fle _ (newslope _ _ _)); [discriminate|].
  destruct (feq _ _); [discriminate|]. apply IH; auto. lia.
Qed.

Lemma sw_at_max M : Maxstepsize A p = Fin M ->
  forall a b d s, ss s = Fin M -> sw_loop A G p c 1 a b d s <> None.
Proof.
  intros EM a b d s Hs. cbn [sw_loop].
  destruct (_ || _); [discriminate|].
  destruct (fle (fabs _) _); [discriminate|].
  destruct (fle _ (newslope _ _ _)); [discriminate|].
  replace (feq _ _) with true; [discriminate|].
  cbn. rewrite Hs, EM. symmetry. now apply Reqb_true.
Qed.

Lemma sw_step M : Maxstepsize A p = Fin M -> forall t v : F A,
  (exists r, v = Fin r /\ 0 < r) ->
  let w := if flt (fmul (fq (11#10)) v) t then t else fmul (@fq A (11#10)) v in
  let u := if flt w (Maxstepsize A p) then w else Maxstepsize A p in
  u = Fin M \/ (exists r r', v = Fin r /\ u = Fin r' /\ 11/10 * r <= r').
Proof.
  intros EM t v (r & -> & Hr) w u. subst u w. rewrite EM. cbn.
  replace (Q2R (11#10)) with (11/10) by (unfold Q2R; simpl; lra).
  assert (Hb : forall a, 11/10 * r <= a -> (if xlt (Fin a) (Fin M) then Fin a else Fin M) = Fin M \/
    (exists r0 r', Fin r = Fin r0 /\ (if xlt (Fin a) (Fin M) then Fin a else Fin M) = Fin r' /\ 11/10 * r0 <= r')).
  { intros a Ha. destruct (xlt _ _); [right|left; reflexivity]. exists r, a. auto. }
  destruct t as [t| | |]; cbn.
  - destruct (Rltb _ t) eqn:E; [|apply Hb; lra]. apply Hb. apply Rltb_true in E. lra.
  - left. reflexivity.
  - apply Hb. lra.
  - apply Hb. lra.
Qed.

Lemma sw_term M : Maxstepsize A p = Fin M ->
  forall n a b d s r, ss s = Fin r -> 0 < r -> M <= r * (11/10) ^ n ->
  sw_loop A G p c (S (S n)) a b d s <> None.
Proof.
  intros EM. induction n as [|n IH]; intros a b d s r Hs Hr Hn.
  - cbn [pow] in Hn. remember 1%nat as one. cbn [sw_loop]. subst one.
    destruct (_ || _); [discriminate|].
    destruct (fle (fabs _) _); [discriminate|].
    destruct (fle _ (newslope _ _ _)); [discriminate|].
    destruct (feq _ _); [discriminate|].
    apply sw_at_max with (M := M); [auto|].
    cbn [LineSearchModel.ss set_ss]. set (u := if flt _ _ then _ else _).
    destruct (sw_step M EM (fdiv (fdiv (fmul (fmul (fopp (lslope A G c)) (ss (dh A G c (h A G c s)))) (ss (dh A G c (h A G c s)))) (fq 2)) (fsub (fsub (f2 A G (dh A G c (h A G c s))) (lf1 A G c)) (fmul (lslope A G c) (ss (dh A G c (h A G c s)))))) (ss s)) as [Hu|(r0 & r' & H0 & Hu & H1)].
    + exists r. auto.
    + subst u. exact Hu.
    + subst u. rewrite EM in *.
      assert (r0 = r) by congruence. subst r0.
      match type of Hu with (if ?x then ?y else _) = _ => change ((if x then y else Fin M) = Fin M); destruct x eqn:E; [|reflexivity]; rewrite Hu in E end.
      apply Rltb_true in E. lra.
  - remember (S (S n)) as sn. cbn [sw_loop]. subst sn.
    destruct (_ || _); [discriminate|].
    destruct (fle (fabs _) _); [discriminate|].
    destruct (fle _ (newslope _ _ _)); [discriminate|].
    destruct (feq _ _); [discriminate|].
    set (t := fdiv (fdiv _ _) _).
    destruct (sw_step M EM t (ss s)) as [Hu|(r0 & r' & H0 & Hu & H1)].
    + exists r. auto.
    + eapply sw_mono; [eapply sw_at_max; [exact EM|exact Hu]|lia].
    + assert (r0 = r) by congruence. subst r0.
      apply IH with (r := r').
      * exact Hu.
      * nra.
      * simpl in Hn. assert (0 < (11/10)^n) by (apply pow_lt; lra). nra.
Qed.

Lemma grow_large M r : 0 < r -> exists n, M <= r * (11/10) ^ n.
Proof.
  intros Hr. destruct (Rle_dec M 0) as [H|H].
  - exists O. simpl. lra.
  - destruct (Pow_x_infinity (11/10) ltac:(rewrite Rabs_pos_eq; lra) (M / r)) as [N HN].
    exists N. specialize (HN N (Nat.le_refl _)).
    rewrite Rabs_pos_eq in HN by (apply pow_le; lra).
    apply Rge_le in HN. apply Rmult_le_compat_l with (r := r) in HN; [|lra].
    replace (r * (M / r)) with M in HN by (field; lra). exact HN.
Qed.

Lemma strong_wolfe_terminates M s0 :
  Maxstepsize A p = Fin M -> (exists r, ss s0 = Fin r /\ 0 < r) \/ ss s0 = NaN ->
  exists n, forall fuel, (n <= fuel)%nat -> strong_wolfe A G p c fuel s0 <> None.
Proof.
  intros EM [(r & Hs & Hr)|Hs].
  - destruct (grow_large M r Hr) as [n Hn]. exists (S (S n)). unfold strong_wolfe.
    apply sw_mono. eapply sw_term; eauto.
  - exists 2%nat. unfold strong_wolfe. apply sw_mono.
    remember 1%nat as one. cbn [sw_loop]. subst one.
    destruct (_ || _); [discriminate|].
    destruct (fle (fabs _) _); [discriminate|].
    destruct (fle _ (newslope _ _ _)); [discriminate|].
    destruct (feq _ _); [discriminate|].
    apply sw_at_max with (M := M); [auto|].
    cbn [LineSearchModel.ss set_ss h dh set_status]. rewrite Hs, EM.
    cbn [fmul fq A xmul flt xlt]. reflexivity.
Qed.

(** *** Wolfe, for an objective with finite values *)
Lemma wolfe_mono : forall n a b s, wolfe_loop A G p c n a b s <> None ->
  forall k, (n <= k)%nat -> wolfe_loop A G p c k a b s <> None.
Proof.
  induction n as [|n IH]; intros a b s H k Hk; [now simpl in H|].
  destruct k as [|k]; [lia|]. cbn [wolfe_loop] in *.
  destruct (decr_ok _ _ _ _ _).
  - destruct (low_slope _ _ _ _ _); [|discriminate].
    destruct (doubling _ _ _ _ _ _ _ _) as [[s3 p3] fp3].
    destruct (fle _ (ss s3)); [discriminate|].
    destruct (negb _ && _); [|discriminate].
    destruct (if flt (ss s3) p3 then _ else _) as [flo fhi].
    destruct (low_slope _ _ _ _ _); discriminate.
  - destruct (fle _ _); [discriminate|]. apply IH; auto. lia.
Qed.

Lemma xdiv_fin a b : b <> 0 -> xdiv (Fin a) (Fin b) = Fin (a / b).
Proof.
  intros H. cbn. unfold xsign. destruct (Rlt_dec 0 b); [reflexivity|].
  destruct (Rlt_dec b 0); [reflexivity|]. lra.
Qed.

Lemma wolfe_next_bound f g l a t v pre fp :
  lf1 A G c = Fin f -> lslope A G c = Fin g -> llength A G c = Fin l -> LS_alpha A p = Fin a ->
  g < 0 -> 0 <= a < 1/2 -> 0 < t ->
  (t = l \/ exists pr fv, pre = Fin pr /\ fp = Fin fv /\ t < pr) ->
  f + a * t * g < v ->
  forall s, ss s = Fin t -> f2 A G s = Fin v ->
  exists t', wolfe_next A G c pre fp s = Fin t' /\ 0 < t' /\ t' <= Rmax (1/2) (1 / (2 * (1 - a))) * t.
Proof.
  intros Ef Eg El Ea Hg Ha Ht Hp Hv s Hs Hv2.
  set (q := Rmax _ _).
  assert (Hq1 : 1/2 <= q) by apply Rmax_l.
  assert (Hq2 : 1 / (2 * (1 - a)) <= q) by apply Rmax_r.
  assert (Q2 : Q2R 2 = 2) by (unfold Q2R; simpl; lra).
  assert (Q3 : Q2R 3 = 3) by (unfold Q2R; simpl; lra).
  assert (Q1 : Q2R 1 = 1) by (unfold Q2R; simpl; lra).
  assert (Q0 : Q2R 0 = 0) by (unfold Q2R; simpl; lra).
  assert (Qh : Q2R (1#2) = 1/2) by (unfold Q2R; simpl; lra).
  assert (Qc : Q2R (1#100) = 1/100) by (unfold Q2R; simpl; lra).
  unfold wolfe_next. rewrite Ef, Eg, El, Hs, Hv2.
  set (st := if feq _ _ then _ else _).
  assert (Hst : (exists z, st = Fin z /\ z <= q * t)).
  { subst st. change (@feq A (Fin t) (Fin l)) with (Reqb t l).
    destruct (Reqb t l) eqn:E.
    - apply Reqb_true in E. subst l.
      cbn [fdiv fmul fopp fsub A xmul xopp fq]. unfold xsub. cbn [xadd xopp]. rewrite Q2.
      rewrite xdiv_fin by lra. set (D := v + - f + - (g * t)).
      assert (HD : (1 - a) * (- g) * t < D) by (unfold D; nra).
      assert (0 < (1 - a) * (- g) * t) by (apply Rmult_lt_0_compat; nra).
      rewrite xdiv_fin by lra.
      exists (- g * t * t / 2 / D). split; [reflexivity|].
      apply Rle_trans with (1 / (2 * (1 - a)) * t); [|nra].
      apply Rmult_le_reg_r with D; [lra|].
      replace (- g * t * t / 2 / D * D) with (- g * t * t / 2) by (field; lra).
      apply Rle_trans with (1 / (2 * (1 - a)) * t * ((1 - a) * (- g) * t)).
      { right. field. lra. }
      apply Rmult_le_compat_l; [|lra]. apply Rmult_le_pos; [|lra].
      apply Rle_mult_inv_pos; lra.
    - apply Reqb_false in E. destruct Hp as [Hp|(pr & fv & -> & -> & Hlt)]; [contradiction|].
      cbn [fdiv fmul fopp fsub fadd A xmul xopp fq]. unfold xsub. cbn [xadd xopp].
      rewrite Q1, Q2, Q3, Q0, Qh.
      rewrite !xdiv_fin by (try lra; try (apply Rgt_not_eq; nra)).
      cbn [xmul xadd xopp].
      set (n1 := 1 / t / t). set (n2 := 1 / pr / pr).
      set (n3 := (_ + _ + _) / (t + - pr)). set (n4 := (_ + _ + _) / (t + - pr)).
      set (aa := n1 * n3 + - (n2 * n4)). set (bb := - pr * n1 * n3 + t * n2 * n4).
      set (disc0 := bb * bb + - (3 * aa * g)).
      assert (Hd : exists d, (if @flt A (Fin disc0) (Fin 0) then Fin 0 else Fin disc0) = Fin d /\ 0 <= d).
      { change (@flt A (Fin disc0) (Fin 0)) with (Rltb disc0 0). destruct (Rltb disc0 0) eqn:Ed.
        - exists 0. split; [reflexivity|lra].
        - exists disc0. split; [reflexivity|]. apply Rltb_false in Ed. lra. }
      destruct Hd as (d & Hd & Hd0). 
      match goal with |- context [@fsqrt ?a ?d'] => replace d' with (Fin d : F A) by (symmetry; exact Hd) end.
      set (tt := if @flt A (@fabs A (Fin aa)) _ then _ else _).
      assert (Htt : (exists z, tt = Fin z) \/ tt = PInf).
      { subst tt. destruct (@flt A (@fabs A (Fin aa)) _) eqn:Eaa.
        - destruct (Req_dec bb 0) as [Hb|Hb].
          + right. rewrite Hb. cbn. unfold xsign.
            destruct (Rlt_dec 0 0) as [?|_]; [lra|].
            destruct (Rlt_dec 0 (- g / 2)); [reflexivity|lra].
          + left. rewrite xdiv_fin by auto. eauto.
        - left. cbn [fsqrt A xsqrt]. destruct (Rlt_dec d 0); [lra|]. cbn [xadd].
          rewrite !xdiv_fin; [eauto| |lra].
          intros Haa. rewrite Haa in Eaa. cbn in Eaa. apply Rltb_false in Eaa.
          rewrite Rabs_R0 in Eaa. unfold Q2R in Eaa. simpl in Eaa. lra. }
      destruct Htt as [[z Hz]|Hz]; rewrite Hz.
      + change (@flt A (Fin (1/2 * t)) (Fin z)) with (Rltb (1/2 * t) z).
        destruct (Rltb (1/2 * t) z) eqn:Ez.
        * exists (1/2 * t). split; [reflexivity|nra].
        * exists z. split; [reflexivity|]. apply Rltb_false in Ez. nra.
      + exists (1/2 * t). split; [reflexivity|nra]. }
  destruct Hst as (z & -> & Hz).
  cbn [fmul fq A xmul]. rewrite Qc.
  change (@fle A (Fin z) (Fin (1/100 * t))) with (Rleb z (1/100 * t)).
  destruct (Rleb z (1/100 * t)) eqn:E.
  - exists (1/100 * t). split; [reflexivity|]. split; nra.
  - apply Rleb_false in E. exists z. split; [reflexivity|]. split; nra.
Qed.

Lemma wolfe_terminates f g l a m s0 :
  lf1 A G c = Fin f -> lslope A G c = Fin g -> llength A G c = Fin l -> LS_alpha A p = Fin a ->
  Minstepsize A p = Fin m ->
  g < 0 -> 0 <= a < 1/2 -> 0 < l -> 0 < m -> ss s0 = Fin l ->
  (forall x, finite (fobj A G x)) ->
  exists n, forall fuel, (n <= fuel)%nat -> wolfe A G p c fuel s0 <> None.
Proof.
  intros Ef Eg El Ea Em Hg Ha Hl Hm Hs Hfin.
  set (q := Rmax (1/2) (1 / (2 * (1 - a)))).
  assert (Hq : 0 < q < 1).
  { split.
    - apply Rlt_le_trans with (1/2); [lra|apply Rmax_l].
    - apply Rmax_lub_lt; [lra|]. apply Rmult_lt_reg_r with (2 * (1 - a)); [lra|].
      replace (1 / (2 * (1 - a)) * (2 * (1 - a))) with 1 by (field; lra). lra. }
  assert (H : forall n pre fp s t, ss s = Fin t -> 0 < t -> t * q ^ n < m ->
    (t = l \/ exists pr fv, pre = Fin pr /\ fp = Fin fv /\ t < pr) ->
    wolfe_loop A G p c (S n) pre fp s <> None).
  { induction n as [|n IH]; intros pre fp s t Ht Htp Hn Hp.
    - cbn [wolfe_loop].
      destruct (decr_ok _ _ _ _ _).
      + destruct (low_slope _ _ _ _ _); [|discriminate].
        destruct (doubling _ _ _ _ _ _ _ _) as [[s3 p3] fp3].
        destruct (fle _ (ss s3)); [discriminate|].
        destruct (negb _ && _); [|discriminate].
        destruct (if flt (ss s3) p3 then _ else _) as [flo fhi].
        destruct (low_slope _ _ _ _ _); discriminate.
      + replace (fle (ss (h A G c s)) _) with true; [discriminate|].
        cbn. rewrite Ht, Em. symmetry. apply Rleb_true. simpl in Hn. lra.
    - remember (S n) as sn. cbn [wolfe_loop]. subst sn.
      destruct (decr_ok _ _ _ _ _) eqn:Ed.
      + destruct (low_slope _ _ _ _ _); [|discriminate].
        destruct (doubling _ _ _ _ _ _ _ _) as [[s3 p3] fp3].
        destruct (fle _ (ss s3)); [discriminate|].
        destruct (negb _ && _); [|discriminate].
        destruct (if flt (ss s3) p3 then _ else _) as [flo fhi].
        destruct (low_slope _ _ _ _ _); discriminate.
      + destruct (fle _ _); [discriminate|].
        destruct (Hfin (x2 A G (h A G c s))) as [v Hv].
        assert (Hv2 : f2 A G (h A G c s) = Fin v) by exact Hv.
        unfold decr_ok in Ed. rewrite Hv2, Ef, Ea, Eg in Ed.
        change (ss (h A G c s)) with (ss s) in Ed. rewrite Ht in Ed. cbn in Ed. apply Rleb_false in Ed.
        destruct (wolfe_next_bound f g l a t v pre fp Ef Eg El Ea Hg Ha Htp Hp Ed (h A G c s) Ht Hv2)
          as (t' & Hw & Ht'0 & Ht').
        rewrite Hw. change (ss (h A G c s)) with (ss s). rewrite Ht, Hv2.
        apply IH with (t := t'); [reflexivity|auto| |].
        * simpl in Hn. fold q in Ht'. assert (0 < q ^ n) by (apply pow_lt; lra).
          apply Rle_lt_trans with (t * (q * q ^ n)); [|lra].
          replace (t * (q * q ^ n)) with (q * t * q ^ n) by ring.
          apply Rmult_le_compat_r; lra.
        * right. exists t, v. repeat split. fold q in Ht'. nra. }
  destruct (pow_small q m l) as [n Hn]; [lra|lra|].
  exists (S n). unfold wolfe. apply wolfe_mono. apply H with (t := l); auto.
Qed.

End term.
