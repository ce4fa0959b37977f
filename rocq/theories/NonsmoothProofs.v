(** Proofs about the proximal gradient solvers. *)
From Coq Require Import QArith Qreals Reals List Bool Arith Lia Lra Psatz.
From Verif Require Import Arith NonsmoothModel NonsmoothSpec TCGProofs.
Import ListNotations.

Fixpoint iter_n {T} (n : nat) (f : T -> T) (x : T) : T :=
  match n with O => x | S n => f (iter_n n f x) end.

(** ** Termination, any arithmetic *)
Section term.
Context (A : arith) (E : pgenv A) (P : pgpar A).

Definition nth_step (k : nat) : F A := iter_n k (fun s => fmul s (pRatio P)) (fq 1%Q).

Lemma armijo_some n : forall k x1 eta f1 slope x2 f2,
  (1 <= n)%nat -> flt (nth_step (k + n)) (pMinstep P) = true ->
  exists r, pg_armijo A E P n x1 eta f1 slope (nth_step k) x2 f2 = Some r.
Proof.
  induction n as [|n IH]; intros k x1 eta f1 slope x2 f2 Hn HL; [lia|].
  cbn [pg_armijo].
  destruct (flt (fsub f1 f2) _); [|eauto].
  change (fmul (nth_step k) (pRatio P)) with (nth_step (S k)).
  destruct (flt (nth_step (S k)) (pMinstep P)) eqn:Es; [eauto|].
  destruct n as [|n].
  - replace (k + 1)%nat with (S k) in HL by lia. congruence.
  - apply IH; [lia|]. now replace (S k + S n)%nat with (k + S (S n))%nat by lia.
Qed.

Context (L K : nat) (acc0 : F A * F A)
  (HL1 : (1 <= L)%nat) (HL : flt (nth_step L) (pMinstep P) = true)
  (HK : sm_floor A (iter_n K (sm_shrink A) acc0) = true).

Lemma ls_some x1 eta f1 slope : exists r, pg_linesearch A E P L x1 eta f1 slope = Some r.
Proof. unfold pg_linesearch. apply (armijo_some L 0); auto. Qed.

Lemma pg_loop_ends stopped : forall fuel s j,
  gacc s = iter_n j (sm_shrink A) acc0 -> (j <= K)%nat ->
  gtime s = (giter s + j)%nat ->
  (giter s <= Nat.max (pMax P) (pMin P))%nat ->
  (Nat.max (pMax P) (pMin P) - giter s + (K - j) < fuel)%nat ->
  exists s', pg_loop A E P stopped L fuel s = Some s'
    /\ (giter s' <= Nat.max (pMax P) (pMin P))%nat
    /\ (gtime s' <= giter s' + K + 1)%nat.
Proof.
  induction fuel as [|fuel IH]; intros s j Ha Hj Ht Hi Hf; [lia|].
  cbn [pg_loop].
  destruct (pg_going A E P s) eqn:Eg.
  2:{ exists s. repeat split; auto; lia. }
  assert (Hlt : (giter s < Nat.max (pMax P) (pMin P))%nat).
  { unfold pg_going in Eg. apply orb_true_iff in Eg. destruct Eg as [Eg|Eg].
    - apply andb_true_iff in Eg. destruct Eg as [_ Eg]. apply Nat.ltb_lt in Eg. lia.
    - apply Nat.ltb_lt in Eg. lia. }
  unfold pg_pass.
  destruct (nprox E _ _ _ _ _ _) as [eta1 init].
  destruct (ls_some (gx1 s) eta1 (gf1v s) (nmet E (gx1 s) (ggf1 s) eta1)) as [[[[st x2] f2] ok] Hls].
  rewrite Hls.
  destruct ok; cbn [negb].
  - destruct (fbad f2).
    + eexists; split; [reflexivity|]. cbn. lia.
    + apply (IH _ j); cbn; auto; lia.
  - destruct (sm_floor A (gacc s)) eqn:Efl.
    + eexists; split; [reflexivity|]. cbn. lia.
    + assert (j <> K) by (intros ->; rewrite Ha in Efl; congruence).
      apply (IH _ (S j)); cbn; try lia.
      now rewrite Ha.
Qed.

Lemma pg_run_ends stopped x1 x2 ada init fuel :
  (Nat.max (pMax P) (pMin P) + K < fuel)%nat ->
  exists s', pg_run A E P stopped L fuel x1 x2 ada acc0 init = Some s'
    /\ (giter s' <= Nat.max (pMax P) (pMin P))%nat
    /\ (gtime s' <= giter s' + K + 1)%nat.
Proof.
  intros Hf. unfold pg_run. apply (pg_loop_ends stopped fuel _ 0); cbn; auto; lia.
Qed.

Context (Hgap : pGap P <> 0%nat).

Lemma am_choose_iter s : aiter (am_choose A E s) = aiter s.
Proof. unfold am_choose. destruct (negb _ && _)%bool; reflexivity. Qed.
Lemma am_choose_acc s : aacc (am_choose A E s) = aacc s.
Proof. unfold am_choose. destruct (negb _ && _)%bool; reflexivity. Qed.
Lemma am_choose_time s : atime (am_choose A E s) = atime s.
Proof. unfold am_choose. destruct (negb _ && _)%bool; reflexivity. Qed.
Lemma am_step_iter stopped s : aiter (am_step A E stopped s) = S (aiter s).
Proof. unfold am_step. destruct (nprox E _ _ _ _ _ _). reflexivity. Qed.
Lemma am_step_acc stopped s : aacc (am_step A E stopped s) = aacc s.
Proof. unfold am_step. destruct (nprox E _ _ _ _ _ _). reflexivity. Qed.
Lemma am_step_time stopped s : atime (am_step A E stopped s) = S (atime s).
Proof. unfold am_step. destruct (nprox E _ _ _ _ _ _). reflexivity. Qed.

Lemma am_loop_ends stopped : forall fuel s j,
  aacc s = iter_n j (sm_shrink A) acc0 -> (j <= K)%nat ->
  atime s = (aiter s + j)%nat ->
  (aiter s <= Nat.max (pMax P) (pMin P))%nat ->
  (Nat.max (pMax P) (pMin P) - aiter s + (K - j) < fuel)%nat ->
  exists s', am_loop A E P stopped L fuel s = AmEnd s'
    /\ (aiter s' <= Nat.max (pMax P) (pMin P))%nat
    /\ (atime s' <= aiter s' + K + 1)%nat.
Proof.
  induction fuel as [|fuel IH]; intros s j Ha Hj Ht Hi Hf; [lia|].
  cbn [am_loop].
  destruct (am_going A E P s) eqn:Eg.
  2:{ exists s. repeat split; auto; lia. }
  assert (Hlt : (aiter s < Nat.max (pMax P) (pMin P))%nat).
  { unfold am_going in Eg. apply orb_true_iff in Eg. destruct Eg as [Eg|Eg].
    - apply andb_true_iff in Eg. destruct Eg as [_ Eg]. apply Nat.ltb_lt in Eg. lia.
    - apply Nat.ltb_lt in Eg. lia. }
  destruct (Nat.eqb_spec (pGap P) 0) as [|_]; [easy|].
  unfold am_pass.
  destruct (Nat.eqb (aiter s mod pGap P) 0).
  2:{ apply (IH _ j); rewrite ?am_step_iter, ?am_step_acc, ?am_step_time; auto; lia. }
  unfold am_safeguard.
  destruct (nprox E _ _ _ _ _ _) as [eta1 init].
  destruct (ls_some (ax1 s) eta1 (af1 s) (nmet E (ax1 s) (agf1 s) eta1)) as [[[[st x2] f2] ok] Hls].
  rewrite Hls.
  destruct ok; cbn [negb].
  - destruct (fbad f2).
    + eexists; split; [reflexivity|]. cbn. lia.
    + apply (IH _ j); rewrite ?am_step_iter, ?am_step_acc, ?am_step_time,
        ?am_choose_iter, ?am_choose_acc, ?am_choose_time; cbn; auto; lia.
  - destruct (sm_floor A (aacc s)) eqn:Efl.
    + eexists; split; [reflexivity|]. cbn. lia.
    + assert (j <> K) by (intros ->; rewrite Ha in Efl; congruence).
      apply (IH _ (S j)); cbn; try lia.
      now rewrite Ha.
Qed.

Lemma am_run_ends stopped x1 x2 ada init inity fz fuel :
  (Nat.max (pMax P) (pMin P) + K < fuel)%nat ->
  exists s', am_run A E P stopped L fuel x1 x2 ada acc0 init inity fz = AmEnd s'
    /\ (aiter s' <= Nat.max (pMax P) (pMin P))%nat
    /\ (atime s' <= aiter s' + K + 1)%nat.
Proof.
  intros Hf. unfold am_run. apply (am_loop_ends stopped fuel _ 0); cbn; auto; lia.
Qed.
End term.

(** ** Exact arithmetic: the two sequences reach their limits *)
Section exact.
Context (big eps : R).
Notation A := (R_arith big eps).
Local Open Scope R_scope.

Lemma nth_step_R (P : pgpar A) k : nth_step A P k = (pRatio P : R) ^ k.
Proof.
  unfold nth_step. induction k as [|k IH]; cbn [iter_n pow].
  - change (Q2R 1 = 1). unfold Q2R; simpl; lra.
  - rewrite IH. change (((pRatio P : R) ^ k) * pRatio P = pRatio P * pRatio P ^ k). ring.
Qed.

Lemma pow_below r e : 0 < r < 1 -> 0 < e -> exists n, (1 <= n)%nat /\ r ^ n < e.
Proof.
  intros Hr He.
  destruct (pow_lt_1_zero r) with (y := e) as [N HN].
  - rewrite Rabs_right; lra.
  - lra.
  - exists (S N). split; [lia|].
    specialize (HN (S N) ltac:(lia)).
    rewrite Rabs_right in HN; [exact HN|].
    apply Rle_ge, pow_le; lra.
Qed.

Definition e24 : R := Q2R (1 # 1000000000000000000000000).
Definition e10 : R := Q2R (1 # 10000000000).
Lemma e24_pos : 0 < e24. Proof. unfold e24, Q2R; simpl; lra. Qed.
Lemma e10_pos : 0 < e10. Proof. unfold e10, Q2R; simpl; lra. Qed.

Definition down (c fl v : R) : R := if Rltb fl (v * c) then v * c else fl.
Lemma down_iter c fl v : 0 < c < 1 -> 0 < fl ->
  forall k, iter_n k (down c fl) v <= Rmax fl v /\ (k <> O -> fl <= iter_n k (down c fl) v)
    /\ (iter_n k (down c fl) v <= Rmax fl (v * c ^ k)).
Proof.
  intros Hc Hf. induction k as [|k [IH1 [IH2 IH3]]]; cbn [iter_n pow].
  - repeat split; [apply Rmax_r|easy|]. rewrite Rmult_1_r. apply Rmax_r.
  - set (w := iter_n k (down c fl) v) in *. unfold down at 1 2 3.
    destruct (Rltb fl (w * c)) eqn:Ef.
    + apply Rltb_true in Ef.
      assert (0 < w) by nra.
      repeat split; [nra|lra|].
      revert IH3. unfold Rmax. destruct (Rle_dec fl (v * c ^ k)), (Rle_dec fl (v * (c * c ^ k)));
        intros; nra.
    + apply Rltb_false in Ef. repeat split; [apply Rmax_l|lra|apply Rmax_l].
Qed.

Lemma down_reach c fl v : 0 < c < 1 -> 0 < fl -> exists k, forall j, (k <= j)%nat ->
  iter_n j (down c fl) v = fl.
Proof.
  intros Hc Hf.
  destruct (Rle_dec v 0) as [Hv|Hv].
  - exists 1%nat. intros j Hj. destruct (down_iter c fl v Hc Hf j) as [_ [H2 H3]].
    specialize (H2 ltac:(lia)). revert H3. assert (0 < c ^ j) by (apply pow_lt; lra).
    unfold Rmax. destruct (Rle_dec fl (v * c ^ j)); intros; nra.
  - destruct (pow_below c (fl / v)) as [n [Hn1 Hn]]; [lra| |].
    { apply Rdiv_lt_0_compat; lra. }
    exists n. intros j Hj. destruct (down_iter c fl v Hc Hf j) as [_ [H2 H3]].
    specialize (H2 ltac:(lia)).
    assert (Hcj : c ^ j <= c ^ n).
    { replace j with (n + (j - n))%nat by lia. rewrite pow_add.
      assert (c ^ (j - n) <= 1).
      { rewrite <- (pow1 (j - n)). apply pow_incr; lra. }
      assert (0 < c ^ n) by (apply pow_lt; lra). nra. }
    assert (v * c ^ j < fl).
    { apply Rmult_lt_compat_r with (r := v) in Hn; [|lra].
      unfold Rdiv in Hn. rewrite Rmult_assoc, Rinv_l, Rmult_1_r in Hn by lra. nra. }
    revert H3. unfold Rmax. destruct (Rle_dec fl (v * c ^ j)); intros; lra.
Qed.

Lemma shrink_iter (acc : F A * F A) k :
  iter_n k (sm_shrink A) acc
  = (iter_n k (down (Q2R (1 # 100)) e24) (fst acc), iter_n k (down (Q2R (1 # 10)) e10) (snd acc)).
Proof.
  induction k as [|k IH]; cbn [iter_n]; [now destruct acc|].
  rewrite IH. reflexivity.
Qed.

Lemma floor_reached (acc : F A * F A) :
  exists K, sm_floor A (iter_n K (sm_shrink A) acc) = true.
Proof.
  destruct (down_reach (Q2R (1 # 100)) e24 (fst acc)) as [k1 H1];
    [unfold Q2R; simpl; lra|apply e24_pos|].
  destruct (down_reach (Q2R (1 # 10)) e10 (snd acc)) as [k2 H2];
    [unfold Q2R; simpl; lra|apply e10_pos|].
  exists (Nat.max k1 k2). rewrite shrink_iter. unfold sm_floor. cbn [fst snd].
  rewrite H1, H2 by lia.
  apply andb_true_iff. split; apply Reqb_true; reflexivity.
Qed.
End exact.

(** ** Extended reals: accepted values do not increase *)
Section mono.
Context (big eps : R).
Notation A := (X_arith big eps).
Local Open Scope R_scope.
Context (E : pgenv A) (P : pgpar A) (al ra : R).
Context (Hal : pAlpha P = Fin al) (Hal0 : 0 < al) (Hra : pRatio P = Fin ra) (Hra0 : 0 < ra).

Lemma xleP_refl x : x <> NaN -> xleP x x.
Proof. destruct x; cbn; auto; lra. Qed.
Lemma xleP_trans x y z : xleP x y -> xleP y z -> xleP x z.
Proof. destruct x, y, z; cbn; auto; try tauto; lra. Qed.
Lemma xleP_nan_l x y : xleP x y -> x <> NaN.
Proof. destruct x; cbn; easy. Qed.

(** What the test of the line search gives when it is left through its condition. *)
Lemma accept (f1 f2 slope : xr) (st : R) :
  0 < st -> f1 <> NaN -> xbad f2 = false -> xleP slope (Fin 0) ->
  xlt (xsub f1 f2) (xmul (xmul (xopp (Fin al)) slope) (Fin st)) = false ->
  xleP f2 f1.
Proof.
  intros Hst H1 H2 Hs.
  destruct f2 as [b| | |]; try easy.
  destruct slope as [sl| | |]; cbn in Hs; try easy.
  - destruct f1 as [a| | |]; cbn; try easy.
    intros Hx. apply Rltb_false in Hx. assert (al * sl <= 0) by nra. nra.
  - unfold xmul at 2. cbn [xopp xsgn]. unfold xsign at 1.
    destruct (Rlt_dec 0 (- al)); [lra|]. destruct (Rlt_dec (- al) 0); [|lra]. cbn [smul xinf].
    unfold xmul. cbn [xsgn]. unfold xsign.
    destruct (Rlt_dec 0 st); [|lra]. cbn [smul xinf].
    destruct f1 as [a| | |]; cbn; easy.
Qed.

Lemma armijo_mono n : forall x1 eta f1 slope st x2 f2 st' x2' f2',
  pg_armijo A E P n x1 eta f1 slope (Fin st) x2 f2 = Some (st', x2', f2', true) ->
  f2 = nf E x2 -> 0 < st -> f1 <> NaN -> xleP slope (Fin 0) ->
  f2' = nf E x2' /\ (xbad f2' = false -> xleP f2' f1).
Proof.
  induction n as [|n IH]; intros x1 eta f1 slope st x2 f2 st' x2' f2' Hr Hf Hst H1 Hs; [easy|].
  cbn [pg_armijo] in Hr.
  destruct (flt (fsub f1 f2) _) eqn:Et.
  - destruct (flt _ (pMinstep P)); [easy|].
    rewrite Hra in Hr. change (@fmul A (Fin st) (Fin ra)) with (Fin (st * ra)) in Hr.
    eapply IH in Hr; auto. nra.
  - inversion Hr; subst st' x2' f2'. split; [auto|].
    intros Hb. rewrite Hal in Et. eapply accept; eauto.
Qed.

Lemma ls_mono n x1 eta f1 slope st' x2' f2' :
  pg_linesearch A E P n x1 eta f1 slope = Some (st', x2', f2', true) ->
  f1 <> NaN -> xleP slope (Fin 0) ->
  f2' = nf E x2' /\ (xbad f2' = false -> xleP f2' f1).
Proof.
  unfold pg_linesearch. intros H Hn Hs.
  eapply armijo_mono in H; eauto. unfold Q2R; simpl; lra.
Qed.

(** ManPG. *)
Lemma pg_pass_mono stopped lf s s' :
  pg_pass A E P stopped lf s = Some (Again s') ->
  gf1v s <> NaN -> xleP (pg_slope E s) (Fin 0) ->
  xleP (gf1v s') (gf1v s)
  /\ ((giter s' = giter s /\ gx1 s' = gx1 s /\ gf1v s' = gf1v s)
      \/ (giter s' = S (giter s) /\ gf1v s' = nf E (gx1 s') /\ exists v, gf1v s' = Fin v)).
Proof.
  unfold pg_pass, pg_slope. intros H Hn Hs.
  destruct (nprox E _ _ _ _ _ _) as [eta1 init]. cbn [fst] in Hs.
  destruct (pg_linesearch _ _ _ _ _ _ _ _) as [[[[st x2] f2] ok]|] eqn:Els; [|easy].
  destruct ok; cbn [negb] in H.
  - destruct (ls_mono _ _ _ _ _ _ _ _ Els Hn Hs) as [Hf Hle].
    destruct (fbad f2) eqn:Eb; [easy|]. inversion H; subst s'. cbn.
    specialize (Hle Eb). split; [exact Hle|right].
    repeat split; auto. destruct f2; try easy. eauto.
  - destruct (sm_floor A (gacc s)); [easy|]. inversion H; subst s'. cbn.
    split; [now apply xleP_refl|left]. auto.
Qed.

Lemma pg_at_mono stopped lf x1 x2 ada acc init : nf E x1 <> NaN ->
  let s0 := pg_start A E stopped x1 x2 ada acc init in
  forall k s, pg_at E P stopped lf k s0 = Some s ->
  (forall j sj, (j < k)%nat -> pg_at E P stopped lf j s0 = Some sj -> xleP (pg_slope E sj) (Fin 0)) ->
  gf1v s = nf E (gx1 s) /\ xleP (gf1v s) (nf E x1)
  /\ forall j sj, (j <= k)%nat -> pg_at E P stopped lf j s0 = Some sj -> xleP (gf1v s) (gf1v sj).
Proof.
  intros H0 s0. induction k as [|k IH]; intros s Hk Hd; cbn [pg_at] in Hk.
  - inversion Hk; subst s. split; [reflexivity|]. split; [now apply xleP_refl|].
    intros j sj Hj. replace j with 0%nat by lia. cbn. intros Ej. inversion Ej; subst sj.
    now apply xleP_refl.
  - destruct (pg_at E P stopped lf k s0) as [sk|] eqn:Ek; [|easy].
    destruct (pg_going A E P sk); [|easy].
    destruct (pg_pass A E P stopped lf sk) as [[s'|s']|] eqn:Ep; try easy.
    inversion Hk; subst s'.
    destruct (IH sk eq_refl) as [Hf [Hle Hall]]; [intros j sj Hj; apply (Hd j sj); lia|].
    destruct (pg_pass_mono _ _ _ _ Ep) as [Hm Hc];
      [eapply xleP_nan_l; eauto|eapply (Hd k); eauto|].
    split; [|split].
    + destruct Hc as [[_ [Hx Hv]]|[_ [Hv _]]]; [now rewrite Hx, Hv|exact Hv].
    + eapply xleP_trans; eauto.
    + intros j sj Hj Ej. destruct (Nat.eq_dec j (S k)) as [->|].
      * cbn [pg_at] in Ej. rewrite Ek in Ej.
        destruct (pg_going A E P sk); [|easy]. rewrite Ep in Ej. inversion Ej; subst sj.
        apply xleP_refl. eapply xleP_nan_l; eauto.
      * eapply xleP_trans; [exact Hm|]. eapply Hall; [|exact Ej]. lia.
Qed.

(** AManPG. *)
Definition am_inv (s : amst A E) : Prop :=
  af1 s = nf E (ax1 s) /\ agf1 s = ngrad E (ax1 s)
  /\ (aiter s <> 0%nat -> afz2 s = nf E (az1 s))
  /\ (aiter s = 0%nat -> az1 s = ax1 s).

Lemma am_step_keeps stopped s : am_inv s ->
  am_inv (am_step A E stopped s) /\ af1 (am_step A E stopped s) = af1 s.
Proof.
  unfold am_inv, am_step. intros [H1 [H2 [H3 H4]]]. destruct (nprox E _ _ _ _ _ _). cbn.
  repeat split; auto; easy.
Qed.

Lemma am_choose_val s : am_inv s -> af2 s = nf E (ax2 s) -> xleP (af2 s) (af1 s) ->
  nf E (az1 s) <> NaN ->
  xleP (af1 (am_choose A E s)) (af1 s)
  /\ af1 (am_choose A E s) = nf E (ax1 (am_choose A E s))
  /\ agf1 (am_choose A E s) = ngrad E (ax1 (am_choose A E s))
  /\ az1 (am_choose A E s) = ax1 (am_choose A E s).
Proof.
  unfold am_inv, am_choose. intros [H1 [H2 [H3 H4]]] Hf Hle Hz.
  destruct (negb _ && _)%bool eqn:Ec; cbn.
  - rewrite <- Hf. auto.
  - split; [|auto].
    destruct (Nat.eqb_spec (aiter s) 0) as [Ez|Ez]; cbn in Ec.
    + rewrite (H4 Ez), <- H1. apply xleP_refl. rewrite H1, <- (H4 Ez). exact Hz.
    + rewrite (H3 Ez) in Ec. eapply xleP_trans; [|exact Hle].
      destruct (nf E (az1 s)), (af2 s); cbn in *; try easy.
      now apply Rltb_false in Ec.
Qed.

Lemma am_pass_mono stopped lf s s' :
  am_pass A E P stopped lf s = Some (Again s') ->
  am_inv s -> af1 s <> NaN ->
  ((aiter s mod pGap P)%nat = 0%nat -> xleP (am_slope E s) (Fin 0) /\ nf E (az1 s) <> NaN) ->
  am_inv s' /\ xleP (af1 s') (af1 s).
Proof.
  unfold am_pass. intros H Hi Hn Hd.
  destruct (Nat.eqb_spec (aiter s mod pGap P) 0) as [Eg|Eg].
  2:{ inversion H; subst s'. destruct (am_step_keeps stopped s Hi) as [Hi' ->].
      split; [exact Hi'|now apply xleP_refl]. }
  destruct (Hd Eg) as [Hs Hz]. clear Hd.
  unfold am_safeguard in H. unfold am_slope in Hs.
  destruct (nprox E _ _ _ _ _ _) as [eta1 init]. cbn [fst] in Hs.
  destruct (pg_linesearch _ _ _ _ _ _ _ _) as [[[[st x2] f2] ok]|] eqn:Els; [|easy].
  destruct ok; cbn [negb] in H.
  - destruct (ls_mono _ _ _ _ _ _ _ _ Els Hn Hs) as [Hf Hle].
    destruct (fbad f2) eqn:Eb; [easy|]. specialize (Hle Eb).
    set (s1 := mkAm _ _ _ _ _ _ _ _ _ _ _ _ _ _ _ _ _ _ _) in H.
    assert (Hi1 : am_inv s1) by exact Hi.
    destruct (am_choose_val s1 Hi1 Hf Hle Hz) as [Hm [Ha [Hb Hc]]].
    inversion H; subst s'.
    remember (am_choose A E s1) as s2.
    assert (Hnan : af1 s2 <> NaN) by (eapply xleP_nan_l; exact Hm).
    unfold am_step. destruct (nprox E _ _ _ _ _ _). cbn.
    split; [|exact Hm]. unfold am_inv. cbn. repeat split; auto; easy.
  - destruct (sm_floor A (aacc s)); [easy|]. inversion H; subst s'. cbn.
    split; [exact Hi|now apply xleP_refl].
Qed.

Lemma am_at_mono stopped lf x1 x2 ada acc init inity fz : nf E x1 <> NaN ->
  let s0 := am_start A E stopped x1 x2 ada acc init inity fz in
  forall k s, am_at A E P stopped lf k s0 = Some s ->
  (forall j sj, (j < k)%nat -> am_at A E P stopped lf j s0 = Some sj ->
     (aiter sj mod pGap P)%nat = 0%nat ->
     xleP (am_slope E sj) (Fin 0) /\ nf E (az1 sj) <> NaN) ->
  am_inv s
  /\ forall j sj, (j <= k)%nat -> am_at A E P stopped lf j s0 = Some sj -> xleP (af1 s) (af1 sj).
Proof.
  intros H0 s0. induction k as [|k IH]; intros s Hk Hd; cbn [am_at] in Hk.
  - inversion Hk; subst s. split.
    + unfold am_inv, s0. cbn. repeat split; auto. easy.
    + intros j sj Hj. replace j with 0%nat by lia. cbn. intros Ej. inversion Ej; subst sj.
      now apply xleP_refl.
  - destruct (am_at A E P stopped lf k s0) as [sk|] eqn:Ek; [|easy].
    destruct (am_going A E P sk) eqn:Eg; [|easy].
    destruct (am_pass A E P stopped lf sk) as [[s'|s']|] eqn:Ep; try easy.
    inversion Hk; subst s'.
    destruct (IH sk eq_refl) as [Hi Hall]; [intros j sj Hj; apply (Hd j sj); lia|].
    assert (Hn : af1 sk <> NaN).
    { eapply xleP_nan_l. apply (Hall 0%nat s0); [lia|reflexivity]. }
    destruct (am_pass_mono _ _ _ _ Ep Hi Hn) as [Hi' Hm]; [intros; eapply (Hd k); eauto|].
    split; [exact Hi'|].
    intros j sj Hj Ej. destruct (Nat.eq_dec j (S k)) as [->|].
    + cbn [am_at] in Ej. rewrite Ek, Eg, Ep in Ej. inversion Ej; subst sj.
      apply xleP_refl. eapply xleP_nan_l; eauto.
    + eapply xleP_trans; [exact Hm|]. eapply Hall; [|exact Ej]. lia.
Qed.

Lemma am_at_values stopped lf x1 x2 ada acc init inity fz : nf E x1 <> NaN ->
  let s0 := am_start A E stopped x1 x2 ada acc init inity fz in
  forall k s, am_at A E P stopped lf k s0 = Some s ->
  (forall j sj, (j < k)%nat -> am_at A E P stopped lf j s0 = Some sj ->
     (aiter sj mod pGap P)%nat = 0%nat ->
     xleP (am_slope E sj) (Fin 0) /\ nf E (az1 sj) <> NaN) ->
  af1 s = nf E (ax1 s)
  /\ forall j sj, (j <= k)%nat -> am_at A E P stopped lf j s0 = Some sj -> xleP (af1 s) (af1 sj).
Proof.
  intros H0 s0 k s Hk Hd.
  destruct (am_at_mono stopped lf x1 x2 ada acc init inity fz H0 k s Hk Hd) as [Hi Hall].
  split; [apply Hi|exact Hall].
Qed.
End mono.
