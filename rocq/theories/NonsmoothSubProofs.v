(** Proofs about the subgradient line search solver. *)
From Coq Require Import QArith Qreals Reals List Bool Arith Lia Lra Psatz.
From Verif Require Import Arith NonsmoothModel NonsmoothSpec NonsmoothProofs TCGProofs.
Import ListNotations.

Section frame.
Context (A : arith) (E : subenv A) (P : subpar A).

(** What a computation of the search direction leaves alone. *)
Definition same (s s' : subst A E) : Prop :=
  ux1 s' = ux1 s /\ uf1 s' = uf1 s /\ ugf1 s' = ugf1 s /\ undir0 s' = undir0 s
  /\ uEps s' = uEps s /\ uDel s' = uDel s /\ uHv s' = uHv s /\ uiter s' = uiter s
  /\ ustop s' = ustop s /\ ustat s' = ustat s.
Definition same_dir (s s' : subst A E) : Prop :=
  same s s' /\ ueta1 s' = ueta1 s /\ uminPv s' = uminPv s /\ undir1 s' = undir1 s.

Lemma same_trans s1 s2 s3 : same s1 s2 -> same s2 s3 -> same s1 s3.
Proof. unfold same. intuition congruence. Qed.
Lemma same_dir_trans s1 s2 s3 : same_dir s1 s2 -> same_dir s2 s3 -> same_dir s1 s3.
Proof. unfold same_dir. intros [H1 H2] [H3 H4]. split; [eapply same_trans; eauto|intuition congruence]. Qed.
Lemma same_dir_refl s : same_dir s s.
Proof. unfold same_dir, same. tauto. Qed.

Lemma h_same s st : same_dir s (sub_h A E s st).
Proof. unfold same_dir, same, sub_h. cbn. tauto. Qed.
Lemma dh_same s : same_dir s (fst (sub_dh A E s)).
Proof. unfold same_dir, same, sub_dh. cbn. tauto. Qed.

Lemma increasing_same t : forall nd Png hb a b s, same_dir s (increasing A E P t nd Png hb a b s).
Proof.
  induction t as [|t IH]; intros; cbn [increasing]; [apply same_dir_refl|].
  pose proof (dh_same s) as Hd. destruct (sub_dh A E s) as [s1 d]. cbn [fst] in Hd.
  destruct (flt _ _); [|exact Hd].
  pose proof (h_same s1 (fdiv (fadd a b) (fq 2%Q))) as Hh.
  destruct (flt _ _); (eapply same_dir_trans; [exact Hd|]; eapply same_dir_trans; [exact Hh|]; apply IH).
Qed.

Lemma gsd_same k : forall gfs s, same s (gsd_loop A E P k gfs s).
Proof.
  induction k as [|k IH]; intros; cbn [gsd_loop]; [apply (same_dir_refl s)|].
  destruct (shullP E (ux1 s) gfs) as [v Png].
  destruct (if flt _ _ then _ else _) as [w nv].
  destruct (fle nv _); [unfold same; cbn; tauto|].
  set (s1 := mkSub _ _ _ _ _ _ _ _ _ _ _ _ _ _ _ _ _ _).
  pose proof (h_same s1 (fdiv (uEps s1) (fsqrt (smet E (ux1 s) (sscal E (fq (-1)%Q) (uHv s v))
     (sscal E (fq (-1)%Q) (uHv s v)))))) as Hh.
  assert (H01 : same s s1) by (unfold same; cbn; tauto).
  match goal with |- context [fle ?x (fq 0%Q)] => destruct (fle x (fq 0%Q)) end.
  - eapply same_trans; [exact H01|]. apply Hh.
  - eapply same_trans; [exact H01|]. eapply same_trans; [apply Hh|].
    eapply same_trans; [|apply IH].
    match goal with |- same _ (increasing A E P ?t ?nd ?q ?hb ?a ?b ?s) =>
      exact (proj1 (increasing_same t nd q hb a b s)) end.
Qed.
Lemma dir_same s : same s (sub_dir A E P s).
Proof. apply gsd_same. Qed.

(** The direction length is that of the direction, or the shortest vector is below Del. *)
Lemma gsd_ndir k : forall gfs s,
  (forall x l, snd (shull E x l) = smet E x (fst (shull E x l)) (fst (shull E x l))) ->
  k <> O ->
  let s' := gsd_loop A E P k gfs s in
  undir1 s' = Some (fsqrt (smet E (ux1 s') (ueta1 s') (ueta1 s')))
  \/ fle (fsqrt (smet E (ux1 s') (uminPv s') (uminPv s'))) (uDel s') = true.
Proof.
  induction k as [|k IH]; intros gfs s Hq Hk; [easy|]. cbn [gsd_loop]. cbv zeta.
  destruct (shullP E (ux1 s) gfs) as [v Png].
  destruct (if flt _ _ then _ else _) as [w nv] eqn:Ew.
  assert (Hnv : nv = fsqrt (smet E (ux1 s) w w)).
  { destruct (flt _ (fsqrt Png)); [now inversion Ew|].
    specialize (Hq (ux1 s) gfs). destruct (shull E (ux1 s) gfs) as [w' q]. cbn in Hq.
    inversion Ew; subst. reflexivity. }
  destruct (fle nv _) eqn:Env.
  { right. cbn. cbn in Env. now rewrite <- Hnv. }
  set (s1 := mkSub _ _ _ _ _ _ _ _ _ _ _ _ _ _ _ _ _ _).
  pose proof (h_same s1 (fdiv (uEps s1) (fsqrt (smet E (ux1 s) (sscal E (fq (-1)%Q) (uHv s v))
     (sscal E (fq (-1)%Q) (uHv s v)))))) as Hh.
  match goal with |- context [fle ?x (fq 0%Q)] => destruct (fle x (fq 0%Q)) end.
  - left. reflexivity.
  - destruct k as [|k].
    + left. cbn [gsd_loop].
      match goal with |- undir1 (increasing A E P ?t ?nd ?q ?hb ?a ?b ?s) = _ =>
        destruct (increasing_same t nd q hb a b s) as [[Hx _] [He [_ Hn]]];
        rewrite Hn, Hx, He end.
      reflexivity.
    + apply IH; auto.
Qed.

Lemma pass_iter stopped update lf s :
  match sub_pass A E P stopped update lf s with
  | SubShrink s' => uiter s' = uiter s
  | SubIter s' => uiter s' = S (uiter s)
  | _ => True
  end.
Proof.
  unfold sub_pass. pose proof (dir_same s) as Hd.
  destruct (undir1 (sub_dir A E P s)) as [nd|]; [|easy].
  destruct (_ || _)%bool.
  - destruct (sub_shrink _ _ _ _ _ _) as [[e d]|]; [|easy]. cbn. apply Hd.
  - destruct (sub_linesearch A E P lf _ _) as [s1|] eqn:El; [|easy]. cbn.
    f_equal. transitivity (uiter (sub_dir A E P s)); [|apply Hd].
    (* line search *)
    unfold sub_linesearch in El.
    destruct (wolfe_lp A E P lf _ _ _) as [s2|] eqn:Ew; [|easy].
    assert (H2 : uiter s1 = uiter s2).
    { destruct (fle (ustep s2) (uMinstep P)); inversion El;
        destruct (fle (uMaxstep P) _); reflexivity. }
    rewrite H2. clear El H2.
    set (s0 := sub_setstep A E _ _) in Ew.
    change (uiter (sub_dir A E P s)) with (uiter s0). clearbody s0.
    set (slope := smet E _ _ _) in Ew. clearbody slope. clear -Ew.
    revert Ew. generalize (@fq A 0%Q) as pre. revert s0.
    assert (Hz : forall fuel t a b s0, zoom_lp A E P fuel t a b slope s0 = Some s2 ->
       uiter s2 = uiter s0).
    { induction fuel as [|fuel IH]; intros t a b s0 H; [easy|]. cbn [zoom_lp] in H.
      destruct (flt _ (uMinstep P)); [inversion H; reflexivity|].
      destruct (flt (fq 0%Q) _); [apply IH in H; exact H|].
      cbn [sub_dh] in H. destruct (fle _ _); [inversion H; reflexivity|].
      destruct (Nat.leb 30 t); [inversion H; reflexivity|]. apply IH in H; exact H. }
    induction lf as [|lf IH]; intros s0 pre H; [easy|]. cbn [wolfe_lp] in H.
    destruct (flt (fq 0%Q) _); [apply Hz in H; exact H|].
    cbn [sub_dh] in H. destruct (fle _ _); [inversion H; reflexivity|].
    destruct (feq _ _); [inversion H; reflexivity|].
    apply IH in H; exact H.
Qed.

Lemma at_iter stopped update lf s0 : forall k s,
  sub_at E P stopped update lf k s0 = Some s ->
  (uiter s0 <= uMax P)%nat -> (uiter s <= uMax P)%nat.
Proof.
  induction k as [|k IH]; intros s H H0; cbn [sub_at] in H; [now inversion H; subst|].
  destruct (sub_at E P stopped update lf k s0) as [sk|]; [|easy].
  destruct (sub_going A E P sk) eqn:Eg; [|easy].
  specialize (IH sk eq_refl H0).
  pose proof (pass_iter stopped update lf sk) as Hp.
  unfold sub_going in Eg. apply andb_true_iff in Eg. destruct Eg as [Eg _].
  apply andb_true_iff in Eg. destruct Eg as [Eg _]. apply Nat.ltb_lt in Eg.
  destruct (sub_pass A E P stopped update lf sk); try easy; inversion H; subst; lia.
Qed.

(** [sub_loop] ends in a state that [sub_at] reaches. *)
Lemma loop_at stopped update lf s0 : forall fuel k s s',
  sub_at E P stopped update lf k s0 = Some s ->
  sub_loop A E P stopped update lf fuel s = EndOk s' ->
  exists n, sub_at E P stopped update lf n s0 = Some s' /\ sub_going A E P s' = false.
Proof.
  induction fuel as [|fuel IH]; intros k s s' Hk H; [easy|]. cbn [sub_loop] in H.
  destruct (sub_going A E P s) eqn:Eg.
  - destruct (sub_pass A E P stopped update lf s) as [| |s1|s1] eqn:Ep; try easy;
      (eapply (IH (S k)); [|exact H]; cbn [sub_at]; rewrite Hk, Eg, Ep; reflexivity).
  - inversion H; subst. eauto.
Qed.
End frame.

(** ** Passes that are not iterations, exact arithmetic *)
Section bound.
Context (big eps : R).
Notation A := (R_arith big eps).
Local Open Scope R_scope.
Context (E : subenv A) (P : subpar A) (stopped : subst A E -> bool) (update : subst A E -> ST E -> ST E).
Context (eps0 del0 : R).
Context (The : 0 < (uThEps P : R) < 1) (Thd : 0 < (uThDel P : R) < 1)
  (HTol : 0 < (uTol P : R)) (HMinE : 0 < (uMinEps P : R)) (Hdel0 : 0 < del0)
  (HMin : uMin P = 0%nat).
Context (Hstop : forall (s : subst A E) (nd : R), undir1 s = Some nd -> Rabs nd <= uTol P -> stopped s = true).

Lemma shrink_del_spec fuel : forall nd del del' : R, 0 < del ->
  shrink_del A P fuel nd del = Some del' ->
  0 < del' <= del /\ (Rabs nd < del -> del' <= del * uThDel P).
Proof.
  induction fuel as [|fuel IH]; intros nd del del' Hd H; [easy|]. cbn [shrink_del] in H.
  destruct (flt _ _) eqn:Ef.
  - apply IH in H; [|change (0 < del * uThDel P); nra].
    change (@fmul A del (uThDel P)) with (del * uThDel P) in H. nra.
  - inversion H; subst del'. apply Rltb_false in Ef. change (@fabs A nd) with (Rabs nd) in Ef. lra.
Qed.

Definition good (K M k : nat) (s : subst A E) : Prop :=
  (k <= uiter s + K + M + 1)%nat
  /\ (sub_going A E P s = true ->
      exists a b, (a <= K)%nat /\ (b <= M)%nat /\ (k <= uiter s + a + b)%nat
        /\ uEps s <= Rmax (uMinEps P) (eps0 * (uThEps P : R) ^ a)
        /\ 0 < uDel s <= del0 * (uThDel P : R) ^ b).

Lemma sub_bounded K M lf (s0 : subst A E) :
  eps0 * (uThEps P : R) ^ K <= uMinEps P -> del0 * (uThDel P : R) ^ M <= uTol P ->
  uEps s0 = eps0 -> uDel s0 = del0 -> uiter s0 = 0%nat ->
  (forall k (s : subst A E) (nd : R), sub_at E P stopped update lf k s0 = Some s -> sub_going A E P s = true ->
     undir1 (sub_dir A E P s) = Some nd -> Rabs nd <> uDel s) ->
  forall k s, sub_at E P stopped update lf k s0 = Some s -> good K M k s.
Proof.
  intros HK HM He0 Hd0 Hi0 Hne. induction k as [|k IH]; intros s H.
  - cbn in H. inversion H; subst s. split; [lia|]. intros _.
    exists 0%nat, 0%nat. repeat split; try lia; rewrite ?He0, ?Hd0; simpl; try lra.
    rewrite Rmult_1_r. apply Rmax_r.
  - cbn [sub_at] in H.
    destruct (sub_at E P stopped update lf k s0) as [sk|] eqn:Ek; [|easy].
    destruct (sub_going A E P sk) eqn:Eg; [|easy].
    destruct (IH sk eq_refl) as [Hk Hg]. destruct (Hg Eg) as [a [b [Ha [Hb [Hc [HE HD]]]]]].
    pose proof (pass_iter A E P stopped update lf sk) as Hit.
    specialize (Hne k sk).
    pose proof (dir_same A E P sk) as Hsm.
    unfold sub_pass in *.
    destruct (undir1 (sub_dir A E P sk)) as [nd|] eqn:End; [|easy].
    specialize (Hne nd Ek Eg eq_refl).
    destruct Hsm as [_ [_ [_ [_ [HsE [HsD [_ [Hsi _]]]]]]]].
    destruct (_ || _)%bool eqn:Eor.
    + (* a shrinking pass *)
      rewrite HsE, HsD in *.
      destruct (sub_shrink A P lf nd (uEps sk) (uDel sk)) as [[e d]|] eqn:Esh; [|easy].
      inversion H as [Hs]. clear H. cbn in Hit.
      assert (Hdd : 0 < d <= uDel sk /\ e = Rmax (uMinEps P) (uEps sk * uThEps P)
                 /\ (e = uMinEps P -> Rabs nd < uDel sk -> d <= uDel sk * uThDel P)).
      { unfold sub_shrink in Esh.
        set (e1 := if flt (uMinEps P) (fmul (uEps sk) (uThEps P)) then
                     fmul (uEps sk) (uThEps P) else uMinEps P) in Esh.
        assert (He1 : e1 = Rmax (uMinEps P) (uEps sk * uThEps P)).
        { unfold e1. change (@flt A) with Rltb. change (@fmul A) with Rmult.
          destruct (Rltb _ _) eqn:El.
          - apply Rltb_true in El. rewrite Rmax_right; lra.
          - apply Rltb_false in El. rewrite Rmax_left; lra. }
        destruct (flt (uMinEps P) e1) eqn:El.
        - assert (Ee : e = e1) by congruence.
          assert (Ed : d = uDel sk * uThDel P) by (injection Esh; intros; subst; reflexivity).
          clear Esh. apply Rltb_true in El. rewrite Ee, Ed. split; [nra|].
          split; [exact He1|]. lra.
        - destruct (shrink_del A P lf nd (uDel sk)) as [d'|] eqn:Es; [|easy].
          assert (Ee : e = e1) by (cbn in Esh; congruence).
          assert (Ed : d = d') by (cbn in Esh; congruence). clear Esh. subst d'.
          apply shrink_del_spec in Es; [|lra]. rewrite Ee. split; [apply Es|].
          split; [exact He1|]. intros _. apply Es. }
      destruct Hdd as [Hd1 [He1 Hd2]].
      set (s' := mkSub _ _ _ _ _ _ _ _ _ _ _ _ _ _ _ _ _ _) in *.
      assert (Hi' : uiter s' = uiter sk) by exact Hsi.
      destruct (Rlt_dec (uMinEps P) (uEps sk)) as [Hbig|Hsmall].
      * (* Eps still above its lower bound *)
        assert (HaK : a <> K).
        { intros ->. revert HE. unfold Rmax. destruct (Rle_dec _ _); lra. }
        split; [rewrite Hi'; lia|]. intros _.
        exists (S a), b. rewrite Hi'. repeat split; try lia.
        -- change (uEps s') with e. rewrite He1. cbn [pow].
           revert HE. unfold Rmax.
           destruct (Rle_dec (uMinEps P) (eps0 * uThEps P ^ a)),
             (Rle_dec (uMinEps P) (uEps sk * uThEps P)),
             (Rle_dec (uMinEps P) (eps0 * (uThEps P * uThEps P ^ a))); intros; nra.
        -- change (uDel s') with d. lra.
        -- change (uDel s') with d. lra.
      * (* Eps at its lower bound *)
        assert (Hee : e = uMinEps P).
        { rewrite He1. apply Rmax_left. nra. }
        destruct (Rle_dec (Rabs nd) (uTol P)) as [Ht|Ht].
        { (* the stopping test holds *)
          assert (Hng : sub_going A E P s' = false).
          { unfold sub_going. change (ustop s') with (stopped (sub_dir A E P sk)).
            rewrite (Hstop _ nd End Ht). rewrite HMin. change (uEps s') with e.
            replace (flt (uMinEps P) e) with false.
            - destruct (uiter s' <? uMax P)%nat; reflexivity.
            - symmetry. apply Rltb_false. lra. }
          split; [|rewrite Hng; easy].
          rewrite Hi'. lia. }
        assert (Hlt : Rabs nd < uDel sk).
        { apply orb_true_iff in Eor.
          change (@fle A) with Rleb in Eor. change (@fabs A nd) with (Rabs nd) in Eor.
          destruct Eor as [Eo|Eo]; apply Rleb_true in Eo; [|lra].
          destruct (Req_dec (Rabs nd) (uDel sk)); [now contradict Hne|]. lra. }
        assert (HbM : b <> M) by (intros ->; lra).
        split; [rewrite Hi'; lia|]. intros _.
        exists a, (S b). rewrite Hi'. repeat split; try lia.
        -- change (uEps s') with e. rewrite Hee. apply Rmax_l.
        -- change (uDel s') with d. lra.
        -- change (uDel s') with d. cbn [pow]. specialize (Hd2 Hee Hlt). nra.
    + (* an iteration *)
      destruct (sub_linesearch A E P lf _ (sub_dir A E P sk)) as [s1|] eqn:El; [|easy].
      inversion H as [Hs]. cbn in Hit. clear H.
      assert (HED : uEps s1 = uEps sk /\ uDel s1 = uDel sk).
      { clear - El HsE HsD. rewrite <- HsE, <- HsD. clear HsE HsD.
        unfold sub_linesearch in El.
        destruct (wolfe_lp A E P lf _ _ _) as [s2|] eqn:Ew; [|easy].
        assert (H2 : uEps s1 = uEps s2 /\ uDel s1 = uDel s2).
        { destruct (fle (ustep s2) (uMinstep P));
            match type of El with context [fle (uMaxstep P) ?x] =>
              destruct (fle (uMaxstep P) x) end; inversion El; split; reflexivity. }
        destruct H2 as [-> ->]. clear El.
        set (s0 := sub_setstep A E _ _) in Ew.
        change (uEps (sub_dir A E P sk)) with (uEps s0).
        change (uDel (sub_dir A E P sk)) with (uDel s0). clearbody s0.
        set (slope := smet E _ _ _) in Ew. clearbody slope. clear -Ew.
        revert Ew. generalize (@fq A 0%Q) as pre. revert s0.
        assert (Hz : forall fuel t a b s0, zoom_lp A E P fuel t a b slope s0 = Some s2 ->
           uEps s2 = uEps s0 /\ uDel s2 = uDel s0).
        { induction fuel as [|fuel IH]; intros t a b s0 H; [easy|]. cbn [zoom_lp] in H.
          destruct (flt _ (uMinstep P)); [inversion H; split; reflexivity|].
          destruct (flt (fq 0%Q) _); [apply IH in H; exact H|].
          cbn [sub_dh] in H. destruct (fle _ _); [inversion H; split; reflexivity|].
          destruct (Nat.leb 30 t); [inversion H; split; reflexivity|]. apply IH in H; exact H. }
        induction lf as [|lf IH]; intros s0 pre H; [easy|]. cbn [wolfe_lp] in H.
        destruct (flt (fq 0%Q) _); [apply Hz in H; exact H|].
        cbn [sub_dh] in H. destruct (fle _ _); [inversion H; split; reflexivity|].
        destruct (feq _ _); [inversion H; split; reflexivity|].
        apply IH in H; exact H. }
      destruct HED as [HE1 HD1].
      split; [cbn; lia|]. intros _. exists a, b. cbn. rewrite HE1, HD1.
      repeat split; try lia; lra.
Qed.

Lemma mul_cancel (a b : R) : b <> 0 -> b * (a / b) = a.
Proof. intros. field. auto. Qed.

Lemma sub_terminates :
  exists N : nat, forall lf (s0 : subst A E), uEps s0 = eps0 -> uDel s0 = del0 -> uiter s0 = 0%nat ->
  (forall k (s : subst A E) (nd : R), sub_at E P stopped update lf k s0 = Some s -> sub_going A E P s = true ->
     undir1 (sub_dir A E P s) = Some nd -> Rabs nd <> uDel s) ->
  forall k s, sub_at E P stopped update lf k s0 = Some s -> (k <= uiter s + N)%nat.
Proof.
  assert (exists K, eps0 * (uThEps P : R) ^ K <= uMinEps P) as [K HK].
  { destruct (Rle_dec eps0 0) as [Hn|Hn].
    - exists 0%nat. simpl. lra.
    - destruct (pow_below (uThEps P) (uMinEps P / eps0)) as [n [_ Hn1]]; auto.
      + apply Rdiv_lt_0_compat; lra.
      + exists n. apply Rmult_lt_compat_l with (r := eps0) in Hn1; [|lra].
        rewrite mul_cancel in Hn1 by lra. lra. }
  assert (exists M, del0 * (uThDel P : R) ^ M <= uTol P) as [M HM].
  { destruct (pow_below (uThDel P) (uTol P / del0)) as [n [_ Hn1]]; auto.
    - apply Rdiv_lt_0_compat; lra.
    - exists n. apply Rmult_lt_compat_l with (r := del0) in Hn1; [|lra].
      rewrite mul_cancel in Hn1 by lra. lra. }
  exists (K + M + 1)%nat. intros lf s0 H1 H2 H3 H4 k s H.
  destruct (sub_bounded K M lf s0 HK HM H1 H2 H3 H4 k s H). lia.
Qed.
End bound.

(** ** The line search *)
Section ls.
Context (big eps : R).
Notation A := (R_arith big eps).
Local Open Scope R_scope.
Context (E : subenv A) (P : subpar A) (slope : R).

(** x2 is the trial point of the current step and the two conditions hold there. *)
Definition wolfe_ok (s0 s : subst A E) : Prop :=
  ux1 s = ux1 s0 /\ uf1 s = uf1 s0 /\ ueta1 s = ueta1 s0
  /\ ueta2 s = sscal E (ustep s) (ueta1 s0) /\ ux2 s = sretr E (ux1 s0) (ueta2 s)
  /\ uf2 s = sf E (ux2 s) /\ ugf2 s = sgrad E (ux2 s)
  /\ uf2 s - uf1 s <= uAlpha P * slope * ustep s
  /\ uBeta P * slope <= smet E (ux2 s) (ugf2 s) (sdiff E (ux1 s) (ueta2 s) (ux2 s) (ueta1 s)).

Lemma zoom_ok s00 fuel : forall t a b s0 s,
  ux1 s0 = ux1 s00 -> uf1 s0 = uf1 s00 -> ueta1 s0 = ueta1 s00 -> ustat s0 = SUCCESS ->
  zoom_lp A E P fuel t a b slope s0 = Some s -> ustat s = SUCCESS -> wolfe_ok s00 s.
Proof.
  induction fuel as [|fuel IH]; intros t a b s0 s H1 H2 H3 H4 H Hs; [easy|].
  cbn [zoom_lp] in H.
  destruct (flt _ (uMinstep P)); [inversion H; subst s; easy|].
  destruct (flt (fq 0%Q) _) eqn:Ea; [eapply IH; [| | | |exact H|]; auto|].
  cbn [sub_dh] in H. destruct (fle _ _) eqn:Eb.
  - inversion H; subst s. unfold wolfe_ok. cbn.
    apply Rltb_false in Ea. apply Rleb_true in Eb. cbn in Ea, Eb.
    rewrite H1, H2, H3 in *.
    assert (Hq : Q2R 0 = 0) by (unfold Q2R; simpl; lra). rewrite Hq in Ea.
    repeat split; auto. apply Rminus_le. exact Ea.
  - destruct (Nat.leb 30 t); [inversion H; subst s; easy|].
    eapply IH; [| | | |exact H|]; auto.
Qed.

Lemma wolfe_loop_ok s00 fuel : forall pre s0 s,
  ux1 s0 = ux1 s00 -> uf1 s0 = uf1 s00 -> ueta1 s0 = ueta1 s00 -> ustat s0 = SUCCESS ->
  wolfe_lp A E P fuel pre slope s0 = Some s -> ustat s = SUCCESS ->
  wolfe_ok s00 s \/ ustep s = uMaxstep P.
Proof.
  induction fuel as [|fuel IH]; intros pre s0 s H1 H2 H3 H4 H Hs; [easy|].
  cbn [wolfe_lp] in H.
  destruct (flt (fq 0%Q) _) eqn:Ea; [left; eapply zoom_ok; [| | | |exact H|]; auto|].
  cbn [sub_dh] in H. destruct (fle _ _) eqn:Eb.
  - left. inversion H; subst s. unfold wolfe_ok. cbn.
    apply Rltb_false in Ea. apply Rleb_true in Eb. cbn in Ea, Eb.
    rewrite H1, H2, H3 in *.
    assert (Hq : Q2R 0 = 0) by (unfold Q2R; simpl; lra). rewrite Hq in Ea.
    repeat split; auto. apply Rminus_le. exact Ea.
  - destruct (feq _ _) eqn:Ee.
    + right. inversion H; subst s. apply Reqb_true in Ee. exact Ee.
    + eapply IH; [| | | |exact H|]; auto.
Qed.

Lemma linesearch_ok fuel s0 s :
  sub_linesearch A E P fuel slope s0 = Some s -> ustat s = SUCCESS ->
  wolfe_ok s0 s /\ uMinstep P < ustep s < uMaxstep P.
Proof.
  unfold sub_linesearch. intros H Hs.
  destruct (wolfe_lp A E P fuel _ _ _) as [s2|] eqn:Ew; [|easy].
  destruct (fle (ustep s2) (uMinstep P)) eqn:E1.
  { inversion H; subst s. cbn in Hs. destruct (Rleb _ _); easy. }
  destruct (fle (uMaxstep P) (ustep s2)) eqn:E2; [inversion H; subst s; easy|].
  inversion H; subst s2. clear H.
  apply Rleb_false in E1. apply Rleb_false in E2.
  split; [|split; auto].
  eapply (wolfe_loop_ok s0) in Ew; auto.
  destruct Ew as [?|Ew]; [auto|]. rewrite Ew in E2. lra.
Qed.
End ls.
