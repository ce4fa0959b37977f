(** Consequences over the (extended) reals and concrete executions in binary64. *)
From Coq Require Import QArith Reals List Bool Lra Lia Arith Qreals.
From Coq Require Import Floats.SpecFloat.
From Verif Require Import Arith LineSearchModel LineSearchSpec LineSearchProofs LineSearchTerm.
Import ListNotations.

(** ** Armijo over the extended reals *)
Section armijoX.
Local Open Scope R_scope.
Context (big eps : R).
Notation A := (X_arith big eps).
Context (G : geometry A) (p : lsparams A) (c : lsctx A G).

Lemma fold_max (l : list R) : forall m, exists k, fold_left (max_step A) (map Fin l) (Fin m) = Fin k /\
  is_max k (m :: l).
Proof.
  induction l as [|v l IH]; intros m; simpl.
  - exists m. split; [reflexivity|]. split; [now left|]. intros v [->|[]]. lra.
  - unfold max_step at 2. cbn [flt A xlt]. destruct (Rltb m v) eqn:E.
    + apply Rltb_true in E. destruct (IH v) as (k & Hk & [Hi Hm]). exists k. split; [exact Hk|].
      split.
      * destruct Hi as [Hi|Hi]; [right; left; exact Hi|right; right; exact Hi].
      * intros w [->|[->|Hw]].
        -- apply Rle_trans with v; [lra|]. apply Hm. now left.
        -- apply Hm. now left.
        -- apply Hm. now right.
    + apply Rltb_false in E. destruct (IH m) as (k & Hk & [Hi Hm]). exists k. split; [exact Hk|].
      split.
      * destruct Hi as [Hi|Hi]; [left; exact Hi|right; right; exact Hi].
      * intros w [->|[->|Hw]].
        -- apply Hm. now left.
        -- apply Rle_trans with m; [lra|]. apply Hm. now left.
        -- apply Hm. now right.
Qed.

Lemma firstn_map {X Y} (f : X -> Y) n l : firstn n (map f l) = map f (firstn n l).
Proof. revert l. induction n; intros [|x l]; simpl; congruence. Qed.
Lemma removelast_map {X Y} (f : X -> Y) l : removelast (map f l) = map f (removelast l).
Proof. induction l as [|x [|y l] IH]; simpl in *; congruence. Qed.

Lemma maxpref_max v l num : lf1 A G c = Fin v ->
  exists k, maxpref A G c (map Fin l) num = Fin k /\ is_max k (v :: firstn num (removelast l)).
Proof.
  intros E. unfold maxpref. rewrite E, removelast_map, firstn_map. apply fold_max.
Qed.

Lemma armijo_success_X fuel l num s0 s' f a g t v :
  armijo A G p c fuel (map Fin l) num s0 = Some s' -> status A G s' = SUCCESS ->
  lf1 A G c = Fin f -> LS_alpha A p = Fin a -> lslope A G c = Fin g ->
  ss A G s' = Fin t -> f2 A G s' = Fin v ->
  point_at c s' (Fin t) /\ grad_at c s' (Fin t) /\
  exists m, is_max m (f :: firstn num (removelast l)) /\ v <= m + a * t * g.
Proof.
  intros H Hst Ef Ea Eg Et Ev.
  destruct (armijo_spec A G p c fuel _ num s0 s' H) as [(_ & [Hc Hg] & Hf)|(Hs & _)]; [|congruence].
  unfold cons in Hc. rewrite Et in Hc, Hg. split; [exact Hc|]. split; [exact Hg|].
  destruct (maxpref_max f l num Ef) as (m & Em & Hm). exists m. split; [exact Hm|].
  unfold armijo_fails in Hf. rewrite Em, Ev, Ea, Eg, Et in Hf. cbn in Hf. apply Rltb_false in Hf. lra.
Qed.

Lemma strong_wolfe_success_X fuel s0 s' f a b g t v :
  strong_wolfe A G p c fuel s0 = Some s' -> status A G s' = SUCCESS ->
  lf1 A G c = Fin f -> LS_alpha A p = Fin a -> LS_beta A p = Fin b -> lslope A G c = Fin g ->
  ss A G s' = Fin t -> f2 A G s' = Fin v ->
  point_at c s' (Fin t) /\ grad_at c s' (Fin t) /\ newslope A G s' = dphi c (Fin t) /\
  v <= f + a * t * g /\ exists d, dphi c (Fin t) = Fin d /\ Rabs d <= - b * g.
Proof.
  intros H Hst Ef Ea Eb Eg Et Ev.
  destruct (strong_wolfe_spec A G p c fuel s0 s' H) as [(_ & [[Hc Hg] Hn] & [H1 H2])|[[? _]|[[? _]|[? _]]]]; try congruence.
  unfold cons in Hc. rewrite Et in Hc, Hg, Hn. split; [exact Hc|]. split; [exact Hg|]. split; [exact Hn|].
  rewrite Ef, Ea, Et, Eg, Ev in H1. cbn in H1. apply Rltb_false in H1. split; [lra|].
  rewrite Eb, Eg, Hn in H2. cbn in H2.
  destruct (dphi c (Fin t)) as [d| | |]; cbn in H2; try discriminate.
  exists d. split; [reflexivity|]. now apply Rleb_true in H2.
Qed.
End armijoX.

(** ** Wolfe over the reals *)
Section wolfeR.
Local Open Scope R_scope.
Context (big eps : R).
Notation A := (R_arith big eps).
Context (G : geometry A) (p : lsparams A) (c : lsctx A G).
Notation decr_ok := (decr_ok A G p c). Notation decr_bad := (decr_bad A G p c).
Notation low_slope := (low_slope A G p c).
Notation ss := (ss A G). Notation scons := (scons A G c). Notation cons := (cons A G c).

Lemma bad_ok s : decr_bad s = negb (decr_ok s).
Proof.
  unfold LineSearchModel.decr_ok, LineSearchModel.decr_bad. cbn.
  destruct (Rleb _ _) eqn:E.
  - apply Rleb_true in E. apply Rltb_false. exact E.
  - apply Rleb_false in E. apply Rltb_true. exact E.
Qed.

Lemma doubling_R k : forall pre fp s s' pre' fp',
  doubling A G p c k pre fp s = (s', pre', fp') -> scons s -> decr_ok s = true -> low_slope s = true ->
  (decr_ok s' = false /\ low_slope s' = true) \/
  (decr_ok s' = true /\ scons s' /\ low_slope s' = false) \/
  (decr_ok s' = true /\ scons s' /\ low_slope s' = true /\
     (ss s' < Maxstepsize A p -> ss s' = 2 ^ k * ss s)).
Proof.
  induction k as [|k IH]; intros pre fp s s' pre' fp' H Hc Hd Hl; cbn [doubling] in H.
  { injection H as <- <- <-. right. right. repeat split; auto; try apply Hc. intros _. cbn. lra. }
  rewrite Hd, Hl in H. cbn [andb] in H.
  destruct (flt (ss s) (Maxstepsize A p)) eqn:E.
  - set (v := if flt _ _ then _ else _) in H.
    set (s1 := h A G c (set_ss A G s v)) in H.
    destruct (decr_ok s1) eqn:E1.
    + assert (Hc1 : scons (dh A G c s1)) by apply scons_dh, cons_h.
      destruct (low_slope (dh A G c s1)) eqn:E2.
      * apply IH in H; auto.
        destruct H as [H|[H|(H1 & H2 & H3 & H4)]]; [left; auto|right; left; auto|right; right].
        repeat split; auto; try apply H2.
        intros Hm. rewrite (H4 Hm).
        change (ss (dh A G c s1)) with v. subst v. cbn [flt A].
        destruct (Rltb (fmul (fq 2) (ss s)) (Maxstepsize A p)) eqn:E3.
        -- cbn. unfold Q2R. simpl. lra.
        -- exfalso. specialize (H4 Hm).
           change (ss (dh A G c s1)) with (if Rltb (fmul (fq 2) (ss s)) (Maxstepsize A p)
             then fmul (fq 2) (ss s) else Maxstepsize A p) in H4. rewrite E3 in H4.
           apply Rltb_true in E. 
           assert (1 <= 2 ^ k) by (apply pow_R1_Rle; lra).
           assert (0 <= ss s \/ ss s < 0) as [Hp|Hn] by lra; [nra|].
           apply Rltb_false in E3. cbn in E3. unfold Q2R in E3; simpl in E3. nra.
      * destruct k as [|k]; cbn [doubling] in H.
        -- injection H as <- <- <-. right. left. auto.
        -- change (LineSearchModel.decr_ok A G p c (dh A G c s1)) with (decr_ok s1) in H.
           rewrite E1, E2 in H. cbn [andb] in H. injection H as <- <- <-. right. left. auto.
    + assert (El : low_slope s1 = true) by exact Hl.
      destruct k as [|k]; cbn [doubling] in H.
      * injection H as <- <- <-. left. auto.
      * rewrite E1 in H. cbn [andb] in H. injection H as <- <- <-. left. auto.
  - injection H as <- <- <-. right. right. repeat split; auto; try apply Hc.
    intros Hm. apply Rltb_false in E. lra.
Qed.

Lemma bisect_R k : forall lo diff flo fhi s,
  (low_slope s = true \/ (decr_ok s = true /\ scons s)) ->
  let s' := bisect A G p c k lo diff flo fhi s in
  low_slope s' = true \/ (decr_ok s' = true /\ scons s').
Proof.
  induction k as [|k IH]; intros lo diff flo fhi s Hs; cbn [bisect]; [auto|].
  destruct ((decr_bad s || low_slope s) && _) eqn:E; [|auto].
  assert (Hl : low_slope s = true).
  { destruct Hs as [Hs|[Hs _]]; [auto|]. rewrite bad_ok, Hs in E. simpl in E.
    now apply andb_true_iff in E. }
  set (incr := if flt _ _ then _ else _).
  destruct (decr_bad (h A G c _)) eqn:E1.
  - apply IH. left. exact Hl.
  - rewrite bad_ok in E1. apply negb_false_iff in E1.
    destruct (low_slope (dh A G c _)) eqn:E2; apply IH.
    + left. exact E2.
    + right. split; [exact E1|apply scons_dh, cons_h].
Qed.

Lemma wolfe_loop_R fuel : forall pre fp s s',
  wolfe_loop A G p c fuel pre fp s = Some s' -> status A G s' = SUCCESS ->
  cons s' /\
  ((decr_ok s' = true /\ scons s' /\ low_slope s' = false) \/
  ss s' = llength A G c \/
  (decr_ok s' = true /\ scons s' /\ exists t, ss s' = 2048 * t)).
Proof.
  induction fuel as [|k IH]; intros pre fp s s' H Hst; [discriminate|].
  split; [eapply wolfe_loop_cons; exact H|]. cbn [wolfe_loop] in H.
  assert (Hc0 : scons (dh A G c (h A G c s))) by apply scons_dh, cons_h.
  destruct (decr_ok (h A G c s)) eqn:E1.
  - destruct (low_slope (dh A G c (h A G c s))) eqn:E2.
    + destruct (doubling _ _ _ _ _ _ _ _) as [[s3 p3] fp3] eqn:Ed.
      apply doubling_R in Ed; auto.
      destruct (fle (Maxstepsize A p) (ss s3)) eqn:Em.
      { apply Some_inv in H. subst s'. discriminate. }
      apply Rleb_false in Em.
      destruct (negb (feq (ss s3) (llength A G c)) && decr_bad s3) eqn:Eb.
      * apply andb_true_iff in Eb. destruct Eb as [_ Eb]. rewrite bad_ok in Eb. apply negb_true_iff in Eb.
        destruct Ed as [[_ Ed]|[[Ed _]|[Ed _]]]; try congruence.
        destruct (if flt (ss s3) p3 then _ else _) as [flo fhi].
        match type of H with context [bisect A G p c 11 ?a ?b ?d ?e s3] =>
          pose proof (bisect_R 11 a b d e s3 (or_introl Ed)) as Hb;
          set (s4 := bisect A G p c 11 a b d e s3) in H, Hb end.
        cbv zeta in Hb.
        destruct (low_slope s4) eqn:E4; apply Some_inv in H; subst s'; [discriminate|].
        destruct Hb as [Hb|[Hb1 Hb2]]; [congruence|].
        left. split; [exact Hb1|]. split; [apply scons_status; exact Hb2|exact E4].
      * apply Some_inv in H. subst s'.
        destruct Ed as [[Ed _]|[Ed|(Ed1 & Ed2 & Ed3 & Ed4)]].
        -- right. left. rewrite bad_ok, Ed in Eb. cbn [negb] in Eb. rewrite andb_true_r in Eb.
           apply negb_false_iff in Eb. apply Reqb_true in Eb. exact Eb.
        -- left. destruct Ed as (? & ? & ?). split; [auto|]. split; [apply scons_status; auto|auto].
        -- right. right. split; [exact Ed1|]. split; [apply scons_status; exact Ed2|].
           exists (ss (dh A G c (h A G c s))). change (ss (set_status A G s3 SUCCESS)) with (ss s3).
           rewrite (Ed4 Em). cbn [pow]. cbn. lra.
    + apply Some_inv in H. subst s'. left. split; [exact E1|]. split; [apply scons_status; exact Hc0|exact E2].
  - destruct (fle (ss (h A G c s)) _).
    + apply Some_inv in H. subst s'. discriminate.
    + apply IH in H; auto. apply H.
Qed.

Lemma wolfe_success_R fuel s0 s' :
  wolfe A G p c fuel s0 = Some s' -> status A G s' = SUCCESS ->
  point_at c s' (ss s') /\
  ((phi c (ss s') <= lf1 A G c + LS_alpha A p * ss s' * lslope A G c /\
    LS_beta A p * lslope A G c <= dphi c (ss s')) \/
   ss s' = llength A G c \/
   (phi c (ss s') <= lf1 A G c + LS_alpha A p * ss s' * lslope A G c /\ exists t, ss s' = 2048 * t)).
Proof.
  intros H Hst. destruct (wolfe_loop_R fuel _ _ _ _ H Hst) as [Hc Hx].
  split; [exact Hc|].
  assert (Hd : decr_ok s' = true -> phi c (ss s') <= lf1 A G c + LS_alpha A p * ss s' * lslope A G c).
  { intros Hd. apply Rleb_true in Hd. destruct Hc as (_ & _ & Hf). rewrite <- Hf. exact Hd. }
  destruct Hx as [(H1 & [_ H2] & H3)|[H1|(H1 & _ & H2)]].
  - left. split; [auto|]. apply Rltb_false in H3. rewrite <- H2. exact H3.
  - right. left. exact H1.
  - right. right. auto.
Qed.
End wolfeR.

