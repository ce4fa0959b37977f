(** Trust-region runs: bounds, radius, monotonicity, what is returned. *)
From Coq Require Import QArith Reals List Bool Lia Arith Lra Sorted.
From Verif Require Import Arith TrustRegionModel TrustRegionSpec.
Import ListNotations.
Local Open Scope nat_scope.

Section general.
Context {A : arith} {G : trgeo A} {X : Type} (q : trparams A) (e : tenv A G (X:=X)).
Notation ts := (ts A G (X:=X)).
Local Notation tx1 := (tx1 A G). Local Notation tf1 := (tf1 A G). Local Notation tf2 := (tf2 A G).
Local Notation tgf1 := (tgf1 A G). Local Notation tngf0 := (tngf0 A G). Local Notation tngf1 := (tngf1 A G).
Local Notation tngf2 := (tngf2 A G). Local Notation tDelta := (tDelta A G). Local Notation titer := (titer A G).
Local Notation tfun := (tfun A G). Local Notation tgrads := (tgrads A G). Local Notation tstop := (tstop A G).

(** The state in which the radius is updated. *)
Definition before (s : ts) : ts := with_rho A G e (with_cand A G e s).
(** The state in which the candidate is judged. *)
Definition judged (s : ts) : ts := with_Delta A G (before s) (fst (next_Delta A G q (before s))).

(** What one pass that continues does. *)
Record tpass (s s' : ts) : Prop := {
  tp_fin : fbad (tf2 (before s)) = false;
  tp_brk : snd (next_Delta A G q (before s)) = false;
  tp_dec : let d := decide A G q e (judged s) in
           tx1 s' = tx1 d /\ tf1 s' = tf1 d /\ tgf1 s' = tgf1 d /\ tngf1 s' = tngf1 d /\ tngf2 s' = tngf2 d /\
           tngf0 s' = tngf0 s /\ tstop s' = tstop d;
  tp_delta : tDelta s' = fst (next_Delta A G q (before s));
  tp_iter : titer s' = S (titer s);
  tp_f2 : tf2 s' = tf2 (before s);
  tp_hist : if trecording A q
            then tstore A (tfun s) (S (titer s)) (tf2 s') = Some (tfun s') /\
                 tstore A (tgrads s) (S (titer s)) (tngf2 s') = Some (tgrads s')
            else tfun s' = tfun s /\ tgrads s' = tgrads s
}.

Lemma before_fields s :
  tx1 (before s) = tx1 s /\ tf1 (before s) = tf1 s /\ tgf1 (before s) = tgf1 s /\ tngf0 (before s) = tngf0 s /\
  tngf1 (before s) = tngf1 s /\ tngf2 (before s) = tngf2 s /\ tDelta (before s) = tDelta s /\
  titer (before s) = titer s /\ tstop (before s) = tstop s /\ tfun (before s) = tfun s /\ tgrads (before s) = tgrads s /\
  tf2 (before s) = tf A G (tx2 A G (before s)).
Proof. unfold before, with_cand. destruct (inner A G e s). cbn. intuition. Qed.

Lemma before_cand s : tx2 A G (before s) = tretr A G (tx1 s) (fst (inner A G e s)).
Proof. unfold before, with_cand. destruct (inner A G e s). reflexivity. Qed.

Lemma tbody_cases s :
  tbody A G q e s =
  if fbad (tf2 (before s)) then inr (TDone A G (with_cand A G e s))
  else if snd (next_Delta A G q (before s)) then inr (TDone A G (judged s))
  else match with_record A G q (decide A G q e (judged s)) with Some s3 => inl s3 | None => inr (TOutOfBounds A G) end.
Proof.
  unfold tbody, judged, before. change (tf2 (with_rho A G e (with_cand A G e s))) with (tf2 (with_cand A G e s)).
  destruct (fbad _); [reflexivity|]. destruct (next_Delta _ _ _ _) as [D [|]]; reflexivity.
Qed.

Lemma decide_fields s :
  let d := decide A G q e s in
  tngf0 d = tngf0 s /\ tDelta d = tDelta s /\ titer d = S (titer s) /\ tf2 d = tf2 s /\ tfun d = tfun s /\ tgrads d = tgrads s.
Proof. unfold decide. destruct (accepts A G q s); cbn; intuition. Qed.

Lemma tbody_inl s s' : tbody A G q e s = inl s' -> tpass s s'.
Proof.
  rewrite tbody_cases. destruct (fbad _) eqn:E1; [discriminate|]. destruct (snd _) eqn:E2; [discriminate|].
  destruct (with_record _ _ _ _) as [s3|] eqn:E3; [|discriminate]. intros H. injection H as <-.
  destruct (decide_fields (judged s)) as (D1 & D2 & D3 & D4 & D5 & D6).
  destruct (before_fields s) as (_ & _ & _ & B4 & _ & _ & B7 & B8 & _ & B10 & B11 & _).
  remember (decide A G q e (judged s)) as d eqn:Ed.
  assert (J : tngf0 (judged s) = tngf0 s /\ titer (judged s) = titer s /\ tfun (judged s) = tfun s /\ tgrads (judged s) = tgrads s /\
              tf2 (judged s) = tf2 (before s)) by (unfold judged; cbn; auto).
  destruct J as (J1 & J2 & J3 & J4 & J5).
  unfold with_record in E3. destruct (trecording A q) eqn:Er.
  - destruct (tstore A (tfun d) _ _) as [a|] eqn:Ea; [|discriminate].
    destruct (tstore A (tgrads d) _ _) as [b|] eqn:Eb; [|discriminate]. injection E3 as <-.
    rewrite D5, D3, J2, J3 in Ea. rewrite D6, D3, J2, J4 in Eb.
    split; auto; cbv zeta; rewrite <- ?Ed; cbn -[judged before next_Delta]; try congruence; try (intuition congruence).
    rewrite Er. auto.
  - injection E3 as <-. split; auto; cbv zeta; rewrite <- ?Ed; cbn -[judged before next_Delta]; try congruence; try (intuition congruence).
    rewrite Er. split; congruence.
Qed.

Lemma tbody_done s sf : tbody A G q e s = inr (TDone A G sf) ->
  tx1 sf = tx1 s /\ tf1 sf = tf1 s /\ tgf1 sf = tgf1 s /\ tngf0 sf = tngf0 s /\ tngf1 sf = tngf1 s /\ titer sf = titer s /\
  tfun sf = tfun s /\ tgrads sf = tgrads s /\
  (fbad (tf2 sf) = true \/ fbad (tf2 sf) = false /\ snd (next_Delta A G q (before s)) = true).
Proof.
  rewrite tbody_cases. destruct (before_fields s) as (B1 & B2 & B3 & B4 & B5 & B6 & B7 & B8 & _ & B10 & B11 & _).
  destruct (fbad _) eqn:E1.
  - intros H. injection H as <-. unfold before in *. cbn in *. repeat (split; [assumption|]). now left.
  - destruct (snd _) eqn:E2; [|destruct (with_record _ _ _ _); discriminate].
    intros H. injection H as <-. unfold judged. cbn. repeat (split; [assumption|]). right. now split.
Qed.

(** ** Length of a run *)
Lemma tvisited_iter s0 s l : titer s0 = 0 -> tvisited q e s0 s l ->
  titer s = length l - 1 /\ 1 <= length l /\ hd_error l = Some s /\ (titer s <= Nat.max (tMax_Iteration A q) (tMin_Iteration A q)).
Proof.
  intros H0 Hv. induction Hv as [|s l s' Hv (I1 & I2 & I3 & I4) Hg Hb].
  - simpl. repeat split; auto; lia.
  - destruct (tbody_inl _ _ Hb). simpl. repeat split; try lia.
    unfold tgoes_on in Hg. apply orb_true_iff in Hg as [Hg|Hg].
    + apply andb_true_iff in Hg as [_ Hg]. apply Nat.ltb_lt in Hg. lia.
    + apply Nat.ltb_lt in Hg. lia.
Qed.

Lemma tloop_ends n s0 s l sf : tvisited q e s0 s l -> tloop A G q e n s = TDone A G sf -> exists l', tends q e s0 sf l'.
Proof.
  revert s l. induction n as [|n IH]; intros s l Hv; simpl; destruct (tgoes_on A G q s) eqn:Hg.
  - discriminate.
  - intros H. injection H as <-. exists l. now apply tends_normal.
  - destruct (tbody A G q e s) as [s'|o] eqn:Hb.
    + intros H. eapply IH; [|exact H]. eapply tvisited_step; eauto.
    + intros ->. exists l. eapply tends_break; eauto.
  - intros H. injection H as <-. exists l. now apply tends_normal.
Qed.

Lemma tloop_answers n s : Nat.max (tMax_Iteration A q) (tMin_Iteration A q) - titer s <= n ->
  tloop A G q e n s <> TNoAnswer A G.
Proof.
  revert s. induction n as [|n IH]; intros s Hn; simpl; destruct (tgoes_on A G q s) eqn:Hg; try discriminate.
  - unfold tgoes_on in Hg. apply orb_true_iff in Hg as [Hg|Hg]; [apply andb_true_iff in Hg as [_ Hg]|]; apply Nat.ltb_lt in Hg; lia.
  - destruct (tbody A G q e s) as [s'|o] eqn:Hb.
    + apply IH. destruct (tbody_inl _ _ Hb). lia.
    + rewrite tbody_cases in Hb. destruct (fbad _); [injection Hb as <-; discriminate|]. destruct (snd _); [injection Hb as <-; discriminate|].
      destruct (with_record _ _ _ _); [discriminate|injection Hb as <-; discriminate].
Qed.

(** ** Records *)
Definition tfilled (l : list (F A)) (n : nat) : list (option (F A)) := map Some l ++ repeat None (n - length l).

Lemma tstore_filled l n v l' : tstore A (tfilled l n) (length l) v = Some l' -> l' = tfilled (l ++ [v]) n.
Proof.
  unfold tfilled. rewrite app_length, map_app, <- app_assoc. simpl.
  replace (n - (length l + 1)) with (pred (n - length l)) by lia. generalize (n - length l) as k. intros k. revert l'.
  induction l as [|x l IH]; intros l'; simpl.
  - destruct k as [|k]; simpl; [discriminate|]. now intros [= <-].
  - destruct (tstore A _ (length l) v) as [l2|] eqn:E; [|discriminate]. intros [= <-]. f_equal. now apply IH.
Qed.

Lemma tstore_ok l n v : length l < n -> exists l', tstore A (tfilled l n) (length l) v = Some l'.
Proof.
  unfold tfilled. intros H. assert (K : 0 < n - length l) by lia. revert K. generalize (n - length l) as k. intros k K. clear H n.
  induction l as [|x l IH]; simpl.
  - destruct k; [lia|]. simpl. eauto.
  - destruct IH as [l' ->]. eauto.
Qed.

Section from_start.
Context (x0 x20 : P A G) (gf20 eta20 : T A G) (rho0 : F A) (st0 : tcgstatus) (aux0 : X).
Let s0 := tstart A G q e x0 x20 gf20 eta20 rho0 st0 aux0.

Lemma tvisited_hist s l : trecording A q = true -> tvisited q e s0 s l ->
  let n := S (tMax_Iteration A q) in
  tfun s = tfilled (map tf2 (rev l)) n /\ tgrads s = tfilled (map tngf2 (rev l)) n.
Proof.
  intros Hr Hv. cbv zeta. induction Hv as [|s l s' Hv [I1 I2] Hg Hb].
  - unfold s0, tstart. rewrite Hr. unfold tfilled. cbn. rewrite Nat.sub_0_r. auto.
  - destruct (tbody_inl _ _ Hb). rewrite Hr in tp_hist0. destruct tp_hist0 as [H1 H2].
    destruct (tvisited_iter s0 s l eq_refl Hv) as (L1 & L2 & _).
    rewrite I1 in H1. rewrite I2 in H2.
    replace (S (titer s)) with (length (map tf2 (rev l))) in H1 by (rewrite map_length, rev_length; lia).
    replace (S (titer s)) with (length (map tngf2 (rev l))) in H2 by (rewrite map_length, rev_length; lia).
    apply tstore_filled in H1. apply tstore_filled in H2. rewrite H1, H2. simpl. rewrite !map_app. auto.
Qed.

Lemma tloop_in_bounds n s l : trecording A q = false \/ tMin_Iteration A q <= tMax_Iteration A q ->
  tvisited q e s0 s l -> tloop A G q e n s <> TOutOfBounds A G.
Proof.
  intros Hok. revert s l. induction n as [|n IH]; intros s l Hv; simpl; destruct (tgoes_on A G q s) eqn:Hg; try discriminate.
  destruct (tbody A G q e s) as [s'|o] eqn:Hb.
  - apply (IH s' (s' :: l)). eapply tvisited_step; eauto.
  - rewrite tbody_cases in Hb. destruct (fbad _); [injection Hb as <-; discriminate|]. destruct (snd _); [injection Hb as <-; discriminate|].
    destruct (with_record _ _ _ _) as [s3|] eqn:E; [discriminate|]. exfalso. unfold with_record in E.
    destruct (trecording A q) eqn:Er; [|discriminate]. destruct Hok as [Hok|Hok]; [discriminate|].
    destruct (tvisited_hist _ _ Er Hv) as [H1 H2].
    destruct (tvisited_iter s0 s l eq_refl Hv) as (L1 & L2 & _).
    destruct (decide_fields (judged s)) as (D1 & D2 & D3 & D4 & D5 & D6).
    destruct (before_fields s) as (_ & _ & _ & _ & _ & _ & _ & B8 & _ & B10 & B11 & _).
    rewrite D5, D6, D3 in E. change (titer (judged s)) with (titer (before s)) in E.
    change (tfun (judged s)) with (tfun (before s)) in E. change (tgrads (judged s)) with (tgrads (before s)) in E.
    rewrite B8, B10, B11, H1, H2 in E.
    assert (Hlt : titer s < tMax_Iteration A q).
    { unfold tgoes_on in Hg. apply orb_true_iff in Hg as [Hg|Hg]; [apply andb_true_iff in Hg as [_ Hg]|]; apply Nat.ltb_lt in Hg; lia. }
    destruct (tstore_ok (map tf2 (rev l)) (S (tMax_Iteration A q)) (tf2 (decide A G q e (judged s)))) as [a Ea];
      [rewrite map_length, rev_length; lia|].
    destruct (tstore_ok (map tngf2 (rev l)) (S (tMax_Iteration A q)) (tngf2 (decide A G q e (judged s)))) as [b Eb];
      [rewrite map_length, rev_length; lia|].
    rewrite map_length, rev_length in Ea, Eb. replace (length l) with (S (titer s)) in Ea, Eb by lia.
    rewrite Ea, Eb in E. discriminate.
Qed.

(** Everything the solver holds about its current point was computed there. *)
Definition belongs (s : ts) : Prop :=
  tf1 s = tf A G (tx1 s) /\ tgf1 s = tgrad A G (tx1 s) /\
  tngf1 s = fsqrt (tmet A G (tx1 s) (tgrad A G (tx1 s)) (tgrad A G (tx1 s))).

Lemma tvisited_belongs s l : tvisited q e s0 s l -> belongs s /\ tngf2 s = tngf1 s /\
  (titer s = 0 \/ fbad (tf2 s) = false) /\ (tx1 s = x0 \/ fbad (tf1 s) = false).
Proof.
  intros Hv. induction Hv as [|s l s' Hv (I1 & I2 & I3 & I4) Hg Hb].
  - unfold belongs, s0, tstart. cbn. auto.
  - destruct (tbody_inl _ _ Hb). destruct tp_dec0 as (E1 & E2 & E3 & E4 & E5 & _).
    destruct (before_fields s) as (B1 & B2 & B3 & B4 & B5 & B6 & B7 & B8 & B9 & B10 & B11 & B12).
    unfold decide in *. unfold belongs in *. rewrite E1, E2, E3, E4, E5, tp_f3.
    destruct (accepts A G q (judged s)); cbn -[before judged next_Delta]; unfold judged; cbn -[before next_Delta].
    + repeat split; auto.
    + destruct I1 as (J1 & J2 & J3). rewrite B1, B2, B3, B5, B6. repeat split; auto.
Qed.

Lemma tends_belongs sf l : tends q e s0 sf l -> belongs sf /\ (tx1 sf = x0 \/ fbad (tf1 sf) = false) /\
  hd_error (map tx1 l) = Some (tx1 sf) /\ titer sf = length l - 1 /\
  titer sf <= Nat.max (tMax_Iteration A q) (tMin_Iteration A q) /\
  (trecording A q = true ->
   let n := S (tMax_Iteration A q) in
   tfun sf = tfilled (map tf2 (rev l)) n /\ tgrads sf = tfilled (map tngf2 (rev l)) n).
Proof.
  intros He. inversion He as [s l' Hv Hg|s l' sf' Hv Hg Hb]; subst.
  - destruct (tvisited_belongs _ _ Hv) as (I1 & _ & _ & I4).
    destruct (tvisited_iter s0 _ _ eq_refl Hv) as (L1 & L2 & L3 & L4).
    repeat split; auto; try apply I1; try (intros Hr; now apply tvisited_hist).
    + destruct l; simpl in *; congruence.
    + now apply tvisited_hist.
    + now apply tvisited_hist.
  - destruct (tvisited_belongs _ _ Hv) as ((J1 & J2 & J3) & _ & _ & I4).
    destruct (tvisited_iter s0 _ _ eq_refl Hv) as (L1 & L2 & L3 & L4).
    destruct (tbody_done _ _ Hb) as (T1 & T2 & T3 & T4 & T5 & T6 & T7 & T8 & _).
    unfold belongs. rewrite T1, T2, T3, T5, T6, T7, T8.
    repeat split; auto.
    + destruct l; simpl in *; congruence.
    + now apply tvisited_hist.
    + now apply tvisited_hist.
Qed.
End from_start.
End general.
