(** The limited memory of LRBFGS: circular buffer and two-loop recursion, any arithmetic. *)
From Coq Require Import QArith List Bool Arith Lia.
From Verif Require Import Arith QuasiNewtonModel QuasiNewtonSpec.
Import ListNotations.
Local Open Scope nat_scope.

Section arrays.
Context {X : Type}.
Lemma rd_wr_ok (l : list (option X)) i v : i < length l -> exists l', wr l i v = Some l'.
Proof.
  revert i. induction l as [|x l IH]; intros i H; simpl in H; [lia|]. destruct i as [|i]; simpl; [eauto|].
  destruct (IH i) as [l' ->]; [lia|]. simpl. eauto.
Qed.
Lemma wr_length (l l' : list (option X)) i v : wr l i v = Some l' -> length l' = length l.
Proof.
  revert i l'. induction l as [|x l IH]; intros i l' H; simpl in H; [discriminate|]. destruct i as [|i].
  - now injection H as <-.
  - destruct (wr l i v) as [l2|] eqn:E; [|discriminate]. injection H as <-. simpl. f_equal. eauto.
Qed.
Lemma rd_wr (l l' : list (option X)) i v j : wr l i v = Some l' -> rd l' j = if Nat.eqb j i then Some v else rd l j.
Proof.
  revert i l' j. induction l as [|x l IH]; intros i l' j H; simpl in H; [discriminate|]. destruct i as [|i].
  - injection H as <-. destruct j; reflexivity.
  - destruct (wr l i v) as [l2|] eqn:E; [|discriminate]. injection H as <-. destruct j as [|j]; [reflexivity|].
    simpl. specialize (IH i l2 j E). unfold rd in *. simpl. exact IH.
Qed.
Lemma rd_lt (l : list (option X)) i v : rd l i = Some v -> i < length l.
Proof. unfold rd. destruct (nth_error l i) eqn:E; [|discriminate]. intros _. apply nth_error_Some. now rewrite E. Qed.
End arrays.

Lemma mod_cases b i L : b < L -> i <= L -> (b + i) mod L = if b + i <? L then b + i else b + i - L.
Proof.
  intros Hb Hi. destruct (Nat.ltb_spec (b + i) L) as [H|H].
  - now apply Nat.mod_small.
  - symmetry. apply Nat.mod_unique with 1; lia.
Qed.
Lemma mod_inj b i j L : b < L -> i < L -> j < L -> (b + i) mod L = (b + j) mod L -> i = j.
Proof.
  intros Hb Hi Hj. rewrite !mod_cases by lia. destruct (b + i <? L) eqn:E1, (b + j <? L) eqn:E2;
  apply Nat.ltb_lt in E1 || apply Nat.ltb_ge in E1; apply Nat.ltb_lt in E2 || apply Nat.ltb_ge in E2; lia.
Qed.

Section mem.
Context {A : arith} (G : qspace A) (p : qparams A).
Notation V := (QV A G). Notation F := (F A). Notation L := (LengthSY A p).
Notation lmem := (lmem A G).
Local Notation mlen := (mlen A G). Local Notation mbeg := (mbeg A G).
Local Notation mS := (mS A G). Local Notation mY := (mY A G). Local Notation mRHO := (mRHO A G).

Lemma transport_from_spec T k : forall i (l : list (option V)), length l = L -> k <= L ->
  (forall j, j < k -> exists v, rd l ((i + j) mod L) = Some v) ->
  (forall j j', j < k -> j' < k -> (i + j) mod L = (i + j') mod L -> j = j') ->
  exists l', transport_from A G p T k i l = Some l' /\ length l' = L /\
  (forall j, j < k -> rd l' ((i + j) mod L) = option_map T (rd l ((i + j) mod L))) /\
  (forall idx, (forall j, j < k -> idx <> (i + j) mod L) -> rd l' idx = rd l idx).
Proof.
  induction k as [|k IH]; intros i l Hl Hk Hr Hinj.
  - exists l. simpl. repeat split; auto; intros; lia.
  - simpl. destruct (Hr 0) as [v Hv]; [lia|]. rewrite Nat.add_0_r in Hv. rewrite Hv.
    pose proof (rd_lt _ _ _ Hv) as Hlt. destruct (rd_wr_ok l (i mod L) (T v) Hlt) as [l1 E1]. rewrite E1.
    assert (Hne : forall j, j < k -> (S i + j) mod L <> i mod L).
    { intros j Hj E. assert (S j = 0); [|lia]. apply Hinj; try lia. rewrite Nat.add_0_r. rewrite <- E. f_equal. lia. }
    destruct (IH (S i) l1) as (l' & E & L' & R1 & R2).
    + now rewrite (wr_length _ _ _ _ E1).
    + lia.
    + intros j Hj. destruct (Hr (S j)) as [w Hw]; [lia|]. exists w. rewrite (rd_wr _ _ _ _ _ E1).
      destruct (Nat.eqb_spec ((S i + j) mod L) (i mod L)) as [Ee|Ee]; [now apply Hne in Ee|].
      rewrite <- Hw. f_equal. f_equal. lia.
    + intros j j' Hj Hj' E. assert (S j = S j'); [|lia]. apply Hinj; try lia.
      replace (i + S j) with (S i + j) by lia. now replace (i + S j') with (S i + j') by lia.
    + exists l'. split; [exact E|]. split; [exact L'|]. split.
      * intros [|j] Hj.
        -- rewrite Nat.add_0_r. rewrite R2 by (intros j Hj2; intros E2; now apply (Hne j Hj2)).
           rewrite (rd_wr _ _ _ _ _ E1), Nat.eqb_refl, Hv. reflexivity.
        -- replace (i + S j) with (S i + j) by lia. rewrite R1 by lia. f_equal. rewrite (rd_wr _ _ _ _ _ E1).
           destruct (Nat.eqb_spec ((S i + j) mod L) (i mod L)) as [Ee|Ee]; [|reflexivity]. apply Hne in Ee; [easy|lia].
      * intros idx Hidx. rewrite R2.
        -- rewrite (rd_wr _ _ _ _ _ E1). destruct (Nat.eqb_spec idx (i mod L)) as [->|]; [|reflexivity].
           specialize (Hidx 0). rewrite Nat.add_0_r in Hidx. exfalso. apply Hidx; [lia|reflexivity].
        -- intros j Hj. specialize (Hidx (S j)). replace (i + S j) with (S i + j) in Hidx by lia. apply Hidx. lia.
Qed.

(** ** Invariant *)
Record holds (m : lmem) (cs : list (V * V * F)) : Prop := {
  h_S : length (mS m) = L; h_Y : length (mY m) = L; h_R : length (mRHO m) = L;
  h_len : mlen m = length cs; h_le : mlen m <= L;
  h_beg : mbeg m = 0 \/ (mbeg m < L /\ mlen m = L);
  h_restart : LMrestart A p = true -> mbeg m = 0;
  h_slot : forall i c, nth_error cs i = Some c -> slot A G m ((mbeg m + i) mod L) = Some c
}.

Lemma holds_beg m cs : holds m cs -> 0 < L -> mbeg m < L.
Proof. intros [] HL. destruct h_beg0 as [->|[]]; lia. Qed.

Lemma slot_inv m i s y r : slot A G m i = Some (s, y, r) -> rd (mS m) i = Some s /\ rd (mY m) i = Some y /\ rd (mRHO m) i = Some r.
Proof.
  unfold slot. destruct (rd (mS m) i), (rd (mY m) i), (rd (mRHO m) i); try discriminate. now intros [= -> -> ->].
Qed.

Lemma holds_contents m cs : holds m cs -> contents G p m = map Some cs.
Proof.
  intros H. unfold contents. rewrite (h_len _ _ H).
  assert (K : forall i c, nth_error cs i = Some c -> slot A G m ((mbeg m + i) mod L) = Some c) by apply H.
  revert K. generalize (mbeg m). clear H. induction cs as [|c cs IH]; intros b K; simpl; [reflexivity|].
  f_equal; [exact (K 0 c eq_refl)|]. rewrite <- seq_shift, map_map. rewrite <- (IH (S b)).
  - apply map_ext. intros i. do 2 f_equal. lia.
  - intros i c' E. replace (S b + i) with (b + S i) by lia. apply K. exact E.
Qed.

Lemma transport_mem_spec T k b m : length (mS m) = L -> length (mY m) = L -> k <= L -> (0 < k -> b < L) ->
  (forall j, j < k -> exists s y r, slot A G m ((b + j) mod L) = Some (s, y, r)) ->
  exists m', transport_mem A G p T k b m = Some m' /\ length (mS m') = L /\ length (mY m') = L /\
  mRHO m' = mRHO m /\ mlen m' = mlen m /\ mbeg m' = mbeg m /\ mgamma A G m' = mgamma A G m /\
  (forall j, j < k -> slot A G m' ((b + j) mod L) = option_map (move G T) (slot A G m ((b + j) mod L))) /\
  (forall idx, (forall j, j < k -> idx <> (b + j) mod L) -> slot A G m' idx = slot A G m idx).
Proof.
  intros HS HY Hk Hb Hr. unfold transport_mem.
  assert (Hinj : forall j j', j < k -> j' < k -> (b + j) mod L = (b + j') mod L -> j = j').
  { intros j j' H1 H2. apply mod_inj; try lia. }
  destruct (transport_from_spec T k b (mS m) HS Hk) as (S' & ES & LS & S1 & S2); auto.
  { intros j Hj. destruct (Hr j Hj) as (s & y & r & E). apply slot_inv in E. exists s. apply E. }
  destruct (transport_from_spec T k b (mY m) HY Hk) as (Y' & EY & LY & Y1 & Y2); auto.
  { intros j Hj. destruct (Hr j Hj) as (s & y & r & E). apply slot_inv in E. exists y. apply E. }
  rewrite ES, EY. eexists. split; [reflexivity|]. cbn. repeat (split; [first [assumption|reflexivity]|]). split.
  - intros j Hj. unfold slot at 1. cbn. rewrite S1, Y1 by assumption. destruct (Hr j Hj) as (s & y & r & E). rewrite E.
    apply slot_inv in E as (-> & -> & ->). reflexivity.
  - intros idx Hidx. unfold slot. cbn. rewrite S2, Y2 by assumption. reflexivity.
Qed.

Lemma write_pair_spec m i s y r : length (mS m) = L -> length (mY m) = L -> length (mRHO m) = L -> i < L ->
  exists m', write_pair A G m i s y r = Some m' /\ length (mS m') = L /\ length (mY m') = L /\ length (mRHO m') = L /\
  mlen m' = mlen m /\ mbeg m' = mbeg m /\ mgamma A G m' = mgamma A G m /\
  (forall j, slot A G m' j = if Nat.eqb j i then Some (s, y, r) else slot A G m j).
Proof.
  intros HS HY HR Hi. unfold write_pair.
  destruct (rd_wr_ok (mS m) i s) as [a Ea]; [lia|]. destruct (rd_wr_ok (mY m) i y) as [b Eb]; [lia|].
  destruct (rd_wr_ok (mRHO m) i r) as [c Ec]; [lia|]. rewrite Ea, Eb, Ec. eexists. split; [reflexivity|]. cbn.
  rewrite (wr_length _ _ _ _ Ea), (wr_length _ _ _ _ Eb), (wr_length _ _ _ _ Ec). repeat (split; [assumption|]).
  repeat (split; [reflexivity|]). intros j. unfold slot. cbn. rewrite (rd_wr _ _ _ _ _ Ea), (rd_wr _ _ _ _ _ Eb), (rd_wr _ _ _ _ _ Ec).
  destruct (Nat.eqb j i); reflexivity.
Qed.

(** The memory after one iteration. *)
Definition next (cs : list (V * V * F)) (e : step A G) : list (V * V * F) :=
  let old := map (move G (tr A G e)) cs in
  if admitted G p e then
    if Nat.eqb L 0 then []
    else if Nat.ltb (length cs) L then old ++ [correction G e]
    else if LMrestart A p then [correction G e]
    else tl old ++ [correction G e]
  else old.

Lemma nth_error_map_some {X Y} (f : X -> Y) l i y : nth_error (map f l) i = Some y -> exists x, nth_error l i = Some x /\ y = f x.
Proof. rewrite nth_error_map. destruct (nth_error l i); [|discriminate]. intros [= <-]. eauto. Qed.

Lemma nth_error_tl {X} (l : list X) i : nth_error (tl l) i = nth_error l (S i).
Proof. destruct l; [now destruct i|reflexivity]. Qed.

Lemma slots_full m cs j : holds m cs -> j < length cs -> exists s y r, slot A G m ((mbeg m + j) mod L) = Some (s, y, r).
Proof.
  intros H Hj. destruct (nth_error cs j) as [[[s y] r]|] eqn:E; [|apply nth_error_None in E; lia].
  exists s, y, r. now apply (h_slot _ _ H).
Qed.

Lemma set_gamma_holds m cs g : holds m cs -> holds (set_gamma A G m g) cs.
Proof. intros []. now split. Qed.

Lemma next_spec m cs e : holds m cs -> exists m', lupdate A G p m e = Some m' /\ holds m' (next cs e).
Proof.
  intros H. unfold lupdate, next.
  assert (Ead : admitted G p e = curvature_ok A p (sngf2 A G e) (sngf0 A G e)
            (qmet A G (pair_s A G e) (pair_y A G e)) (qmet A G (pair_s A G e) (pair_s A G e))) by reflexivity.
  rewrite Ead. clear Ead.
  destruct (curvature_ok _ _ _ _ _ _).
  - set (g := fdiv _ _). apply (set_gamma_holds _ _ g) in H. set (m0 := set_gamma A G m g) in *. clearbody m0. clear m g. rename m0 into m.
    change (_, _, _) with (correction G e).
    set (c := correction G e). change (pair_s A G e) with (fst (fst c)). change (pair_y A G e) with (snd (fst c)).
    change (fdiv (fq 1) (qmet A G (fst (fst c)) (snd (fst c)))) with (snd c).
    destruct (Nat.eqb_spec L 0) as [L0|L0].
    + (* no memory *)
      pose proof (h_le _ _ H) as Hle. rewrite L0 in Hle.
      destruct (LMrestart A p && (L <=? mlen m)).
      * cbn [set_len QuasiNewtonModel.mlen]. rewrite L0. cbn. eexists. split; [reflexivity|].
        destruct H. split; cbn; auto; try lia. intros [|i]; discriminate.
      * rewrite L0. destruct (mlen m) eqn:Em; [|lia]. cbn. eexists. split; [reflexivity|].
        destruct H. split; cbn; auto; try lia. intros [|i]; discriminate.
    + pose proof (h_len _ _ H) as Hlen. pose proof (holds_beg _ _ H) as Hbeg. rewrite <- Hlen.
      destruct (Nat.ltb_spec (mlen m) L) as [Hlt|Hge].
      * (* room left *)
        assert (Er : LMrestart A p && (L <=? mlen m) = false).
        { destruct (Nat.leb_spec L (mlen m)); [lia|]. apply andb_false_r. }
        rewrite Er. destruct (Nat.ltb_spec (mlen m) L); [|lia].
        destruct (write_pair_spec m (mlen m) (fst (fst c)) (snd (fst c)) (snd c)) as (m1 & E1 & W1 & W2 & W3 & W4 & W5 & W6 & W7);
          try apply H; auto.
        rewrite E1. assert (B0 : mbeg m = 0) by (destruct (h_beg _ _ H) as [?|[]]; lia).
        destruct (transport_mem_spec (tr A G e) (mlen m) 0 m1) as (m2 & E2 & T1 & T2 & T3 & T4 & T5 & T6 & T7 & T8); auto; try lia.
        { intros j Hj. rewrite W7. rewrite Nat.mod_small by lia. destruct (Nat.eqb_spec (0 + j) (mlen m)); [lia|].
          destruct (slots_full _ _ j H) as (s & y & r & Es); [lia|]. rewrite B0, Nat.mod_small in Es by lia. eauto. }
        rewrite E2. cbn [option_map]. eexists. split; [reflexivity|].
        split; cbn; auto; try lia; try congruence.
        { rewrite app_length, map_length. simpl. lia. }
        intros i c' Hi. rewrite T5, W5, B0. cbn.
        change (slot A G m2 (i mod L) = Some c').
        destruct (Nat.lt_ge_cases i (length cs)) as [Hic|Hic].
        -- rewrite nth_error_app1 in Hi by (rewrite map_length; lia).
           apply nth_error_map_some in Hi as (c0 & Hi & ->). change (i mod L) with ((0 + i) mod L). rewrite T7 by lia.
           rewrite W7, Nat.mod_small by lia. destruct (Nat.eqb_spec (0 + i) (mlen m)); [lia|].
           pose proof (h_slot _ _ H _ _ Hi) as Hs. rewrite B0, Nat.mod_small in Hs by lia. rewrite Hs. reflexivity.
        -- rewrite nth_error_app2 in Hi by (rewrite map_length; lia). rewrite map_length in Hi.
           destruct (i - length cs) as [|k] eqn:Ek; [|destruct k; discriminate]. injection Hi as <-.
           assert (i = mlen m) by lia. subst i. rewrite Nat.mod_small by lia. rewrite T8.
           ++ rewrite W7, Nat.eqb_refl. destruct c as [[? ?] ?]; reflexivity.
           ++ intros j Hj. rewrite Nat.mod_small; lia.
      * (* full *)
        assert (Hfull : mlen m = L) by (pose proof (h_le _ _ H); lia).
        destruct (LMrestart A p) eqn:Rs.
        -- (* restart *)
           destruct (Nat.leb_spec L (mlen m)); [|lia]. cbn [andb set_len QuasiNewtonModel.mlen].
           destruct (Nat.ltb_spec 0 L); [|lia].
           destruct (write_pair_spec (set_len A G m 0) 0 (fst (fst c)) (snd (fst c)) (snd c)) as (m1 & E1 & W1 & W2 & W3 & W4 & W5 & W6 & W7);
             try apply H; auto.
           rewrite E1. unfold transport_mem. cbn. eexists. split; [reflexivity|].
           split; cbn; auto; try lia.
           ++ left. rewrite W5. cbn. now apply (h_restart _ _ H).
           ++ intros _. rewrite W5. cbn. now apply (h_restart _ _ H).
           ++ intros i c' Hi. rewrite W5. cbn. rewrite (h_restart _ _ H Rs). cbn.
              destruct i as [|i]; [|destruct i; discriminate]. injection Hi as <-.
              change (slot A G m1 (0 mod L) = Some c). rewrite Nat.mod_small, W7 by lia. reflexivity.
        -- (* overwrite the oldest *)
           cbn [andb]. destruct (Nat.ltb_spec (mlen m) L); [lia|]. destruct (Nat.ltb_spec 0 L); [|lia].
           assert (Hb : mbeg m < L) by (apply Hbeg; lia).
           destruct (write_pair_spec m (mbeg m) (fst (fst c)) (snd (fst c)) (snd c)) as (m1 & E1 & W1 & W2 & W3 & W4 & W5 & W6 & W7);
             try apply H; auto.
           rewrite E1. set (b := S (mbeg m) mod L).
           assert (Hbm : b < L) by (apply Nat.mod_upper_bound; lia).
           assert (Hsh : forall j, (b + j) mod L = (mbeg m + S j) mod L).
           { intros j. unfold b. rewrite Nat.add_mod_idemp_l by lia. f_equal. lia. }
           assert (Hm0 : (mbeg m + 0) mod L = mbeg m) by (rewrite Nat.add_0_r; now apply Nat.mod_small).
           assert (Hne : forall j, j < L - 1 -> (b + j) mod L <> mbeg m).
           { intros j Hj E. rewrite Hsh in E. rewrite <- Hm0 in E at 2. apply mod_inj in E; lia. }
           destruct (transport_mem_spec (tr A G e) (L - 1) b (set_beg A G m1 b)) as (m2 & E2 & T1 & T2 & T3 & T4 & T5 & T6 & T7 & T8); auto; try lia.
           { intros j Hj. change (slot A G (set_beg A G m1 b)) with (slot A G m1). rewrite W7.
             destruct (Nat.eqb_spec ((b + j) mod L) (mbeg m)) as [Ee|Ee]; [now apply Hne in Ee|].
             rewrite Hsh. apply (slots_full _ _ (S j) H). lia. }
           change (slot A G (set_beg A G m1 b)) with (slot A G m1) in *. cbn in T3, T4, T5, T6.
           exists m2. split; [exact E2|].
           assert (Lt : length (tl (map (move G (tr A G e)) cs)) = L - 1).
           { destruct cs; simpl in *; [lia|]. rewrite map_length. lia. }
           assert (G4 : mlen m2 = L) by lia. assert (G5 : mbeg m2 = b) by congruence.
           split; auto; try lia; try congruence.
           ++ rewrite app_length, Lt. simpl. lia.
           ++ intros i c' Hi. rewrite G5. destruct (Nat.lt_ge_cases i (L - 1)) as [Hic|Hic].
              ** rewrite nth_error_app1 in Hi by lia. rewrite nth_error_tl in Hi.
                 apply nth_error_map_some in Hi as (c0 & Hi & ->). rewrite T7 by lia. rewrite W7.
                 destruct (Nat.eqb_spec ((b + i) mod L) (mbeg m)) as [Ee|Ee]; [now apply Hne in Ee|].
                 rewrite Hsh, (h_slot _ _ H _ _ Hi). reflexivity.
              ** rewrite nth_error_app2 in Hi by lia. rewrite Lt in Hi.
                 destruct (i - (L - 1)) as [|k] eqn:Ek; [|destruct k; discriminate]. injection Hi as <-.
                 assert (i = L - 1) by lia. subst i.
                 assert (Eb : (b + (L - 1)) mod L = mbeg m).
                 { rewrite Hsh. replace (mbeg m + S (L - 1)) with (mbeg m + 1 * L) by lia. rewrite Nat.mod_add by lia. now apply Nat.mod_small. }
                 rewrite Eb, T8.
                 --- rewrite W7, Nat.eqb_refl. destruct c as [[? ?] ?]; reflexivity.
                 --- intros j Hj E. symmetry in E. now apply Hne in E.
  - (* skipped *)
    pose proof (h_len _ _ H) as Hlen. pose proof (h_le _ _ H) as Hle.
    destruct (transport_mem_spec (tr A G e) (mlen m) 0 m) as (m2 & E2 & T1 & T2 & T3 & T4 & T5 & T6 & T7 & T8); try apply H; try lia.
    { intros j Hj. destruct (h_beg _ _ H) as [B0|[B1 B2]].
      - pose proof (slots_full _ _ j H) as K. rewrite B0 in K. apply K. lia.
      - rewrite Nat.mod_small by lia.
        destruct (Nat.lt_ge_cases j (mbeg m)) as [Hj2|Hj2].
        + destruct (slots_full _ _ (j + L - mbeg m) H) as (s & y & r & Es); [lia|].
          replace ((mbeg m + (j + L - mbeg m)) mod L) with j in Es; [eauto|].
          rewrite mod_cases by lia. destruct (Nat.ltb_spec (mbeg m + (j + L - mbeg m)) L); lia.
        + destruct (slots_full _ _ (j - mbeg m) H) as (s & y & r & Es); [lia|].
          replace ((mbeg m + (j - mbeg m)) mod L) with j in Es; [eauto|].
          rewrite mod_cases by lia. destruct (Nat.ltb_spec (mbeg m + (j - mbeg m)) L); lia. }
    exists m2. split; [exact E2|].
    destruct H. split.
    + exact T1.
    + exact T2.
    + now rewrite T3.
    + rewrite map_length. lia.
    + lia.
    + rewrite T5, T4. exact h_beg0.
    + intros R. rewrite T5. auto.
    + intros i c' Hi. apply nth_error_map_some in Hi as (c0 & Hi & ->). rewrite T5.
      assert (Hic : i < length cs) by (apply nth_error_Some; now rewrite Hi).
      assert (L0 : 0 < L) by lia.
      assert (Hidx : (mbeg m + i) mod L < mlen m).
      { destruct h_beg0 as [B0|[B1 B2]]; [rewrite B0, Nat.mod_small; lia|]. rewrite B2. apply Nat.mod_upper_bound. lia. }
      specialize (T7 _ Hidx). cbn [Nat.add] in T7. rewrite Nat.mod_mod in T7 by lia. rewrite T7, (h_slot0 _ _ Hi). reflexivity.
Qed.

Lemma mem0_holds : holds (mem0 A G p) [].
Proof. split; cbn; rewrite ?repeat_length; auto; try lia. intros [|i]; discriminate. Qed.

Lemma lupdates_holds l : forall m cs, holds m cs -> exists m', lupdates A G p m l = Some m' /\ holds m' (fold_left next l cs).
Proof.
  induction l as [|e l IH]; intros m cs H; simpl; [eauto|].
  destruct (next_spec _ _ e H) as (m1 & E & H1). rewrite E. apply IH. exact H1.
Qed.

(** ** The memory as a suffix of the history *)
Lemma lastn_map {X Y} (f : X -> Y) n l : lastn n (map f l) = map f (lastn n l).
Proof. unfold lastn. rewrite map_length. apply skipn_map. Qed.

Lemma lastn_length {X} n (l : list X) : length (lastn n l) = Nat.min n (length l).
Proof. unfold lastn. rewrite skipn_length. lia. Qed.

Lemma lastn_snoc {X} n (l : list X) x : 0 < n ->
  lastn n (l ++ [x]) = (if Nat.ltb (length (lastn n l)) n then lastn n l else tl (lastn n l)) ++ [x].
Proof.
  intros Hn. rewrite lastn_length. unfold lastn. rewrite app_length. cbn [length].
  destruct (Nat.ltb_spec (Nat.min n (length l)) n) as [H|H].
  - replace (length l - n) with 0 by lia. replace (length l + 1 - n) with 0 by lia. reflexivity.
  - replace (length l + 1 - n) with (S (length l - n)) by lia.
    rewrite skipn_app. replace (S (length l - n) - length l) with 0 by lia. cbn [skipn]. f_equal.
    generalize (length l - n) as k. clear. intros k. revert l. induction k as [|k IH]; intros l; [now destruct l|].
    destruct l as [|y l]; [reflexivity|]. cbn [skipn]. rewrite <- IH. reflexivity.
Qed.

Lemma corrections_app l e : corrections G p (l ++ [e]) =
  map (move G (tr A G e)) (corrections G p l) ++ (if admitted G p e then [correction G e] else []).
Proof. unfold corrections. rewrite fold_left_app. reflexivity. Qed.

Lemma fold_next l : LMrestart A p = false -> fold_left next l [] = lastn L (corrections G p l).
Proof.
  intros Rs. induction l as [|e l IH] using rev_ind; [reflexivity|].
  rewrite fold_left_app. cbn [fold_left]. rewrite IH, corrections_app. unfold next. rewrite Rs.
  destruct (admitted G p e).
  - destruct (Nat.eqb_spec L 0) as [E|E].
    + unfold lastn. rewrite E, Nat.sub_0_r. now rewrite skipn_all.
    + rewrite lastn_snoc by lia. rewrite lastn_map, map_length.
      destruct (Nat.ltb_spec (length (lastn L (corrections G p l))) L); reflexivity.
  - rewrite app_nil_r, lastn_map. reflexivity.
Qed.

Lemma skipn_map_app {X Y} (f : X -> Y) n (l : list X) (x : list Y) : n <= length l -> skipn n (map f l ++ x) = map f (skipn n l) ++ x.
Proof. intros H. rewrite skipn_app, map_length, skipn_map. now replace (n - length l) with 0 by lia. Qed.

Lemma fold_next_restart l : LMrestart A p = true -> 0 < L ->
  let cs := corrections G p l in fold_left next l [] = skipn (L * ((length cs - 1) / L)) cs.
Proof.
  intros Rs HL. cbv zeta. induction l as [|e l IH] using rev_ind; [now destruct (L * _)|].
  rewrite fold_left_app. cbn [fold_left]. rewrite IH, corrections_app. unfold next. rewrite Rs.
  set (cs := corrections G p l). set (k := length cs).
  destruct (admitted G p e).
  - destruct (Nat.eqb_spec L 0) as [E|E]; [lia|]. rewrite skipn_length, app_length, map_length. cbn [length]. fold k.
    replace (k + 1 - 1) with k by lia.
    destruct (Nat.eq_dec k 0) as [K0|K0].
    + assert (Ecs : cs = []) by now apply length_zero_iff_nil. unfold k. clearbody cs. subst cs. cbn [length].
      rewrite skipn_nil. cbn [map app]. replace (0 - L * ((0 - 1) / L)) with 0 by lia.
      destruct (Nat.ltb_spec 0 L); [|lia]. rewrite Nat.div_0_l, Nat.mul_0_r by lia. reflexivity.
    + pose proof (Nat.div_mod (k - 1) L ltac:(lia)) as D1. pose proof (Nat.mod_upper_bound (k - 1) L ltac:(lia)) as D2.
      set (q := (k - 1) / L) in *. set (r := (k - 1) mod L) in *.
      destruct (Nat.ltb_spec (k - L * q) L) as [Hs|Hs].
      * assert (Eq : k / L = q) by (symmetry; apply Nat.div_unique with (S r); lia).
        rewrite Eq, <- skipn_map, skipn_map_app by (fold k; lia). rewrite skipn_map. reflexivity.
      * assert (Eq : k / L = S q) by (symmetry; apply Nat.div_unique with 0; lia). rewrite Eq.
        replace (L * S q) with k by lia. rewrite skipn_map_app by (fold k; lia). unfold k. rewrite skipn_all. reflexivity.
  - rewrite app_nil_r, map_length, <- skipn_map. reflexivity.
Qed.

(** ** Two loops = recursion *)
Context (P : V -> V).

Lemma loops_spec m cs : holds m cs -> forall i xi r, i <= length cs -> length xi = length cs ->
  exists xi' r', loop1 A G p m i xi r = Some (xi', r') /\ length xi' = length cs /\ (forall j, i <= j -> j < length cs -> rd xi' ((mbeg m + j) mod L) = rd xi ((mbeg m + j) mod L)) /\ forall k, i <= length cs -> loop2 A G p m (i + k) 0 xi' (qscal A G (mgamma A G m) (P r')) =
            loop2 A G p m k i xi' (recursive G P (mgamma A G m) (rev (firstn i cs)) r).
Proof.
  intros H. induction i as [|i IH]; intros xi r Hi Hx.
  - exists xi, r. simpl. auto.
  - assert (HL : 0 < L) by (pose proof (h_le _ _ H); pose proof (h_len _ _ H); lia).
    pose proof (holds_beg _ _ H HL) as Hb. pose proof (h_len _ _ H) as Hlen. pose proof (h_le _ _ H) as Hle.
    destruct (nth_error cs i) as [[[s y] rho]|] eqn:Ei; [|apply nth_error_None in Ei; lia].
    pose proof (h_slot _ _ H _ _ Ei) as Hs. cbn [loop1]. rewrite Hs.
    set (x := fmul rho (qmet A G s r)).
    assert (Hin : (mbeg m + i) mod L < length xi).
    { destruct (h_beg _ _ H) as [->|[B1 B2]]; [rewrite Nat.mod_small; lia|]. rewrite Hx, <- Hlen, B2. apply Nat.mod_upper_bound. lia. }
    destruct (rd_wr_ok xi _ x Hin) as [xi1 E1]. rewrite E1.
    destruct (IH xi1 (qaxpy A G (fopp x) y r)) as (xi' & r' & E & Lx & Rx & K); [lia|now rewrite (wr_length _ _ _ _ E1)|].
    exists xi', r'. split; [exact E|]. split; [exact Lx|]. split.
    + intros j Hj1 Hj2. rewrite Rx by lia. rewrite (rd_wr _ _ _ _ _ E1).
      destruct (Nat.eqb_spec ((mbeg m + j) mod L) ((mbeg m + i) mod L)) as [Ee|]; [|reflexivity]. apply mod_inj in Ee; lia.
    + intros k _. replace (S i + k) with (i + S k) by lia. rewrite K by lia. cbn [loop2]. rewrite Hs, Rx by lia.
      rewrite (rd_wr _ _ _ _ _ E1), Nat.eqb_refl.
      assert (Ef : firstn (S i) cs = firstn i cs ++ [(s, y, rho)]).
      { clear - Ei. revert cs Ei. induction i as [|i IH]; intros [|c cs] Ei; try discriminate.
        - injection Ei as ->. reflexivity.
        - change (c :: firstn (S i) cs = (c :: firstn i cs) ++ [(s, y, rho)]). rewrite (IH _ Ei). reflexivity. }
      rewrite Ef, rev_app_distr. reflexivity.
Qed.

Lemma hv_spec m cs v : holds m cs -> hv A G p P m v = Some (recursive G P (mgamma A G m) (rev cs) v).
Proof.
  intros H. unfold hv. rewrite (h_len _ _ H).
  destruct (loops_spec m cs H (length cs) (repeat None (length cs)) v (le_n _) (repeat_length _ _)) as (xi & r & E & _ & _ & K).
  rewrite E. specialize (K 0 (le_n _)). rewrite Nat.add_0_r in K. rewrite K. cbn. now rewrite firstn_all.
Qed.

(** ** Statements *)
Lemma memory_contents l : LMrestart A p = false ->
  exists m, lupdates A G p (mem0 A G p) l = Some m /\ contents G p m = map Some (lastn L (corrections G p l)).
Proof.
  intros Rs. destruct (lupdates_holds l _ _ mem0_holds) as (m & E & H). exists m. split; [exact E|].
  rewrite (holds_contents _ _ H), fold_next by assumption. reflexivity.
Qed.

Lemma memory_contents_restart l : LMrestart A p = true -> 0 < L ->
  let cs := corrections G p l in
  exists m, lupdates A G p (mem0 A G p) l = Some m /\ contents G p m = map Some (skipn (L * ((length cs - 1) / L)) cs).
Proof.
  intros Rs HL. cbv zeta. destruct (lupdates_holds l _ _ mem0_holds) as (m & E & H). exists m. split; [exact E|].
  rewrite (holds_contents _ _ H), fold_next_restart by assumption. reflexivity.
Qed.

Lemma transport_gamma T k i m m' : transport_mem A G p T k i m = Some m' -> mgamma A G m' = mgamma A G m.
Proof.
  unfold transport_mem. destruct (transport_from A G p T k i (mS m)); [|discriminate].
  destruct (transport_from A G p T k i (mY m)); [|discriminate]. intros E. injection E as <-. reflexivity.
Qed.
Lemma write_gamma m i s y r m' : write_pair A G m i s y r = Some m' -> mgamma A G m' = mgamma A G m.
Proof.
  unfold write_pair. destruct (wr _ i s); [|discriminate]. destruct (wr _ i y); [|discriminate].
  destruct (wr _ i r); [|discriminate]. intros E. injection E as <-. reflexivity.
Qed.

Definition gstep (g : F) (e : step A G) : F := let '(s, y, _) := correction G e in
  if admitted G p e then fdiv (qmet A G s y) (qmet A G y (sprec A G e y)) else g.

Lemma lupdate_gamma m e m' : lupdate A G p m e = Some m' -> mgamma A G m' = gstep (mgamma A G m) e.
Proof.
  unfold lupdate, gstep, admitted, correction. change (pair_s A G e) with (tr A G e (seta A G e)).
  fold (pair_y A G e). unfold curvature_ok. match goal with |- context [if ?c then _ else mgamma A G m] => destruct c end; [|apply transport_gamma].
  set (m1 := set_gamma A G m _). assert (G1 : forall b : bool, mgamma A G (if b then set_len A G m1 0 else m1) = mgamma A G m1) by now intros [].
  match goal with |- context [if LMrestart A p && ?c then set_len A G m1 0 else m1] => specialize (G1 (LMrestart A p && c)%bool); set (m2 := if (LMrestart A p && c)%bool then set_len A G m1 0 else m1) in * end.
  destruct (Nat.ltb (mlen m2) L).
  - destruct (write_pair A G m2 _ _ _ _) as [m3|] eqn:E3; [|discriminate].
    destruct (transport_mem A G p _ _ _ m3) as [m4|] eqn:E4; [|discriminate]. intros E. injection E as <-. cbn.
    rewrite (transport_gamma _ _ _ _ _ E4), (write_gamma _ _ _ _ _ _ E3), G1. reflexivity.
  - destruct (Nat.ltb 0 L).
    + destruct (write_pair A G m2 _ _ _ _) as [m3|] eqn:E3; [|discriminate]. intros E.
      rewrite (transport_gamma _ _ _ _ _ E). cbn. rewrite (write_gamma _ _ _ _ _ _ E3), G1. reflexivity.
    + intros E. injection E as <-. rewrite G1; reflexivity.
Qed.

Lemma lupdates_gamma l : forall m m', lupdates A G p m l = Some m' -> mgamma A G m' = fold_left gstep l (mgamma A G m).
Proof.
  induction l as [|e l IH]; intros m m' E; cbn in *.
  - injection E as <-. reflexivity.
  - destruct (lupdate A G p m e) as [m1|] eqn:E1; [|discriminate]. rewrite (IH _ _ E), (lupdate_gamma _ _ _ E1). reflexivity.
Qed.

Lemma direction l v : LMrestart A p = false ->
  exists m, lupdates A G p (mem0 A G p) l = Some m /\ hv A G p P m v = Some (recursive G P (scaling G p l) (rev (lastn L (corrections G p l))) v).
Proof.
  intros Rs. destruct (lupdates_holds l _ _ mem0_holds) as (m & E & H). exists m. split; [exact E|].
  rewrite (hv_spec _ _ _ H), fold_next by assumption. rewrite (lupdates_gamma _ _ _ E). reflexivity.
Qed.

(** In both modes the memory holds a suffix of the corrections. *)
Lemma suffix_of l : exists n, fold_left next l [] = skipn n (corrections G p l).
Proof.
  destruct (LMrestart A p) eqn:Rs.
  - destruct (Nat.eq_dec L 0) as [HL|HL].
    + exists (length (corrections G p l)). rewrite skipn_all. 
      destruct (lupdates_holds l _ _ mem0_holds) as (m & E & H). pose proof (h_le _ _ H) as Hle. pose proof (h_len _ _ H) as Hln.
      destruct (fold_left next l []); [reflexivity|cbn in *; lia].
    + eexists. apply fold_next_restart; [assumption|lia].
  - eexists. apply fold_next; assumption.
Qed.

Lemma direction_any l v : exists m n, lupdates A G p (mem0 A G p) l = Some m /\
  hv A G p P m v = Some (recursive G P (scaling G p l) (rev (skipn n (corrections G p l))) v).
Proof.
  destruct (lupdates_holds l _ _ mem0_holds) as (m & E & H). destruct (suffix_of l) as [n En]. exists m, n. split; [exact E|].
  rewrite (hv_spec _ _ _ H), En, (lupdates_gamma _ _ _ E). reflexivity.
Qed.
End mem.
