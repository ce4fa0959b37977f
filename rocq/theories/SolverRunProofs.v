(** Proofs about the main loop of the line-search solvers. *)
From Coq Require Import QArith Reals List Bool Lra Lia Arith.
From Verif Require Import Arith LineSearchModel LineSearchSpec LineSearchProofs SolverRunModel SolverRunSpec.
Import ListNotations.
Local Open Scope nat_scope.

Section run.
Context {A : arith} {G : geometry A} {X : Type}.
Context (q : rparams A) (e : env A G (X:=X)) (fuel : nat).
Notation rs := (rs A G (X:=X)).
Notation F := (F A).
Notation body := (body A G q e fuel). Notation goes_on := (goes_on A G q).
Notation visited := (visited q e fuel). Notation ends := (ends q e fuel).
Notation rx1 := (rx1 A G). Notation rx2 := (rx2 A G). Notation rf1 := (rf1 A G). Notation rf2 := (rf2 A G).
Notation rgf1 := (rgf1 A G). Notation rgf2 := (rgf2 A G). Notation riter := (riter A G).
Notation rstatus := (rstatus A G). Notation rpre := (rpre A G). Notation rss := (rss A G).
Notation reta1 := (reta1 A G). Notation rngf0 := (rngf0 A G). Notation rngf1 := (rngf1 A G).
Notation rngf2 := (rngf2 A G).
Notation hfun := (hfun A G). Notation hgrad := (hgrad A G). Notation hinit := (hinit A G). Notation hacc := (hacc A G).

(** *** What one pass does *)
Record pass (s s' : rs) (b : bool) (eta : T A G) (t : F) (l : ls A G) (s0 s3 : rs) : Prop := {
  ps_search : search A G q e fuel s0 eta (metric A G (rx1 s) (rgf1 s) eta) t = Some l;
  ps_same : rx1 s0 = rx1 s /\ rf1 s0 = rf1 s /\ rpre s0 = rpre s /\ rngf0 s0 = rngf0 s /\ rngf1 s0 = rngf1 s /\
            rstatus s0 = rstatus s /\ rgf1 s0 = rgf1 s;
  ps_init : t = fst (init_step A G q e s);
  ps_x : rx1 s' = x2 A G l;
  ps_f : rf1 s' = f2 A G l;
  ps_good : fbad (f2 A G l) = false;
  ps_g : rgf1 s' = gf2 A G l;
  ps_eta : reta1 s' = eta;
  ps_ss : rss s' = ss A G l;
  ps_st : rstatus s' = status A G l;
  ps_iter : riter s' = S (riter s);
  ps_ng : rngf1 s' = fsqrt (metric A G (rx1 s') (rgf1 s') (rgf1 s'));
  ps_ng0 : rngf0 s' = rngf0 s;
  ps_nm : rnonmono A G s' = (if fle (fdiv (rngf1 s') (fadd (rngf0 s) (Tolerance A q))) (PreFunsAccuracy A q) then true
                             else rnonmono A G s);
  ps_pre : rpre s' = push_fun A q (rf1 s) (rpre s) (rnonmono A G s');
  ps_stop : b = is_stopped A G q e s3;
  ps_s3 : rf1 s3 = rf1 s /\ rf2 s3 = rf1 s' /\ rngf2 s3 = rngf1 s' /\ rngf0 s3 = rngf0 s /\
          riter s3 = riter s' /\ rx2 s3 = rx1 s' /\ rx1 s3 = rx1 s;
  ps_hist : if recording A q then
      store A (hinit s) (S (riter s)) t = Some (hinit s') /\
      store A (hfun s) (riter s') (rf1 s') = Some (hfun s') /\
      store A (hgrad s) (riter s') (rngf1 s') = Some (hgrad s') /\
      store A (hacc s) (riter s') (rss s') = Some (hacc s')
    else hinit s' = hinit s /\ hfun s' = hfun s /\ hgrad s' = hgrad s /\ hacc s' = hacc s
}.

Lemma body_inl s s' b : body s = inl (s', b) -> exists eta t l s0 s3, pass s s' b eta t l s0 s3.
Proof.
  unfold SolverRunModel.body.
  destruct (getdir A G e s) as [eta aux] eqn:Ed.
  destruct (init_step A G q e s) as [t bbs] eqn:Ei.
  destruct (if recording A q then store A (hinit s) (S (riter s)) t else Some (hinit s)) as [hi|] eqn:Eh; [|discriminate].
  set (s0 := with_dir _ _ _ _ _ _ _ _).
  destruct (search A G q e fuel s0 eta _ t) as [l|] eqn:Es; [|discriminate].
  unfold after_search. change (SolverRunModel.rf2 A G (with_search A G s0 l)) with (f2 A G l).
  destruct (fbad (f2 A G l)) eqn:Eb; [discriminate|].
  set (s3 := with_update _ _ _ _).
  destruct (record A G q s3) as [[[a1 a2] a3]|] eqn:Ew; [|discriminate].
  intros H. injection H as <- <-. exists eta, t, l, s0, s3.
  constructor; try reflexivity; auto.
  - repeat split.
  - rewrite Ei. reflexivity.
  - repeat split.
  - unfold record in Ew. destruct (recording A q).
    + split; [exact Eh|].
      destruct (store A (SolverRunModel.hfun A G s3) _ _) eqn:E1; [|discriminate].
      destruct (store A (SolverRunModel.hgrad A G s3) _ _) eqn:E2; [|discriminate].
      destruct (store A (SolverRunModel.hacc A G s3) _ _) eqn:E3; [|discriminate].
      injection Ew as -> -> ->. auto.
    + injection Eh as ->. injection Ew as <- <- <-. auto.
Qed.

(** When a candidate is rejected for a bad value, the current iterate is kept. *)
Lemma body_bad s sf : body s = inr (Done A G sf) ->
  fbad (rf2 sf) = true /\ rx1 sf = rx1 s /\ rf1 sf = rf1 s /\ rgf1 sf = rgf1 s /\ rngf1 sf = rngf1 s /\
  rngf0 sf = rngf0 s /\
  riter sf = riter s /\ hfun sf = hfun s /\ hgrad sf = hgrad s /\ hacc sf = hacc s.
Proof.
  unfold SolverRunModel.body.
  destruct (getdir A G e s) as [eta aux] eqn:Ed.
  destruct (init_step A G q e s) as [t bbs] eqn:Ei.
  destruct (if recording A q then _ else _) as [hi|] eqn:Eh; [|discriminate].
  destruct (search A G q e fuel _ eta _ t) as [l|] eqn:Es; [|discriminate].
  unfold after_search.
  destruct (fbad _) eqn:Eb.
  - intros [= <-]. split; [exact Eb|]. repeat split; auto.
  - destruct (record _ _ _ _) as [[[a1 a2] a3]|] eqn:Ew; discriminate.
Qed.

Lemma loop_ends n : forall s0 s b l sf, visited s0 s b l -> loop A G q e n fuel s b = Done A G sf ->
  exists l', ends s0 sf l'.
Proof.
  induction n as [|n IH]; intros s0 s b l sf Hv H; cbn [loop] in H.
  - destruct (goes_on s b) eqn:Eg; [discriminate|]. injection H as <-.
    exists l. eapply ends_normal; eauto.
  - destruct (goes_on s b) eqn:Eg.
    + destruct (body s) as [[s' b']|o] eqn:Eb.
      * eapply IH; [|exact H]. eapply visited_step; eauto.
      * subst o. exists l. eapply ends_bad; eauto.
    + injection H as <-. exists l. eapply ends_normal; eauto.
Qed.

Lemma run_ends n s0 sf : run A G q e n fuel s0 = Done A G sf -> exists l, ends s0 sf l.
Proof. intros H. eapply loop_ends; [constructor|exact H]. Qed.

Lemma visited_head s0 s b l : visited s0 s b l -> exists l', l = s :: l'.
Proof. intros H; destruct H; eauto. Qed.

(** *** Values belong to points *)
Lemma search_point s eta slope t l : search A G q e fuel s eta slope t = Some l ->
  f2 A G l = fobj A G (x2 A G l).
Proof.
  assert (P : forall c r, (exists u, point_at (A:=A) (G:=G) c l u) -> r = l -> f2 A G r = fobj A G (x2 A G r)).
  { intros c r (u & _ & H1 & H2) ->. rewrite H2. unfold phi. congruence. }
  unfold search. destruct (flt _ (Accuracy A q)).
  { intros [= <-]. reflexivity. }
  destruct (algo A q) as [| | | |pure]; intros H.
  - destruct (armijo_spec _ _ _ _ _ _ _ _ _ H) as [(_ & [Hc _] & _)|(_ & (u & Hc & _) & _)];
      (eapply P; [|reflexivity]); eauto.
  - eapply P; [|reflexivity]. exists (ss A G l). exact (wolfe_cons _ _ _ _ _ _ _ H).
  - eapply P; [|reflexivity].
    destruct (strong_wolfe_spec _ _ _ _ _ _ _ H) as [(_ & [[Hc _] _] & _)|[[_ Hc]|[[_ [[Hc _] _]]|[_ [u Hc]]]]];
      eauto.
  - eapply P; [|reflexivity]. exists (ss A G l).
    destruct (exact_spec _ _ _ _ _ _ _ H) as [[Hc _] _]. exact Hc.
  - destruct pure; [injection H as <-; reflexivity|].
    destruct (armijo_spec _ _ _ _ _ _ _ _ _ H) as [(_ & [Hc _] & _)|(_ & (u & Hc & _) & _)];
      (eapply P; [|reflexivity]); eauto.
Qed.

Section from_start.
Context (s0 : rs).

Lemma visited_value s b l : rf1 s0 = fobj A G (rx1 s0) -> visited s0 s b l ->
  rf1 s = fobj A G (rx1 s) /\ (riter s0 < riter s -> fbad (rf1 s) = false) /\ riter s0 <= riter s.
Proof.
  intros H0 H. induction H as [|s b l s' b' Hv IH Hg Hb].
  - split; [exact H0|]. lia.
  - destruct (body_inl _ _ _ Hb) as (eta & t & r & s1 & s3 & Hp). destruct Hp.
    rewrite ps_x0, ps_f0, ps_iter0. split; [eapply search_point; eauto|]. split; [auto|]. lia.
Qed.

Lemma ends_value sf l : rf1 s0 = fobj A G (rx1 s0) -> ends s0 sf l ->
  rf1 sf = fobj A G (rx1 sf) /\ (riter s0 < riter sf -> fbad (rf1 sf) = false).
Proof.
  intros H0 H. destruct H as [s b l Hv Hg|s b l sf Hv Hg Hb].
  - destruct (visited_value _ _ _ H0 Hv) as (? & ? & ?). auto.
  - destruct (visited_value _ _ _ H0 Hv) as (? & ? & ?).
    destruct (body_bad _ _ Hb) as (_ & Hx & Hf & _ & _ & _ & Hi & _). rewrite Hx, Hf, Hi. auto.
Qed.

(** *** Number of passes *)
Lemma visited_iter s b l : riter s0 = 0 -> visited s0 s b l -> length l = S (riter s) /\
  riter s <= Nat.max (Max_Iteration A q) (Min_Iteration A q).
Proof.
  intros H0 H. induction H as [|s b l s' b' Hv IH Hg Hb].
  - rewrite H0. simpl. lia.
  - destruct (body_inl _ _ _ Hb) as (eta & t & r & s1 & s3 & Hp). destruct Hp.
    rewrite ps_iter0. simpl. split; [lia|].
    unfold SolverRunModel.goes_on in Hg. apply andb_true_iff in Hg. destruct Hg as [Hg _].
    apply orb_true_iff in Hg. destruct Hg as [Hg|Hg].
    + apply andb_true_iff in Hg. destruct Hg as [_ Hg]. apply Nat.ltb_lt in Hg. lia.
    + apply Nat.ltb_lt in Hg. lia.
Qed.

Lemma ends_visited sf l : ends s0 sf l -> exists s b, visited s0 s b l /\ rx1 sf = rx1 s /\ rf1 sf = rf1 s /\
  rgf1 sf = rgf1 s /\ rngf1 sf = rngf1 s /\ riter sf = riter s /\ hfun sf = hfun s /\ hgrad sf = hgrad s /\ hacc sf = hacc s /\
  rngf0 sf = rngf0 s.
Proof.
  intros H. destruct H as [s b l Hv Hg|s b l sf Hv Hg Hb].
  - exists s, b. auto 10.
  - exists s, b. destruct (body_bad _ _ Hb) as (_ & ? & ? & ? & ? & ? & ? & ? & ? & ?). auto 12.
Qed.
End from_start.

(** *** History arrays *)
Lemma store_app (a : list (option F)) x b v : store A (a ++ x :: b) (length a) v = Some (a ++ Some v :: b).
Proof. induction a as [|y a IH]; simpl; [reflexivity|]. now rewrite IH. Qed.
Lemma store_len l : forall i v l', store A l i v = Some l' -> length l' = length l /\ i < length l.
Proof.
  induction l as [|x l IH]; intros [|i] v l' H; simpl in H; try discriminate.
  - injection H as <-. simpl. lia.
  - destruct (store A l i v) eqn:E; [|discriminate]. injection H as <-. apply IH in E. simpl. lia.
Qed.
Lemma store_ok l : forall i v, i < length l -> store A l i v <> None.
Proof.
  induction l as [|x l IH]; intros [|i] v H; simpl in *; try lia; try discriminate.
  specialize (IH i v ltac:(lia)). destruct (store A l i v); [discriminate|auto].
Qed.

Definition filled (vals : list F) (n : nat) : list (option F) := map Some vals ++ repeat None (n - length vals).

Lemma store_filled vals n v l' : store A (filled vals n) (length vals) v = Some l' -> l' = filled (vals ++ [v]) n.
Proof.
  intros H. pose proof (store_len _ _ _ _ H) as [_ Hl].
  unfold filled in *. rewrite app_length, map_length, repeat_length in Hl.
  destruct (n - length vals) as [|k] eqn:E; [lia|].
  simpl in H. rewrite <- (map_length (@Some F) vals) in H. rewrite store_app in H.
  injection H as <-. rewrite map_app, app_length. simpl.
  replace (n - (length vals + 1)) with k by lia. rewrite <- app_assoc. reflexivity.
Qed.

Lemma map_rev_cons {Y Z} (g : Y -> Z) x l : map g (rev (x :: l)) = map g (rev l) ++ [g x].
Proof. simpl. now rewrite map_app. Qed.

Lemma visited_hist s0 s b l : recording A q = true -> riter s0 = 0 ->
  (let n := length (hfun s0) in
    hfun s0 = filled [rf1 s0] n /\ hgrad s0 = filled [rngf1 s0] n /\ length (hacc s0) = n /\ length (hinit s0) = n) ->
  visited s0 s b l ->
  (let n := length (hfun s0) in
    hfun s = filled (map rf1 (rev l)) n /\ hgrad s = filled (map rngf1 (rev l)) n /\
    length (hacc s) = n /\ length (hinit s) = n).
Proof.
  intros Hr H0 Hi H. cbv zeta in *. induction H as [|s b l s' b' Hv IH Hg Hb]; [exact Hi|].
  destruct (body_inl _ _ _ Hb) as (eta & t & r & s1 & s3 & Hp). destruct Hp.
  rewrite Hr in ps_hist0. destruct ps_hist0 as (Ha & Hf & Hgr & Hac).
  destruct IH as (I1 & I2 & I3 & I4).
  destruct (visited_iter s0 _ _ _ H0 Hv) as [Hl _].
  assert (E1 : riter s' = length (map rf1 (rev l))) by (rewrite map_length, rev_length; lia).
  assert (E2 : riter s' = length (map rngf1 (rev l))) by (rewrite map_length, rev_length; lia).
  rewrite I1, E1 in Hf. apply store_filled in Hf.
  rewrite I2, E2 in Hgr. apply store_filled in Hgr.
  apply store_len in Ha. apply store_len in Hac.
  rewrite Hf, Hgr, !map_rev_cons. repeat split; lia.
Qed.

(** No write outside the arrays when Min_Iteration <= Max_Iteration. *)
Lemma body_in_bounds s : (recording A q = true ->
   S (riter s) < length (hfun s) /\ length (hgrad s) = length (hfun s) /\
   length (hacc s) = length (hfun s) /\ length (hinit s) = length (hfun s)) ->
  body s <> inr (OutOfBounds A G).
Proof.
  intros H. unfold SolverRunModel.body.
  destruct (getdir A G e s) as [eta aux].
  destruct (init_step A G q e s) as [t bbs].
  destruct (if recording A q then store A (hinit s) (S (riter s)) t else Some (hinit s)) as [hi|] eqn:Eh.
  2:{ destruct (recording A q) eqn:Er; [|discriminate]. destruct (H eq_refl) as (H1 & H2 & H3 & H4).
      exfalso. exact (store_ok (hinit s) (S (riter s)) t ltac:(lia) Eh). }
  set (s0 := with_dir _ _ _ _ _ _ _ _).
  destruct (search A G q e fuel s0 eta _ t) as [l|]; [|discriminate].
  unfold after_search. destruct (fbad _); [discriminate|].
  destruct (record A G q _) as [[[a1 a2] a3]|] eqn:Ew; [discriminate|].
  exfalso. unfold record in Ew. destruct (recording A q); [|discriminate].
  destruct (H eq_refl) as (H1 & H2 & H3 & H4).
  set (s3 := with_update _ _ _ _) in Ew.
  pose proof (store_ok (SolverRunModel.hfun A G s3) (SolverRunModel.riter A G s3) (SolverRunModel.rf2 A G s3) ltac:(cbn; lia)) as K1.
  pose proof (store_ok (SolverRunModel.hgrad A G s3) (SolverRunModel.riter A G s3) (SolverRunModel.rngf2 A G s3) ltac:(cbn; lia)) as K2.
  pose proof (store_ok (SolverRunModel.hacc A G s3) (SolverRunModel.riter A G s3) (SolverRunModel.rss A G s3) ltac:(cbn; lia)) as K3.
  destruct (store A (SolverRunModel.hfun A G s3) _ _); [|congruence].
  destruct (store A (SolverRunModel.hgrad A G s3) _ _); [|congruence].
  destruct (store A (SolverRunModel.hacc A G s3) _ _); [|congruence].
  discriminate.
Qed.

Lemma goes_on_iter (s : rs) b : goes_on s b = true ->
  riter s < Nat.max (Max_Iteration A q) (Min_Iteration A q) /\ rstatus s = SUCCESS.
Proof.
  unfold SolverRunModel.goes_on. intros Hg. apply andb_true_iff in Hg. destruct Hg as [Hg Hs].
  split; [|destruct (rstatus s); easy].
  apply orb_true_iff in Hg. destruct Hg as [Hg|Hg].
  + apply andb_true_iff in Hg. destruct Hg as [_ Hg]. apply Nat.ltb_lt in Hg. lia.
  + apply Nat.ltb_lt in Hg. lia.
Qed.

Lemma start_hist x0 x20 gf20 eta0 bb0 ss0 (aux0 : X) :
  let s0 := start A G q x0 x20 gf20 eta0 bb0 ss0 aux0 in
  let n := length (hfun s0) in
  n = S (Max_Iteration A q) /\
  (recording A q = true ->
    hfun s0 = filled [rf1 s0] n /\ hgrad s0 = filled [rngf1 s0] n /\ length (hacc s0) = n /\ length (hinit s0) = n).
Proof.
  unfold start. cbn. destruct (recording A q); cbn; rewrite ?repeat_length.
  - split; [reflexivity|]. intros _. unfold filled. cbn. rewrite Nat.sub_0_r. auto.
  - split; [reflexivity|]. discriminate.
Qed.

Lemma loop_in_bounds n : forall s0 s b l,
  (Min_Iteration A q <= Max_Iteration A q \/ recording A q = false) ->
  riter s0 = 0 -> length (hfun s0) = S (Max_Iteration A q) ->
  (recording A q = true -> let n := length (hfun s0) in
    hfun s0 = filled [rf1 s0] n /\ hgrad s0 = filled [rngf1 s0] n /\ length (hacc s0) = n /\ length (hinit s0) = n) ->
  visited s0 s b l -> loop A G q e n fuel s b <> OutOfBounds A G.
Proof.
  induction n as [|n IH]; intros s0 s b l Hm H0 Hn Hi Hv; cbn [loop].
  { destruct (goes_on s b); discriminate. }
  destruct (goes_on s b) eqn:Eg; [|discriminate].
  assert (Hb : body s <> inr (OutOfBounds A G)).
  { apply body_in_bounds. intros Hr.
    destruct (visited_hist s0 s b l Hr H0 (Hi Hr) Hv) as (I1 & I2 & I3 & I4).
    destruct (goes_on_iter _ _ Eg) as [Hlt _].
    destruct Hm as [Hm|Hm]; [|congruence].
    destruct (visited_iter s0 _ _ _ H0 Hv) as [Hl _].
    assert (Hlf : length (hfun s) = length (hfun s0)).
    { rewrite I1. unfold filled. rewrite app_length, !map_length, repeat_length, rev_length. lia. }
    assert (Hlg : length (hgrad s) = length (hfun s0)).
    { rewrite I2. unfold filled. rewrite app_length, !map_length, repeat_length, rev_length. lia. }
    lia. }
  destruct (body s) as [[s' b']|o] eqn:Eb.
  - eapply IH; eauto. eapply visited_step; eauto.
  - congruence.
Qed.

Lemma loop_answers n : forall s b,
  (forall s eta slope t, search A G q e fuel s eta slope t <> None) ->
  Nat.max (Max_Iteration A q) (Min_Iteration A q) <= n + riter s ->
  loop A G q e n fuel s b <> NoAnswer A G.
Proof.
  induction n as [|n IH]; intros s b Hs Hn; cbn [loop].
  - destruct (goes_on s b) eqn:Eg; [|discriminate]. apply goes_on_iter in Eg. lia.
  - destruct (goes_on s b) eqn:Eg; [|discriminate].
    destruct (body s) as [[s' b']|o] eqn:Eb.
    + destruct (body_inl _ _ _ Eb) as (eta & t & r & s1 & s3 & Hp). destruct Hp. apply IH; auto. lia.
    + intros ->. revert Eb. unfold SolverRunModel.body.
      destruct (getdir A G e s) as [eta aux]. destruct (init_step A G q e s) as [t bbs].
      destruct (if recording A q then _ else _); [|discriminate].
      match goal with |- context [search A G q e fuel ?a ?b ?c ?d] => specialize (Hs a b c d);
        destruct (search A G q e fuel a b c d); [|congruence] end.
      unfold after_search. destruct (fbad _); [discriminate|].
      destruct (record _ _ _ _) as [[[? ?] ?]|]; discriminate.
Qed.

(** *** The window of reference values *)
Lemma removelast_firstn {Y} (l : list Y) n : n < length l -> removelast (firstn (S n) l) = firstn n l.
Proof. apply removelast_firstn. Qed.

Lemma removelast_len {Y} (l : list Y) : removelast l = firstn (length l - 1) l.
Proof.
  destruct l as [|x l]; [reflexivity|]. 
  rewrite <- (firstn_all (x :: l)) at 1. simpl length. rewrite removelast_firstn by (simpl; lia).
  f_equal. lia.
Qed.

Notation N1 := (Nat.max 1 (Num_pre_funs A q)).

(** The list kept by the solver is a prefix of the accepted values. *)
Lemma visited_pre s0 s b l : riter s0 = 0 -> rpre s0 = [] -> visited s0 s b l ->
  rpre s = firstn (length (rpre s)) (map rf1 (tl l)) /\ length (rpre s) <= Nat.min N1 (riter s) /\
  (0 < riter s -> 1 <= length (rpre s)) /\
  ((forall r, In r l -> r = s0 \/ fle (fdiv (rngf1 r) (fadd (rngf0 s0) (Tolerance A q))) (PreFunsAccuracy A q) = true) ->
     length (rpre s) = Nat.min N1 (riter s)) /\
  (rnonmono A G s0 = false ->
   (forall r, In r l -> r = s0 \/ fle (fdiv (rngf1 r) (fadd (rngf0 s0) (Tolerance A q))) (PreFunsAccuracy A q) = false) ->
     rnonmono A G s = false /\ length (rpre s) <= 1) /\
  rngf0 s = rngf0 s0.
Proof.
  intros H0 Hp0 H. induction H as [|s b l s' b' Hv IH Hg Hb].
  - rewrite Hp0, H0. simpl. repeat split; auto; lia.
  - destruct (body_inl _ _ _ Hb) as (eta & t & r & s1 & s3 & Hp). destruct Hp.
    destruct IH as (I1 & I2 & I3 & I4 & I5 & I6).
    destruct (visited_iter s0 _ _ _ H0 Hv) as [Hl _].
    destruct (visited_head _ _ _ _ Hv) as [l' ->]. cbn [tl map] in *.
    assert (Hl' : length (map rf1 l') = riter s) by (rewrite map_length; simpl in Hl; lia).
    set (k := length (rpre s)) in *.
    assert (Hcons : rf1 s :: rpre s = firstn (S k) (rf1 s :: map rf1 l')) by (simpl; now rewrite <- I1).
    assert (Hlen : length (rf1 s :: rpre s) = S k) by reflexivity.
    unfold push_fun in ps_pre0. rewrite Hlen in ps_pre0.
    assert (Hk : k <= riter s) by (unfold k in *; lia).
    destruct ((Nat.ltb (Num_pre_funs A q) (S k) || negb (rnonmono A G s')) && Nat.ltb 1 (S k)) eqn:E.
    + apply andb_true_iff in E. destruct E as [E1 E2]. apply Nat.ltb_lt in E2.
      rewrite Hcons, removelast_firstn in ps_pre0 by (simpl; lia).
      assert (Hlk : length (rpre s') = k) by (rewrite ps_pre0, firstn_length; simpl; lia).
      rewrite Hlk, ps_iter0. split; [rewrite ps_pre0; reflexivity|].
      split; [lia|]. split; [lia|]. split; [|split; [|congruence]].
      * intros Hin. assert (Hnm : rnonmono A G s' = true).
        { rewrite ps_nm0. destruct (Hin s' (or_introl eq_refl)) as [->|Hs'].
          - rewrite H0 in ps_iter0. discriminate.
          - rewrite I6. now rewrite Hs'. }
        rewrite Hnm in E1. rewrite orb_false_r in E1. apply Nat.ltb_lt in E1.
        specialize (I4 (fun r0 Hr0 => Hin r0 (or_intror Hr0))). lia.
      * intros Hn0 Hin. destruct (I5 Hn0 (fun r0 Hr0 => Hin r0 (or_intror Hr0))) as [I5a I5b].
        split; [|exact I5b].
        rewrite ps_nm0, I6. destruct (Hin s' (or_introl eq_refl)) as [->|Hs'].
        -- rewrite H0 in ps_iter0. discriminate.
        -- now rewrite Hs'.
    + rewrite Hcons in ps_pre0.
      assert (Hlk : length (rpre s') = S k) by (rewrite ps_pre0, firstn_length; simpl; lia).
      rewrite Hlk, ps_iter0. 
      apply andb_false_iff in E.
      assert (Hk1 : k = 0 \/ (S k <= Num_pre_funs A q /\ rnonmono A G s' = true)).
      { destruct E as [E|E].
        - apply orb_false_iff in E. destruct E as [E1 E2]. apply Nat.ltb_ge in E1.
          apply negb_false_iff in E2. auto.
        - apply Nat.ltb_ge in E. lia. }
      split; [rewrite ps_pre0; reflexivity|].
      split; [lia|]. split; [lia|]. split; [|split; [|congruence]].
      * intros Hin. specialize (I4 (fun r0 Hr0 => Hin r0 (or_intror Hr0))).
        destruct (Nat.eq_dec (riter s) 0); lia.
      * intros Hn0 Hin. destruct (I5 Hn0 (fun r0 Hr0 => Hin r0 (or_intror Hr0))) as [I5a I5b].
        assert (Hnm : rnonmono A G s' = false).
        { rewrite ps_nm0, I6. destruct (Hin s' (or_introl eq_refl)) as [->|Hs'].
          - rewrite H0 in ps_iter0. discriminate.
          - now rewrite Hs'. }
        split; [exact Hnm|].
        destruct Hk1 as [->|[_ Hk1]]; [lia|congruence].
Qed.
End run.
