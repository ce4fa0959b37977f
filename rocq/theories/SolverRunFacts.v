(** Consequences of the run invariants, and concrete runs. *)
From Coq Require Import QArith Reals List Bool Lra Lia Arith Qreals.
From Verif Require Import Arith LineSearchModel LineSearchSpec LineSearchProofs LineSearchTerm LineSearchFacts
  SolverRunModel SolverRunSpec SolverRunProofs.
Import ListNotations.
Local Open Scope nat_scope.

Lemma window_prefix {Y} (f : Y) (fs : list Y) N k : k <= Nat.max 1 N -> k <= length fs ->
  f :: firstn N (removelast (firstn k fs)) = firstn (Nat.max 1 k) (f :: fs).
Proof.
  intros H1 H2. destruct k as [|k].
  - simpl. now rewrite firstn_nil.
  - rewrite removelast_firstn by lia. replace (Nat.max 1 (S k)) with (S k) by lia.
    simpl. f_equal. rewrite firstn_firstn. f_equal. lia.
Qed.

Section any.
Context {A : arith} {G : geometry A} {X : Type}.
Context (q : rparams A) (e : env A G (X:=X)) (fuel : nat).
Notation rs := (rs A G (X:=X)).
Notation F := (F A).
Notation body := (body A G q e fuel). Notation goes_on := (goes_on A G q).
Notation visited := (visited q e fuel). Notation ends := (ends q e fuel).
Notation rx1 := (rx1 A G). Notation rf1 := (rf1 A G). Notation rgf1 := (rgf1 A G). Notation riter := (riter A G).
Notation rstatus := (rstatus A G). Notation rpre := (rpre A G). Notation rss := (rss A G).
Notation rngf0 := (rngf0 A G). Notation rngf1 := (rngf1 A G). Notation reta1 := (reta1 A G).

Lemma reference_prefix s0 s b l : riter s0 = 0 -> rpre s0 = [] -> visited s0 s b l ->
  reference q s = firstn (Nat.max 1 (length (rpre s))) (map rf1 l).
Proof.
  intros H0 Hp Hv. destruct (visited_pre q e fuel s0 s b l H0 Hp Hv) as (H1 & H2 & _).
  destruct (visited_head _ _ _ _ _ _ _ Hv) as [l' ->]. cbn [tl map] in *.
  destruct (visited_iter q e fuel s0 _ _ _ H0 Hv) as [Hl _].
  assert (Hl' : length (map rf1 l') = riter s) by (rewrite map_length; simpl in Hl; lia).
  unfold reference. rewrite H1 at 1. apply window_prefix; lia.
Qed.

Lemma reference_length s0 s b l : riter s0 = 0 -> rpre s0 = [] -> visited s0 s b l ->
  let N := Nat.max 1 (Num_pre_funs A q) in
  Nat.max 1 (length (rpre s)) <= N /\
  ((forall r, In r l -> r = s0 \/ fle (fdiv (rngf1 r) (fadd (rngf0 s0) (Tolerance A q))) (PreFunsAccuracy A q) = true) ->
     Nat.max 1 (length (rpre s)) = Nat.min N (Nat.max 1 (riter s))) /\
  (rnonmono A G s0 = false ->
   (forall r, In r l -> r = s0 \/ fle (fdiv (rngf1 r) (fadd (rngf0 s0) (Tolerance A q))) (PreFunsAccuracy A q) = false) ->
     Nat.max 1 (length (rpre s)) = 1).
Proof.
  intros H0 Hp Hv. destruct (visited_pre q e fuel s0 s b l H0 Hp Hv) as (_ & H2 & H3 & H4 & H5 & _).
  cbv zeta. split; [lia|]. split.
  - intros Hin. rewrite (H4 Hin). lia.
  - intros Hn Hin. destruct (H5 Hn Hin). lia.
Qed.

(** *** Normal stop *)
Lemma stop_reason s0 s b l : riter s0 = 0 -> visited s0 s b l -> goes_on s b = false -> rstatus s = SUCCESS ->
  Min_Iteration A q <= riter s < Max_Iteration A q ->
  rf2 A G s0 = rf1 s0 -> rngf2 A G s0 = rngf1 s0 ->
  flt (TimeBound A q) (elapsed A G e (riter s)) = true \/
  (exists pred r, stopptr A G e = Some pred /\ pred r = true /\
     (r = s \/ (rx2 A G r = rx1 s /\ rngf2 A G r = rngf1 s /\ rf2 A G r = rf1 s /\ riter r = riter s))) \/
  criterion A q (match l with _ :: r :: _ => rf1 r | _ => rf1 s end) (rf1 s) (rngf1 s) (rngf0 s) (riter s) = true.
Proof.
  intros H0 Hv Hg Hs Hi Hf Hn. unfold SolverRunModel.goes_on in Hg. rewrite Hs in Hg. rewrite andb_true_r in Hg.
  apply orb_false_iff in Hg. destruct Hg as [Hg _].
  replace (Nat.ltb (riter s) (Max_Iteration A q)) with true in Hg by (symmetry; apply Nat.ltb_lt; lia).
  rewrite andb_true_r in Hg. apply negb_false_iff in Hg.
  assert (Hst : exists r, is_stopped A G q e r = true /\ riter r = riter s /\ rf2 A G r = rf1 s /\ rngf2 A G r = rngf1 s /\
    rngf0 r = rngf0 s /\ rf1 r = (match l with _ :: r :: _ => rf1 r | _ => rf1 s end) /\
    (r = s \/ rx2 A G r = rx1 s)).
  { destruct Hv as [|s b l s' b' Hv Hg' Hb].
    - exists s0. auto 10.
    - destruct (body_inl q e fuel _ _ _ Hb) as (eta & t & r & s1 & s3 & Hp). destruct Hp.
      destruct ps_s3 as (K1 & K2 & K3 & K4 & K5 & K6 & K7).
      exists s3. destruct (visited_head _ _ _ _ _ _ _ Hv) as [l' ->].
      rewrite <- ps_stop. repeat split; auto; try congruence. }
  destruct Hst as (r & Hst & R1 & R2 & R3 & R4 & R5 & R6).
  unfold is_stopped in Hst. rewrite R1 in Hst.
  destruct (flt (TimeBound A q) _) eqn:Et; [now left|right].
  destruct (stopptr A G e) as [pred|] eqn:Ep.
  - left. exists pred, r. split; [reflexivity|]. split; [exact Hst|].
    destruct R6 as [R6|R6]; [left; exact R6|right; auto].
  - right. rewrite R2, R3, R4, R5 in Hst. exact Hst.
Qed.

(** *** The gradient *)
Definition keeps_gradient (s : rs) : Prop :=
  match algo A q with
  | LSSM_ARMIJO | LSSM_EXACT | LSSM_INPUTFUN _ => True
  | LSSM_STRONGWOLFE => rstatus s = SUCCESS \/ rstatus s = MAXSTEPSIZE
  | LSSM_WOLFE => False
  end.

Lemma visited_gradient s0 s b l : rgf1 s0 = grad A G (rx1 s0) ->
  rngf1 s0 = fsqrt (metric A G (rx1 s0) (rgf1 s0) (rgf1 s0)) ->
  visited s0 s b l -> keeps_gradient s ->
  rgf1 s = grad A G (rx1 s) /\ rngf1 s = fsqrt (metric A G (rx1 s) (grad A G (rx1 s)) (grad A G (rx1 s))).
Proof.
  intros H0 Hn0 Hv Hk. destruct Hv as [|s b l s' b' Hv Hg' Hb].
  - rewrite Hn0, H0. auto.
  - destruct (body_inl q e fuel _ _ _ Hb) as (eta & t & r & s1 & s3 & Hp). destruct Hp.
    cut (rgf1 s' = grad A G (rx1 s')).
    { intros Hgr. split; [exact Hgr|]. rewrite ps_ng, Hgr. reflexivity. }
    rewrite ps_g, ps_x. clear ps_ng. unfold keeps_gradient in Hk. rewrite ps_st in Hk.
    assert (P : forall c u, point_at (A:=A) (G:=G) c r u -> grad_at c r u -> gf2 A G r = grad A G (x2 A G r)).
    { intros c u (_ & Hx & _) Hgr. rewrite Hx. exact Hgr. }
    revert ps_search. unfold search. destruct (flt _ (Accuracy A q)); [intros [= <-]; reflexivity|].
    destruct (algo A q) as [| | | |pure]; intros H.
    + destruct (armijo_spec _ _ _ _ _ _ _ _ _ H) as [(_ & [Hc Hgg] & _)|(_ & (u & Hc & Hgg) & _)]; eapply P; eauto.
    + contradiction.
    + destruct (strong_wolfe_spec _ _ _ _ _ _ _ H) as [(_ & [[Hc Hgg] _] & _)|[[K _]|[[_ [[Hc Hgg] _]]|[K _]]]];
        try (eapply P; eauto; fail); rewrite K in Hk; destruct Hk; discriminate.
    + destruct (exact_spec _ _ _ _ _ _ _ H) as [[Hc Hgg] _]. eapply P; eauto.
    + destruct pure; [injection H as <-; reflexivity|].
      destruct (armijo_spec _ _ _ _ _ _ _ _ _ H) as [(_ & [Hc Hgg] & _)|(_ & (u & Hc & Hgg) & _)]; eapply P; eauto.
Qed.

(** *** The reported step *)
Lemma visited_step_size s0 s b l s' b' : visited s0 s b l -> goes_on s b = true -> body s = inl (s', b') ->
  (rstatus s' = SUCCESS \/ algo A q = LSSM_WOLFE \/ algo A q = LSSM_EXACT \/
   (algo A q = LSSM_STRONGWOLFE /\ rstatus s' <> LSERROR)) ->
  rx1 s' = retr A G (rx1 s) (scal A G (rss s') (reta1 s')).
Proof.
  intros _ Hg0 Hb Hk.
  destruct (body_inl q e fuel _ _ _ Hb) as (eta & t & r & s1 & s3 & Hp). destruct Hp.
  rewrite ps_x, ps_ss, ps_eta. rewrite ps_st in Hk.
  destruct ps_same as (S1 & _).
  assert (P : forall len sl, cons A G (ctx_of A G s1 eta sl len) r -> x2 A G r = retr A G (rx1 s) (scal A G (ss A G r) eta)).
  { intros len sl (_ & Hx & _). rewrite Hx. unfold trial, tangent. cbn. now rewrite S1. }
  revert ps_search. unfold search. destruct (flt _ (Accuracy A q)).
  { intros [= <-]. cbn. now rewrite S1. }
  destruct (algo A q) as [| | | |pure]; intros H.
  - destruct (armijo_spec _ _ _ _ _ _ _ _ _ H) as [(_ & [Hc _] & _)|(K & _)]; [eapply P; eauto|].
    rewrite K in Hk. destruct Hk as [?|[?|[?|[? _]]]]; discriminate.
  - eapply P. eapply wolfe_cons; eauto.
  - destruct (strong_wolfe_spec _ _ _ _ _ _ _ H) as [(_ & [[Hc _] _] & _)|[[K Hc]|[[_ [[Hc _] _]]|[K _]]]];
        try (eapply P; eauto; fail).
    destruct Hk as [?|[?|[?|[_ ?]]]]; try congruence.
  - destruct (exact_spec _ _ _ _ _ _ _ H) as [[Hc Hgg] _]. eapply P; eauto.
  - destruct pure; [injection H as <-; cbn; now rewrite S1|].
    destruct (armijo_spec _ _ _ _ _ _ _ _ _ H) as [(_ & [Hc Hgg] & _)|(K & _)]; [eapply P; eauto|].
    rewrite K in Hk. destruct Hk as [?|[?|[?|[? _]]]]; discriminate.
Qed.
End any.

(** ** Armijo inside a run, extended reals *)
Section armijo_run.
Local Open Scope R_scope.
Context (big eps : R).
Notation A := (X_arith big eps).
Context {G : geometry A} {X : Type}.
Context (q : rparams A) (e : env A G (X:=X)) (fuel : nat).

Lemma armijo_run s0 s b l s' b' fs a t g :
  riter A G s0 = 0%nat -> rpre A G s0 = [] ->
  visited q e fuel s0 s b l -> body A G q e fuel s = inl (s', b') ->
  algo A q = LSSM_ARMIJO -> rstatus A G s' = SUCCESS ->
  flt (fdiv (rngf1 A G s) (fadd (rngf0 A G s) (Tolerance A q))) (Accuracy A q) = false ->
  map (rf1 A G) l = map Fin fs -> LS_alpha A (lsp A q) = Fin a -> rss A G s' = Fin t ->
  metric A G (rx1 A G s) (rgf1 A G s) (reta1 A G s') = Fin g ->
  exists v m j, rf1 A G s' = Fin v /\ (1 <= j <= Nat.max 1 (Num_pre_funs A q))%nat /\ is_max m (firstn j fs) /\
    v <= m + a * t * g.
Proof.
  intros H0 Hp0 Hv Hb Ha Hst Hacc Hfs Ea Et Eg.
  destruct (visited_pre q e fuel s0 s b l H0 Hp0 Hv) as (H1 & H2 & H3 & _).
  destruct (visited_iter q e fuel s0 _ _ _ H0 Hv) as [Hl _].
  destruct (visited_head _ _ _ _ _ _ _ Hv) as [l' ->].
  destruct fs as [|f fs]; [discriminate|]. cbn [map tl] in *. injection Hfs as Hf Hfs.
  assert (Hlen : length fs = riter A G s).
  { rewrite <- (map_length Fin), <- Hfs, map_length. simpl in Hl. lia. }
  destruct (body_inl q e fuel _ _ _ Hb) as (eta & t0 & r & s1 & s3 & Hp). destruct Hp.
  destruct ps_same as (S1 & S2 & S3 & S4 & S5 & S6 & S7).
  revert ps_search. unfold search. rewrite S4, S5, Hacc, Ha. intros Hs.
  rewrite S3 in Hs.
  remember (length (rpre A G s)) as k eqn:Ek. clear Ek.
  assert (K : rpre A G s = map Fin (firstn k fs)) by exact (eq_trans H1 (eq_trans (f_equal (firstn k) Hfs) (firstn_map Fin k fs))).
  rewrite K in Hs.
  destruct (f2 A G r) as [v| | |] eqn:Ef; cbn in ps_good; try discriminate.
  destruct (armijo_success_X big eps G (lsp A q) _ fuel (firstn k fs) (Num_pre_funs A q) _ r f a g t v Hs)
    as (_ & _ & m & Hm & Hle).
  - congruence.
  - cbn. congruence.
  - exact Ea.
  - cbn. congruence.
  - congruence.
  - exact Ef.
  - rewrite window_prefix in Hm by lia.
    exists v, m, (Nat.max 1 k). split; [congruence|]. split; [lia|]. split; [exact Hm|exact Hle].
Qed.

(** *** Initial step size *)
Lemma init_step_X s i n :
  Initstepsize A q = Fin i -> rngf1 A G s = Fin n -> 0 < i -> 0 < n -> 0 < eps ->
  let t := fst (init_step A G q e s) in (exists r, t = Fin r /\ 0 < r) \/ t = PInf \/ t = NaN.
Proof.
  intros Ei En Hi Hn He. unfold init_step. destruct (Nat.eqb (riter A G s) 0).
  { left. exists i. auto. }
  destruct (match itype A q with ONESTEP => _ | _ => _ end) as [t bbs]. cbn [fst].
  set (t1 := if flt t _ then _ else t). clearbody t1.
  destruct (@flt A t1 (@fepsv A)) eqn:E.
  - left. rewrite Ei, En. cbn [fdiv A]. rewrite xdiv_fin by lra. exists (i / n). split; [reflexivity|].
    apply Rdiv_lt_0_compat; lra.
  - destruct t1 as [r| | |]; cbn in E; try discriminate; auto.
    apply Rltb_false in E. left. exists r. split; [reflexivity|lra].
Qed.
End armijo_run.

(** ** Final forms *)
Section final.
Context {A : arith} {G : geometry A} {X : Type}.
Context (q : rparams A) (e : env A G (X:=X)) (n fuel : nat).
Context (x0 x20 : P A G) (gf20 eta0 : T A G) (bb0 : list (F A)) (ss0 : F A) (aux0 : X).
Notation s0 := (start A G q x0 x20 gf20 eta0 bb0 ss0 aux0).

Lemma final_in_bounds : Min_Iteration A q <= Max_Iteration A q \/ recording A q = false ->
  run A G q e n fuel s0 <> OutOfBounds A G.
Proof.
  intros H. destruct (start_hist q x0 x20 gf20 eta0 bb0 ss0 aux0) as [H1 H2].
  unfold run. eapply (loop_in_bounds q e fuel n s0); [exact H|reflexivity|exact H1|exact H2|constructor].
Qed.

Lemma final_iter sf : run A G q e n fuel s0 = Done A G sf ->
  riter A G sf <= Nat.max (Max_Iteration A q) (Min_Iteration A q).
Proof.
  intros H. destruct (run_ends q e fuel n _ _ H) as [l Hl].
  destruct (ends_visited q e fuel _ _ _ Hl) as (s & b & Hv & _ & _ & _ & _ & Hi & _).
  rewrite Hi. eapply (visited_iter q e fuel s0); [|exact Hv]. reflexivity.
Qed.

Lemma final_answers : (forall s eta slope t, search A G q e fuel s eta slope t <> None) ->
  Nat.max (Max_Iteration A q) (Min_Iteration A q) <= n -> run A G q e n fuel s0 <> NoAnswer A G.
Proof. intros H Hn. apply loop_answers; [exact H|]. lia. Qed.

Lemma final_histories sf : recording A q = true -> run A G q e n fuel s0 = Done A G sf ->
  exists l, ends q e fuel s0 sf l /\ length l = S (riter A G sf) /\
    hfun A G sf = map Some (map (rf1 A G) (rev l)) ++ repeat None (Max_Iteration A q - riter A G sf) /\
    hgrad A G sf = map Some (map (rngf1 A G) (rev l)) ++ repeat None (Max_Iteration A q - riter A G sf).
Proof.
  intros Hr H. destruct (run_ends q e fuel n _ _ H) as [l Hl].
  destruct (ends_visited q e fuel _ _ _ Hl) as (s & b & Hv & _ & _ & _ & _ & Hi & Hf & Hg & _).
  destruct (start_hist q x0 x20 gf20 eta0 bb0 ss0 aux0) as [H1 H2].
  pose proof (visited_hist q e fuel s0 s b l Hr eq_refl (H2 Hr) Hv) as (I1 & I2 & _).
  destruct (visited_iter q e fuel s0 _ _ _ eq_refl Hv) as [Hn _].
  exists l. split; [exact Hl|]. split; [congruence|].
  rewrite Hf, Hg, I1, I2, Hi, H1. unfold filled. rewrite !map_length, !rev_length, Hn. split; reflexivity.
Qed.

Lemma final_value sf : run A G q e n fuel s0 = Done A G sf ->
  rf1 A G sf = fobj A G (rx1 A G sf) /\ (0 < riter A G sf -> fbad (rf1 A G sf) = false) /\
  exists l, ends q e fuel s0 sf l /\ hd_error (map (rx1 A G) l) = Some (rx1 A G sf).
Proof.
  intros H. destruct (run_ends q e fuel n _ _ H) as [l Hl].
  destruct (ends_value q e fuel s0 sf l eq_refl Hl) as [H1 H2].
  split; [exact H1|]. split; [exact H2|]. exists l. split; [exact Hl|].
  destruct (ends_visited q e fuel _ _ _ Hl) as (s & b & Hv & Hx & _).
  destruct (visited_head _ _ _ _ _ _ _ Hv) as [l' ->]. simpl. congruence.
Qed.

Lemma final_window s b l : visited q e fuel s0 s b l ->
  let N := Nat.max 1 (Num_pre_funs A q) in
  exists j, 1 <= j <= N /\ reference q s = firstn j (map (rf1 A G) l) /\
   ((forall r, In r l -> r = s0 \/
       fle (fdiv (rngf1 A G r) (fadd (rngf0 A G s0) (Tolerance A q))) (PreFunsAccuracy A q) = true) ->
     j = Nat.min N (Nat.max 1 (riter A G s))) /\
   ((forall r, In r l -> r = s0 \/
       fle (fdiv (rngf1 A G r) (fadd (rngf0 A G s0) (Tolerance A q))) (PreFunsAccuracy A q) = false) ->
     j = 1).
Proof.
  intros Hv N. pose proof (reference_length q e fuel s0 s b l eq_refl eq_refl Hv) as (H1 & H2 & H3).
  exists (Nat.max 1 (length (rpre A G s))). split; [fold N in H1; lia|]. split; [eapply (reference_prefix q e fuel s0); eauto; reflexivity|].
  split; [exact H2|]. apply H3. reflexivity.
Qed.

Lemma final_stop sf : run A G q e n fuel s0 = Done A G sf -> rstatus A G sf = SUCCESS -> fbad (rf2 A G sf) = false ->
  Min_Iteration A q <= riter A G sf < Max_Iteration A q ->
  exists l, ends q e fuel s0 sf l /\
  (flt (TimeBound A q) (elapsed A G e (riter A G sf)) = true \/
  (exists pred r, stopptr A G e = Some pred /\ pred r = true /\
     (r = sf \/ (rx2 A G r = rx1 A G sf /\ rngf2 A G r = rngf1 A G sf /\ rf2 A G r = rf1 A G sf /\ riter A G r = riter A G sf))) \/
  criterion A q (match l with _ :: r :: _ => rf1 A G r | _ => rf1 A G sf end) (rf1 A G sf) (rngf1 A G sf) (rngf0 A G sf)
     (riter A G sf) = true).
Proof.
  intros H Hs Hf Hi. destruct (run_ends q e fuel n _ _ H) as [l Hl]. exists l. split; [exact Hl|].
  destruct Hl as [s b l Hv Hg|s b l sf Hv Hg Hb].
  - eapply (stop_reason q e fuel s0 s b l); auto.
  - destruct (body_bad q e fuel _ _ Hb) as [Hbad _]. congruence.
Qed.

Lemma final_gradient sf l : ends q e fuel s0 sf l ->
  match algo A q with
  | LSSM_ARMIJO | LSSM_EXACT | LSSM_INPUTFUN _ => True
  | LSSM_STRONGWOLFE => exists r, hd_error l = Some r /\ (rstatus A G r = SUCCESS \/ rstatus A G r = MAXSTEPSIZE)
  | LSSM_WOLFE => False
  end ->
  rgf1 A G sf = grad A G (rx1 A G sf) /\
  rngf1 A G sf = fsqrt (metric A G (rx1 A G sf) (grad A G (rx1 A G sf)) (grad A G (rx1 A G sf))).
Proof.
  intros Hl Hk. destruct (ends_visited q e fuel _ _ _ Hl) as (s & b & Hv & Hx & _ & Hg & Hn & _).
  rewrite Hx, Hg, Hn. eapply (visited_gradient q e fuel s0); [reflexivity|reflexivity|exact Hv|].
  unfold keeps_gradient. destruct (visited_head _ _ _ _ _ _ _ Hv) as [l' ->].
  destruct (algo A q); auto. destruct Hk as (r & Hr & Hk). injection Hr as <-. exact Hk.
Qed.
End final.

(** ** Step-size histories *)
Section steps.
Context {A : arith} {G : geometry A} {X : Type}.
Context (q : rparams A) (e : env A G (X:=X)) (fuel : nat).
Context (x0 x20 : P A G) (gf20 eta0 : T A G) (bb0 : list (F A)) (ss0 : F A) (aux0 : X).
Let s0 := start A G q x0 x20 gf20 eta0 bb0 ss0 aux0.

Lemma visited_rev_head s b l : visited q e fuel s0 s b l -> exists l', rev l = s0 :: l'.
Proof.
  intros Hv. induction Hv as [|s b l s' b' Hv [l' IH] Hg Hb]; [exists []; reflexivity|].
  simpl. rewrite IH. exists (l' ++ [s']). reflexivity.
Qed.

Lemma visited_steps s b l : recording A q = true -> visited q e fuel s0 s b l ->
  let n := S (Max_Iteration A q) in
  hacc A G s = filled (fq 0 :: map (rss A G) (tl (rev l))) n /\
  hinit A G s = filled (fq 0 :: map (fun r => fst (init_step A G q e r)) (rev (tl l))) n.
Proof.
  intros Hr Hv. cbv zeta. induction Hv as [|s b l s' b' Hv IH Hg Hb].
  - unfold s0, start. cbn. rewrite Hr. unfold filled. cbn. rewrite Nat.sub_0_r. auto.
  - destruct IH as [I1 I2]. destruct (body_inl q e fuel _ _ _ Hb) as (eta & t & r & s1 & s3 & Hp). destruct Hp.
    rewrite Hr in ps_hist. destruct ps_hist as (Ha & Hf & Hgr & Hac).
    destruct (visited_iter q e fuel s0 _ _ _ eq_refl Hv) as [Hl _].
    destruct (visited_rev_head _ _ _ Hv) as [l' El]. destruct (visited_head _ _ _ _ _ _ _ Hv) as [l2 El2]. subst l.
    assert (Hl' : length l' = riter A G s).
    { assert (E : length (rev (s :: l2)) = length (s0 :: l')) by (f_equal; exact El). rewrite rev_length in E. simpl in *. lia. }
    split.
    + rewrite I1 in Hac. rewrite El in Hac. cbn [tl] in Hac.
      assert (E1 : riter A G s' = length (fq 0 :: map (rss A G) l')) by (simpl; rewrite map_length; lia).
      rewrite E1 in Hac. apply store_filled in Hac. rewrite Hac. cbn [rev]. cbn [rev] in El. rewrite El. cbn [app tl].
      rewrite map_app. reflexivity.
    + rewrite I2 in Ha. cbn [tl] in Ha |- *.
      assert (E1 : S (riter A G s) = length (fq 0 :: map (fun r => fst (init_step A G q e r)) (rev l2))).
      { simpl. rewrite map_length, rev_length. simpl in Hl. lia. }
      rewrite E1 in Ha. apply store_filled in Ha. rewrite Ha. cbn [rev]. rewrite map_app, ps_init. reflexivity.
Qed.

Lemma final_steps s b l : recording A q = true -> visited q e fuel s0 s b l ->
  hacc A G s = Some (fq 0) :: map Some (map (rss A G) (tl (rev l))) ++ repeat None (Max_Iteration A q - riter A G s) /\
  hinit A G s = Some (fq 0) :: map Some (map (fun r => fst (init_step A G q e r)) (rev (tl l)))
     ++ repeat None (Max_Iteration A q - riter A G s).
Proof.
  intros Hr Hv. destruct (visited_steps _ _ _ Hr Hv) as [-> ->].
  destruct (visited_iter q e fuel s0 _ _ _ eq_refl Hv) as [Hl _].
  destruct (visited_rev_head _ _ _ Hv) as [l' El]. destruct (visited_head _ _ _ _ _ _ _ Hv) as [l2 El2]. subst l.
  assert (Hl' : length l' = riter A G s).
  { assert (E : length (rev (s :: l2)) = length (s0 :: l')) by (f_equal; exact El). rewrite rev_length in E. simpl in *. lia. }
  unfold filled. rewrite El. cbn [tl length map app Nat.sub]. rewrite !map_length, rev_length.
  simpl in Hl. replace (length l2) with (riter A G s) by lia. rewrite Hl'. split; reflexivity.
Qed.
End steps.
