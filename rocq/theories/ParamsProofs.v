(** Proofs about SetParams. *)
From Coq Require Import QArith Qround ZArith List Bool String Lia Permutation.
From Verif Require Import ParamsModel ParamsSpec.
Import ListNotations.
Local Open Scope string_scope.
Local Open Scope list_scope.

(** ** Integer parts *)
Lemma cast_int_part v z : cast_int v = Some z -> int_part v z.
Proof.
  destruct v as [q| | |]; cbn; try discriminate.
  destruct (_ && _)%bool eqn:E; [|discriminate]. intros [= <-].
  apply andb_true_iff in E. destruct E as [E1 E2].
  apply Z.leb_le in E1. apply Z.ltb_lt in E2.
  exists q. split; [reflexivity|]. split; [split; [exact E1|exact E2]|].
  clear E1 E2. destruct q as [n d]. unfold Qlt, Qle; cbn.
  pose proof (Z.quot_rem n (Zpos d) ltac:(discriminate)) as Hd.
  destruct (Z_le_gt_dec 0 n) as [Hn|Hn].
  - left. pose proof (Z.rem_bound_pos n (Zpos d) Hn ltac:(reflexivity)) as Hr.
    pose proof (Z.quot_pos n (Zpos d) Hn ltac:(reflexivity)).
    revert Hd Hr H. generalize (Z.quot n (Zpos d)) (Z.rem n (Zpos d)). intros u r Hd Hr H.
    rewrite ?Z.mul_1_r. split; [exact H|]. rewrite Hd. split; nia.
  - right. assert (Hn0 : (n <= 0)%Z) by lia. pose proof (Z.rem_bound_pos_neg n (Zpos d) ltac:(reflexivity) Hn0) as Hr.
    assert (0 <= Z.quot (- n) (Zpos d))%Z by (apply Z.quot_pos; lia).
    rewrite Z.quot_opp_l in H by discriminate.
    revert Hd Hr H. generalize (Z.quot n (Zpos d)) (Z.rem n (Zpos d)). intros u r Hd Hr H.
    rewrite ?Z.mul_1_r. split; [lia|]. rewrite Hd. split; nia.
Qed.

Lemma int_part_unique v z z' : int_part v z -> int_part v z' -> z = z'.
Proof.
  intros (q & -> & _ & H) (q' & [= <-] & _ & H').
  destruct q as [n d]. unfold Qlt, Qle in *; cbn in *.
  destruct H as [[? H]|[? H]], H' as [[? H']|[? H']]; nia.
Qed.

Lemma int_part_cast v z : int_part v z -> cast_int v = Some z.
Proof.
  intros H. destruct H as (q & -> & Hr & H).
  assert (Hz : z = Z.quot (Qnum q) (Zpos (Qden q))).
  { destruct q as [n d]. unfold Qlt, Qle in H; cbn in *.
    pose proof (Z.quot_rem n (Zpos d) ltac:(discriminate)) as Hd.
    destruct (Z_le_gt_dec 0 n) as [Hn|Hn].
    - pose proof (Z.rem_bound_pos n (Zpos d) Hn ltac:(reflexivity)) as Hr'.
      pose proof (Z.quot_pos n (Zpos d) Hn ltac:(reflexivity)). destruct H as [[? H]|[? H]]; nia.
    - assert (Hn0 : (n <= 0)%Z) by lia. pose proof (Z.rem_bound_pos_neg n (Zpos d) ltac:(reflexivity) Hn0) as Hr'.
      assert (0 <= Z.quot (- n) (Zpos d))%Z by (apply Z.quot_pos; lia).
      rewrite Z.quot_opp_l in H0 by discriminate. destruct H as [[? H]|[? H]]; nia. }
  cbn. rewrite <- Hz.
  replace (Z.leb _ z) with true by (symmetry; apply Z.leb_le; apply Hr).
  replace (Z.ltb z _) with true by (symmetry; apply Z.ltb_lt; apply Hr). reflexivity.
Qed.

Lemma means_fun ty v m m' : means ty v m -> means ty v m' -> m = m'.
Proof.
  destruct ty; cbn; [congruence| | |];
    intros (z & Hz & ->) (z' & Hz' & ->); rewrite (int_part_unique _ _ _ Hz Hz'); reflexivity.
Qed.

(** ** The loops *)
(** A set of branches with pairwise different keys and members has run over the map. *)
Definition ran (T : list branch) (ps : params) (st st' : members) : Prop :=
  (forall b v, In b T -> In (bkey b, v) ps -> eval (bty b) (brhs b) v = Some (st' (bmem b))) /\
  (forall x, (forall b v, In b T -> In (bkey b, v) ps -> bmem b <> x) -> st' x = st x).

Definition evaluates (T : list branch) (ps : params) : Prop :=
  forall b v, In b T -> In (bkey b, v) ps -> eval (bty b) (brhs b) v <> None.

Definition one (T : list branch) (k : string) (v : pval) (st st' : members) : Prop :=
  ran T [(k, v)] st st'.

Lemma run_chain_one c k v st :
  NoDup (map bkey c) -> evaluates c [(k, v)] ->
  exists st', run_chain c k v st = Some st' /\ one c k v st st'.
Proof.
  induction c as [|b c IH]; intros Hnd Hev; cbn.
  - exists st. split; [reflexivity|]. split; [intros ? ? []|reflexivity].
  - inversion Hnd as [|? ? Hb Hnd']; subst.
    destruct (String.eqb k (bkey b)) eqn:E.
    + apply String.eqb_eq in E. subst k.
      destruct (eval (bty b) (brhs b) v) as [m|] eqn:Em.
      2:{ exfalso. apply (Hev b v); [left; reflexivity|left; reflexivity|exact Em]. }
      cbn. eexists. split; [reflexivity|]. split.
      * intros b' v' [<-|Hin] [Heq|[]].
        -- injection Heq as <-. unfold set_member. rewrite String.eqb_refl. exact Em.
        -- injection Heq as Hk Hv. exfalso. apply Hb. rewrite Hk. apply in_map, Hin.
      * intros x Hx. unfold set_member. destruct (String.eqb x (bmem b)) eqn:Ex; [|reflexivity].
        apply String.eqb_eq in Ex. exfalso. apply (Hx b v); [left|left|]; auto.
    + apply String.eqb_neq in E.
      destruct (IH Hnd') as (st' & Hst & H1 & H2).
      { intros b' v' Hin Hv. apply (Hev b' v'); [right; exact Hin|exact Hv]. }
      exists st'. split; [exact Hst|]. split.
      * intros b' v' [<-|Hin] [Heq|[]]; [congruence|]. apply H1; [exact Hin|left; exact Heq].
      * intros x Hx. apply H2. intros b' v' Hin Hv. apply (Hx b' v'); [right; exact Hin|exact Hv].
Qed.

(** Two sets one after the other over the same map. *)
Lemma ran_app T1 T2 ps st st1 st2 :
  (forall b1 b2, In b1 T1 -> In b2 T2 -> bmem b1 <> bmem b2) ->
  ran T1 ps st st1 -> ran T2 ps st1 st2 -> ran (T1 ++ T2) ps st st2.
Proof.
  intros Hd [A1 A2] [B1 B2]. split.
  - intros b v Hb Hv. apply in_app_or in Hb. destruct Hb as [Hb|Hb].
    + rewrite B2; [apply A1; assumption|]. intros b2 v2 H2 _. intro E.
      apply (Hd b b2); auto.
    + apply B1; assumption.
  - intros x Hx. rewrite B2, A2; [reflexivity| |]; intros b v Hb Hv;
      (apply (Hx b v); [apply in_or_app; auto|exact Hv]).
Qed.

Lemma NoDup_app_inv {A} (l l' : list A) :
  NoDup (l ++ l') -> NoDup l /\ NoDup l' /\ (forall x, In x l -> ~ In x l').
Proof.
  induction l as [|a l IH]; cbn; intro H.
  - split; [constructor|]. split; [exact H|]. intros x [].
  - inversion H as [|? ? Ha H']; subst. destruct (IH H') as (A1 & A2 & A3).
    split; [constructor; [|exact A1]|split; [exact A2|]].
    + intro. apply Ha, in_or_app; auto.
    + intros x [<-|Hx]; [intro; apply Ha, in_or_app; auto|apply A3, Hx].
Qed.

Lemma disjoint_mem T1 T2 :
  NoDup (map bmem (T1 ++ T2)) -> forall b1 b2, In b1 T1 -> In b2 T2 -> bmem b1 <> bmem b2.
Proof.
  rewrite map_app. intro H. apply NoDup_app_inv in H. destruct H as (_ & _ & H).
  intros b1 b2 H1 H2 E. apply (H (bmem b1)); [apply in_map, H1|rewrite E; apply in_map, H2].
Qed.

Lemma run_chains_one cs k v st :
  NoDup (map bkey (List.concat cs)) -> NoDup (map bmem (List.concat cs)) -> evaluates (List.concat cs) [(k, v)] ->
  exists st', run_chains cs k v st = Some st' /\ one (List.concat cs) k v st st'.
Proof.
  revert st. induction cs as [|c cs IH]; intros st Hk Hm Hev; cbn.
  - exists st. split; [reflexivity|]. split; [intros ? ? []|reflexivity].
  - cbn in Hk, Hm, Hev. pose proof (disjoint_mem _ _ Hm) as Hd.
    rewrite map_app in Hk, Hm. apply NoDup_app_inv in Hk, Hm.
    destruct Hk as (K1 & K2 & K3), Hm as (M1 & M2 & M3).
    destruct (run_chain_one c k v st K1) as (st1 & -> & H1).
    { intros b w Hb. apply Hev, in_or_app; auto. }
    destruct (IH st1 K2 M2) as (st2 & -> & H2).
    { intros b w Hb. apply Hev, in_or_app; auto. }
    exists st2. split; [reflexivity|]. apply (ran_app _ _ _ st st1 st2 Hd); assumption.
Qed.

Lemma in_bkey_inj T b b' : NoDup (map bkey T) -> In b T -> In b' T -> bkey b = bkey b' -> b = b'.
Proof.
  induction T as [|a T IH]; cbn; [intros _ []|]. intros H Hb Hb' E.
  inversion H as [|? ? Ha H']; subst.
  destruct Hb as [<-|Hb], Hb' as [<-|Hb']; auto.
  - exfalso. apply Ha. rewrite E. apply in_map, Hb'.
  - exfalso. apply Ha. rewrite <- E. apply in_map, Hb.
Qed.
Lemma in_bmem_inj T b b' : NoDup (map bmem T) -> In b T -> In b' T -> bmem b = bmem b' -> b = b'.
Proof.
  induction T as [|a T IH]; cbn; [intros _ []|]. intros H Hb Hb' E.
  inversion H as [|? ? Ha H']; subst.
  destruct Hb as [<-|Hb], Hb' as [<-|Hb']; auto.
  - exfalso. apply Ha. rewrite E. apply in_map, Hb'.
  - exfalso. apply Ha. rewrite <- E. apply in_map, Hb.
Qed.

Lemma loop_ran cs ps : NoDup (map bkey (List.concat cs)) -> NoDup (map bmem (List.concat cs)) ->
  NoDup (map fst ps) -> evaluates (List.concat cs) ps ->
  forall st, exists st', loop cs ps st = Some st' /\ ran (List.concat cs) ps st st'.
Proof.
  intros Hk Hm. induction ps as [|[k v] ps IH]; intros Hnd Hev st; cbn.
  - exists st. split; [reflexivity|]. split; [intros ? ? ? []|reflexivity].
  - cbn in Hnd. inversion Hnd as [|? ? Hkn Hnd']; subst.
    destruct (run_chains_one cs k v st Hk Hm) as (st1 & -> & A1 & A2).
    { intros b w Hb [Heq|[]]. apply Hev; [exact Hb|left; exact Heq]. }
    destruct (IH Hnd') with (st := st1) as (st2 & -> & B1 & B2).
    { intros b w Hb Hw. apply Hev; [exact Hb|right; exact Hw]. }
    exists st2. split; [reflexivity|]. split.
    + intros b w Hb [Heq|Hw].
      * rewrite B2; [apply A1; [exact Hb|left; exact Heq]|].
        intros b' w' Hb' Hw' E. assert (b' = b) by (apply (in_bmem_inj (List.concat cs)); auto). subst b'.
        injection Heq as Hkb Hv. apply Hkn. rewrite Hkb.
        change (bkey b) with (fst (bkey b, w')). apply in_map, Hw'.
      * apply B1; assumption.
    + intros x Hx. rewrite B2, A2; [reflexivity| |].
      * intros b w Hb [Heq|[]]. apply (Hx b w); [exact Hb|left; exact Heq].
      * intros b w Hb Hw. apply (Hx b w); [exact Hb|right; exact Hw].
Qed.

(** ** Classes *)
(** [covers f T]: SetParams function [f] runs the branches [T]. *)
Definition covers (f : params -> members -> option members) (T : list branch) : Prop :=
  NoDup (map bmem T) ->
  forall ps st, NoDup (map fst ps) -> evaluates T ps ->
  exists st', f ps st = Some st' /\ ran T ps st st'.

Lemma covers_loop cs :
  NoDup (map bkey (List.concat cs)) -> covers (fun ps st => loop cs ps st) (List.concat cs).
Proof. intros Hk Hm ps st Hnd Hev. apply loop_ran; assumption. Qed.

Lemma covers_derived f T cs :
  NoDup (map bkey (List.concat cs)) ->
  covers f T -> covers (derived f cs) (T ++ List.concat cs).
Proof.
  intros Hk Hf Hm ps st Hnd Hev.
  pose proof (disjoint_mem _ _ Hm) as Hd.
  rewrite map_app in Hm. apply NoDup_app_inv in Hm. destruct Hm as (M1 & M2 & _).
  destruct (Hf M1 ps st Hnd) as (st1 & E1 & H1).
  { intros b w Hb. apply Hev, in_or_app; auto. }
  destruct (loop_ran cs ps Hk M2 Hnd) with (st := st1) as (st2 & E2 & H2).
  { intros b w Hb. apply Hev, in_or_app; auto. }
  exists st2. unfold derived. rewrite E1, E2. split; [reflexivity|].
  apply (ran_app _ _ _ st st1 st2 Hd); assumption.
Qed.

Fixpoint nodupb (l : list string) : bool :=
  match l with
  | [] => true
  | a :: l => negb (existsb (String.eqb a) l) && nodupb l
  end.
Lemma nodupb_ok l : nodupb l = true -> NoDup l.
Proof.
  induction l as [|a l IH]; cbn; [constructor|]. intro H.
  apply andb_true_iff in H. destruct H as [H1 H2]. constructor; [|apply IH, H2].
  intro Hin. apply negb_true_iff in H1. assert (existsb (String.eqb a) l = true); [|congruence].
  apply existsb_exists. exists a. split; [exact Hin|apply String.eqb_refl].
Qed.

Definition T_Solvers := List.concat Solvers_body.
Definition T_SM := T_Solvers ++ List.concat SolversSM_body.
Definition T_SMLS := T_SM ++ List.concat SolversSMLS_body.
Definition T_SMTR := T_SM ++ List.concat SolversSMTR_body.
Definition T_NSM := T_Solvers ++ List.concat SolversNSM_body.
Definition T_NSMSub := T_NSM ++ List.concat SolversNSMSub_body.
Definition T_NSMSubLS := T_NSMSub ++ List.concat SolversNSMSubLS_body.
Definition T_PG := T_NSM ++ List.concat SolversNSMPGLS_body.
Definition table (c : solver) : list branch :=
  match c with
  | RSD => T_SMLS
  | RNewton => T_SMLS ++ List.concat RNewton_body
  | RCG => T_SMLS ++ List.concat RCG_body
  | RBroydenFamily => T_SMLS ++ List.concat RBroydenFamily_body
  | RWRBFGS => T_SMLS ++ List.concat RWRBFGS_body
  | RBFGS => T_SMLS ++ List.concat RBFGS_body
  | LRBFGS => T_SMLS ++ List.concat LRBFGS_body
  | RTRSD | RTRNewton | RTRSR1 => T_SMTR
  | LRTRSR1 => T_SMTR ++ List.concat LRTRSR1_body
  | RBFGSSub | RGS => T_NSMSubLS
  | LRBFGSSub => T_NSMSubLS ++ List.concat LRBFGSSub_body
  | ManPG => T_PG
  | AManPG => T_PG ++ List.concat AManPG_body
  end.

Ltac nd := apply nodupb_ok; vm_compute; reflexivity.
Lemma cov_Solvers : covers Solvers_SetParams T_Solvers.
Proof. apply covers_loop. nd. Qed.
Lemma cov_SM : covers SolversSM_SetParams T_SM.
Proof. apply covers_derived; [nd|exact cov_Solvers]. Qed.
Lemma cov_SMLS : covers SolversSMLS_SetParams T_SMLS.
Proof. apply covers_derived; [nd|exact cov_SM]. Qed.
Lemma cov_SMTR : covers SolversSMTR_SetParams T_SMTR.
Proof. apply covers_derived; [nd|exact cov_SM]. Qed.
Lemma cov_NSM : covers SolversNSM_SetParams T_NSM.
Proof. apply covers_derived; [nd|exact cov_Solvers]. Qed.
Lemma cov_NSMSub : covers SolversNSMSub_SetParams T_NSMSub.
Proof. apply covers_derived; [nd|exact cov_NSM]. Qed.
Lemma cov_NSMSubLS : covers SolversNSMSubLS_SetParams T_NSMSubLS.
Proof. apply covers_derived; [nd|exact cov_NSMSub]. Qed.
Lemma cov_PG : covers SolversNSMPGLS_SetParams T_PG.
Proof. apply covers_derived; [nd|exact cov_NSM]. Qed.

Lemma cov_all c : covers (SetParams c) (table c).
Proof.
  destruct c; cbn [SetParams table];
    try exact cov_SMLS; try exact cov_SMTR; try exact cov_NSMSubLS; try exact cov_PG;
    (apply covers_derived;
     [nd|first [exact cov_SMLS|exact cov_SMTR|exact cov_NSMSubLS|exact cov_PG]]).
Qed.

Lemma table_mem c : NoDup (map bmem (table c)).
Proof. destruct c; nd. Qed.
Lemma table_key c : NoDup (map bkey (table c)).
Proof. destruct c; nd. Qed.

(** The branches and the declared parameters are the same list of names and types. *)
Definition tyeqb (a b : mtype) : bool :=
  match a, b with TReal, TReal | TInt, TInt | TBool, TBool | TEnum, TEnum => true | _, _ => false end.
Definition agree (p : string * mtype) (b : branch) : bool :=
  String.eqb (fst p) (bkey b) && tyeqb (snd p) (bty b) && String.eqb (member_of (fst p)) (bmem b).
Definition both (c : solver) : bool :=
  forallb (fun p => existsb (agree p) (table c)) (parameters c) &&
  forallb (fun b => existsb (fun p => agree p b) (parameters c)) (table c).

Lemma agree_ok p b : agree p b = true ->
  fst p = bkey b /\ snd p = bty b /\ member_of (fst p) = bmem b.
Proof.
  unfold agree. intro H. apply andb_true_iff in H. destruct H as [H H3].
  apply andb_true_iff in H. destruct H as [H1 H2].
  apply String.eqb_eq in H1, H3. split; [exact H1|]. split; [|exact H3].
  destruct (snd p), (bty b); cbn in H2; congruence.
Qed.

Lemma both_true c : both c = true.
Proof. destruct c; vm_compute; reflexivity. Qed.

Lemma param_branch c k ty : In (k, ty) (parameters c) ->
  exists b, In b (table c) /\ bkey b = k /\ bty b = ty /\ bmem b = member_of k.
Proof.
  intro H. pose proof (both_true c) as B. unfold both in B. apply andb_true_iff in B.
  destruct B as [B _]. rewrite forallb_forall in B. specialize (B _ H).
  apply existsb_exists in B. destruct B as (b & Hb & Ha). apply agree_ok in Ha. cbn in Ha.
  exists b. intuition congruence.
Qed.

Lemma branch_param c b : In b (table c) ->
  In (bkey b, bty b) (parameters c) /\ bmem b = member_of (bkey b).
Proof.
  intro H. pose proof (both_true c) as B. unfold both in B. apply andb_true_iff in B.
  destruct B as [_ B]. rewrite forallb_forall in B. specialize (B _ H).
  apply existsb_exists in B. destruct B as ([k ty] & Hp & Ha). apply agree_ok in Ha. cbn in Ha.
  destruct Ha as (-> & -> & <-). auto.
Qed.

(** Right hand sides fit the declared types, but for the three members of the proximal solvers. *)
Definition fits (b : branch) : bool :=
  match bty b, brhs b with
  | TReal, Raw => true
  | TInt, AsInt => true
  | TBool, AsNonzero | TBool, AsInt => true
  | TEnum, AsEnum => true
  | _, _ => false
  end.
Definition is_pg (c : solver) : bool := match c with ManPG | AManPG => true | _ => false end.
Definition is_step (k : string) : bool :=
  String.eqb k "LS_ratio" || String.eqb k "LS_alpha" || String.eqb k "Minstepsize".
Definition odd (b : branch) : bool :=
  match bty b, brhs b with TReal, AsInt => is_step (bkey b) | _, _ => false end.
Lemma fit_true c : forallb (fun b => fits b || (is_pg c && odd b)) (table c) = true.
Proof. destruct c; vm_compute; reflexivity. Qed.

Lemma is_pg_ok c : is_pg c = true -> proximal c.
Proof. destruct c; cbn; try discriminate; unfold proximal; auto. Qed.
Lemma is_step_ok k : is_step k = true -> step_parameter k.
Proof.
  unfold is_step, step_parameter. rewrite !orb_true_iff, !String.eqb_eq. tauto.
Qed.

Lemma branch_kind c b : In b (table c) ->
  fits b = true \/ (proximal c /\ bty b = TReal /\ brhs b = AsInt /\ step_parameter (bkey b)).
Proof.
  intro H. pose proof (fit_true c) as B. rewrite forallb_forall in B. specialize (B _ H).
  apply orb_true_iff in B. destruct B as [B|B]; [left; exact B|right].
  apply andb_true_iff in B. destruct B as [B1 B2]. apply is_pg_ok in B1.
  unfold odd in B2. destruct (bty b), (brhs b); try discriminate.
  apply is_step_ok in B2. auto.
Qed.

Lemma eval_means b v m : fits b = true -> eval (bty b) (brhs b) v = Some m -> means (bty b) v m.
Proof.
  unfold fits, eval, means. destruct (bty b), (brhs b); try discriminate; intros _;
    try (intros [= <-]; reflexivity);
    (destruct (cast_int v) as [z|] eqn:E; cbn; [|discriminate]; intros [= <-];
     exists z; (split; [apply cast_int_part, E|cbn; try reflexivity])).
  destruct (Z.eqb_spec z 0) as [->|Hz]; cbn; reflexivity.
Qed.

Lemma fits_defined b v : fits b = true ->
  (bty b <> TReal -> exists z, int_part v z) -> eval (bty b) (brhs b) v <> None.
Proof.
  unfold fits, eval. destruct (bty b), (brhs b); try discriminate; intros _ H; try discriminate;
    (destruct H as [z Hz]; [discriminate|]; rewrite (int_part_cast _ _ Hz); discriminate).
Qed.

Lemma whole_part v : whole v -> exists z, v = PNum (inject_Z z) /\ cast_int v = Some z.
Proof.
  intros (z & -> & Hz). exists z. split; [reflexivity|]. apply int_part_cast.
  exists (inject_Z z). split; [reflexivity|]. split; [exact Hz|].
  destruct (Z_le_gt_dec 0 z); [left|right]; (split; [lia|]); rewrite <- !Zle_Qle, <- !Zlt_Qlt; lia.
Qed.

Lemma set_honoured c ps st :
  NoDup (map fst ps) -> acceptable c ps ->
  (proximal c -> forall k v, In (k, v) ps -> step_parameter k -> whole v) ->
  exists st', SetParams c ps st = Some st' /\ honoured c ps st st'.
Proof.
  intros Hnd Hacc Hpg.
  destruct (cov_all c (table_mem c) ps st Hnd) as (st' & E & R1 & R2).
  { intros b v Hb Hv. destruct (branch_kind c b Hb) as [Hf|(Hp & Ht & He & Hs)].
    - apply fits_defined; [exact Hf|]. intro Ht.
      destruct (branch_param c b Hb) as [Hin _]. apply (Hacc _ _ _ Hv Hin Ht).
    - rewrite Ht, He. cbn. destruct (whole_part v) as (z & _ & ->); [|discriminate].
      apply (Hpg Hp (bkey b)); assumption. }
  exists st'. split; [exact E|]. split.
  - intros k v ty Hv Hp. destruct (param_branch c k ty Hp) as (b & Hb & <- & <- & Hm).
    rewrite <- Hm. pose proof (R1 b v Hb Hv) as Hev.
    destruct (branch_kind c b Hb) as [Hf|(Hpr & Ht & He & Hs)].
    + apply eval_means; assumption.
    + rewrite Ht, He in Hev. rewrite Ht. cbn in Hev |- *.
      destruct (whole_part v) as (z & Hz & Hc); [apply (Hpg Hpr (bkey b)); assumption|].
      rewrite Hc in Hev. cbn in Hev. injection Hev as <-. rewrite Hz. reflexivity.
  - intros m Hm. apply R2. intros b v Hb Hv.
    destruct (branch_param c b Hb) as [Hin ->]. apply (Hm _ _ Hv).
    change (bkey b) with (fst (bkey b, bty b)). apply in_map, Hin.
Qed.

(** The values do not depend on the order of the entries, nor on an earlier SetParams with
    the same names. *)
Lemma mem_dec (c : solver) (ps : params) (m : string) :
  (exists k v ty, In (k, v) ps /\ In (k, ty) (parameters c) /\ member_of k = m) \/
  (forall k v, In (k, v) ps -> In k (map fst (parameters c)) -> member_of k <> m).
Proof.
  induction ps as [|[k v] ps IH].
  - right. intros k v [].
  - destruct IH as [(k' & v' & ty & H)|IH].
    { left. exists k', v', ty. destruct H as (H1 & H2 & H3). repeat split; auto. right; auto. }
    destruct (in_dec string_dec k (map fst (parameters c))) as [Hk|Hk].
    + destruct (string_dec (member_of k) m) as [Hm|Hm].
      * left. apply in_map_iff in Hk. destruct Hk as ([k0 ty] & Hk0 & Hin). cbn in Hk0. subst k0.
        exists k, v, ty. repeat split; auto. left; reflexivity.
      * right. intros k' v' [Heq|Hin] Hp; [injection Heq as <- <-; exact Hm|apply (IH k' v'); auto].
    + right. intros k' v' [Heq|Hin] Hp; [injection Heq as <- <-; contradiction|apply (IH k' v'); auto].
Qed.

Lemma set_order c ps ps' st st1 st2 :
  Permutation ps ps' ->
  NoDup (map fst ps) -> acceptable c ps ->
  (proximal c -> forall k v, In (k, v) ps -> step_parameter k -> whole v) ->
  SetParams c ps st = Some st1 -> SetParams c ps' st = Some st2 -> forall m, st1 m = st2 m.
Proof.
  intros HP Hnd Hacc Hpg E1 E2 m.
  destruct (set_honoured c ps st Hnd Hacc Hpg) as (s1 & F1 & G1 & G1').
  destruct (set_honoured c ps' st) as (s2 & F2 & G2 & G2').
  - apply (Permutation_NoDup (Permutation_map fst HP)), Hnd.
  - intros k v ty Hv. apply Hacc. apply (Permutation_in _ (Permutation_sym HP)), Hv.
  - intros Hp k v Hv. apply (Hpg Hp). apply (Permutation_in _ (Permutation_sym HP)), Hv.
  - assert (s1 = st1) by congruence. assert (s2 = st2) by congruence. subst s1 s2.
    destruct (mem_dec c ps m) as [(k & v & ty & Hv & Hp & <-)|Hm].
    + apply (means_fun ty v).
      * apply (G1 k v ty); assumption.
      * apply (G2 k v ty); [apply (Permutation_in _ HP), Hv|assumption].
    + rewrite G1', G2'; [reflexivity| |exact Hm].
      intros k v Hv. apply (Hm k v). apply (Permutation_in _ (Permutation_sym HP)), Hv.
Qed.

(** ** The proximal solvers truncate *)
Lemma step_branch c k : proximal c -> step_parameter k ->
  exists b, In b (table c) /\ bkey b = k /\ bmem b = k /\ bty b = TReal /\ brhs b = AsInt.
Proof.
  intros [->| ->] [->|[->| ->]];
    [exists (br "LS_ratio" "LS_ratio" TReal AsInt)
    |exists (br "LS_alpha" "LS_alpha" TReal AsInt)
    |exists (br "Minstepsize" "Minstepsize" TReal AsInt)
    |exists (br "LS_ratio" "LS_ratio" TReal AsInt)
    |exists (br "LS_alpha" "LS_alpha" TReal AsInt)
    |exists (br "Minstepsize" "Minstepsize" TReal AsInt)];
    (split; [cbn; tauto|repeat split]).
Qed.

Lemma step_declared c k : proximal c -> step_parameter k -> In (k, TReal) (parameters c) /\ member_of k = k.
Proof. intros [->| ->] [->|[->| ->]]; (split; [cbn; tauto|reflexivity]). Qed.

Lemma truncated c k q st : proximal c -> step_parameter k ->
  (-(1) < q < 1)%Q -> ~ (q == 0)%Q ->
  exists st', SetParams c [(k, PNum q)] st = Some st' /\ st' k = MReal (PNum 0%Q) /\
    ~ honoured c [(k, PNum q)] st st'.
Proof.
  intros Hc Hk [Hq1 Hq2] Hq0.
  assert (Hz : cast_int (PNum q) = Some 0%Z).
  { apply int_part_cast. exists q. split; [reflexivity|]. split; [lia|].
    destruct (Qlt_le_dec q 0) as [H|H]; [right|left]; (split; [lia|split]); cbn;
      auto using Qlt_le_weak. }
  destruct (step_branch c k Hc Hk) as (b & Hb & Hbk & Hbm & Hbt & Hbe).
  destruct (cov_all c (table_mem c) [(k, PNum q)] st) as (st' & E & R1 & R2).
  { constructor; [intros []|constructor]. }
  { intros b' v Hb' [Heq|[]]. injection Heq as Hk' <-.
    assert (b' = b) by (apply (in_bkey_inj (table c)); [apply table_key|exact Hb'|exact Hb|congruence]).
    subst b'. rewrite Hbt, Hbe. unfold eval. rewrite Hz. discriminate. }
  exists st'. split; [exact E|].
  assert (Hst : st' k = MReal (PNum 0%Q)).
  { pose proof (R1 b (PNum q) Hb) as H. rewrite Hbk in H. specialize (H (or_introl eq_refl)).
    rewrite Hbt, Hbe, Hbm in H. unfold eval in H. rewrite Hz in H. cbn in H.
    injection H as H. rewrite <- H. reflexivity. }
  split; [exact Hst|]. intros [H _].
  destruct (step_declared c k Hc Hk) as [Hp Hm].
  specialize (H k (PNum q) TReal (or_introl eq_refl) Hp). rewrite Hm, Hst in H. cbn in H.
  injection H as H. apply Hq0. rewrite <- H. reflexivity.
Qed.

(** ** Manifolds *)
Lemma on_name_absent name act ps s : ~ In name (map fst ps) -> on_name name act ps s = Some s.
Proof.
  induction ps as [|[k v] ps IH]; cbn; [reflexivity|]. intro H.
  destruct (String.eqb_spec k name) as [->|Hk]; [exfalso; auto|]. apply IH; auto.
Qed.
Lemma on_name_present name act ps v z s :
  NoDup (map fst ps) -> In (name, v) ps -> cast_int v = Some z ->
  on_name name act ps s = Some (act z s).
Proof.
  induction ps as [|[k w] ps IH]; cbn; [intros _ []|]. intros Hnd Hin Hz.
  inversion Hnd as [|? ? Hk Hnd']; subst.
  destruct Hin as [Heq|Hin].
  - injection Heq as -> ->. rewrite String.eqb_refl, Hz. apply on_name_absent, Hk.
  - destruct (String.eqb_spec k name) as [->|Hne].
    + exfalso. apply Hk. change name with (fst (name, v)). apply in_map, Hin.
    + apply IH; assumption.
Qed.

Definition with_hhr (s : mani) (b : bool) : mani :=
  {| smetric := smetric s; sretr := sretr s; svt := svt s; sintr := sintr s; shhr := b |}.

Lemma choose_documented c i s : (1 <= i <= sets c)%Z ->
  documented c i (run_set (choose c i) s) /\
  (c = MSphere -> documented c i (run_set (Sphere_own i) s)).
Proof.
  intro H.
  assert (i = 1 \/ i = 2 \/ i = 3 \/ i = 4 \/ i = 5 \/ i = 6)%Z as Hi
    by (destruct c; cbn in H; lia).
  destruct c; cbn in H;
    repeat (destruct Hi as [->|Hi]; [cbn; try lia; repeat split; intros; try discriminate; try lia; auto|]);
    subst i; try lia; cbn; repeat split; intros; try discriminate; auto.
Qed.

Definition mani_mid (c : mclass) (i : Z) (s : mani) : mani :=
  let s := run_set (choose c i) s in
  match c with MSphere => run_set (Sphere_own i) s | _ => s end.

Lemma mani_mid_documented c i s : (1 <= i <= sets c)%Z -> documented c i (mani_mid c i s).
Proof.
  intro H. unfold mani_mid. destruct c; try (apply choose_documented, H).
  apply (proj2 (choose_documented MSphere i _ H)). reflexivity.
Qed.

Lemma mani_set_value c ps v i s :
  NoDup (map fst ps) -> In ("ParamSet", v) ps -> cast_int v = Some i ->
  mani_SetParams c ps s = option_map (mani_mid c i) (Manifold_SetParams ps s).
Proof.
  intros Hnd Hin Hi. unfold mani_SetParams, mani_mid.
  destruct (Manifold_SetParams ps s) as [s1|]; [|destruct c; reflexivity]. cbn [bindm].
  rewrite (on_name_present "ParamSet" _ ps v i s1 Hnd Hin Hi). cbn [option_map].
  destruct c; try reflexivity. cbn [bindm].
  rewrite (on_name_present "ParamSet" _ ps v i _ Hnd Hin Hi). reflexivity.
Qed.

Lemma mani_set_documented c ps v i s :
  NoDup (map fst ps) -> In ("ParamSet", v) ps -> int_part v i -> (1 <= i <= sets c)%Z ->
  (forall w, In ("HasHHR", w) ps -> exists j, int_part w j) ->
  exists s', mani_SetParams c ps s = Some s' /\ documented c i s'.
Proof.
  intros Hnd Hin Hi Hr Hh. apply int_part_cast in Hi.
  rewrite (mani_set_value c ps v i s Hnd Hin Hi).
  assert (exists s1, Manifold_SetParams ps s = Some s1) as [s1 ->].
  { unfold Manifold_SetParams.
    destruct (in_dec string_dec "HasHHR" (map fst ps)) as [Hk|Hk].
    - apply in_map_iff in Hk. destruct Hk as ([k w] & Hk & Hw). cbn in Hk. subst k.
      destruct (Hh w Hw) as [j Hj]. apply int_part_cast in Hj.
      eexists. apply (on_name_present _ _ _ w j); assumption.
    - eexists. apply on_name_absent, Hk. }
  eexists. split; [reflexivity|]. apply mani_mid_documented, Hr.
Qed.

Lemma mani_hhr_alone c ps w j s :
  NoDup (map fst ps) -> In ("HasHHR", w) ps -> int_part w j -> ~ In "ParamSet" (map fst ps) ->
  mani_SetParams c ps s = Some (with_hhr s (negb (Z.eqb j 0))).
Proof.
  intros Hnd Hin Hj Hno. apply int_part_cast in Hj. unfold mani_SetParams, Manifold_SetParams.
  rewrite (on_name_present "HasHHR" _ ps w j s Hnd Hin Hj). cbn [bindm].
  rewrite (on_name_absent "ParamSet") by exact Hno.
  destruct c; try reflexivity. cbn [bindm]. apply on_name_absent, Hno.
Qed.

Definition fixed_rank (c : mclass) : Prop := c = MSymFixedRankQ \/ c = MCSymFixedRankQ.

Lemma fixed_rank_keeps c i s : fixed_rank c ->
  shhr (mani_mid c i s) = shhr s /\ sintr (mani_mid c i s) = sintr s /\ sretr (mani_mid c i s) = sretr s.
Proof.
  assert (H : forall f, (exists a b, f = Some (two a b)) \/ f = None ->
    shhr (run_set f s) = shhr s /\ sintr (run_set f s) = sintr s /\ sretr (run_set f s) = sretr s).
  { intros f [(a & b & ->)| ->]; cbn; auto. }
  intros [->| ->]; unfold mani_mid; apply H; cbn [choose].
  - destruct i as [|[[[p|p|]|[p|p|]|]|[[p|p|]|[p|p|]|]|]|p]; cbn; eauto.
  - destruct i as [|[[[p|p|]|[p|p|]|]|[[p|p|]|[p|p|]|]|]|p]; cbn; eauto.
Qed.

Lemma mani_both_fixed_rank c ps v i w j s : fixed_rank c ->
  NoDup (map fst ps) -> In ("ParamSet", v) ps -> int_part v i ->
  In ("HasHHR", w) ps -> int_part w j ->
  exists s', mani_SetParams c ps s = Some s' /\ shhr s' = negb (Z.eqb j 0) /\
    sintr s' = sintr s /\ sretr s' = sretr s.
Proof.
  intros Hc Hnd Hin Hi Hw Hj. apply int_part_cast in Hi, Hj.
  rewrite (mani_set_value c ps v i s Hnd Hin Hi). unfold Manifold_SetParams.
  rewrite (on_name_present "HasHHR" _ ps w j s Hnd Hw Hj). cbn [option_map].
  eexists. split; [reflexivity|].
  destruct (fixed_rank_keeps c i (with_hhr s (negb (Z.eqb j 0))) Hc) as (H1 & H2 & H3).
  split; [exact H1|]. split; [exact H2|exact H3].
Qed.

Lemma mani_nothing c ps s :
  ~ In "ParamSet" (map fst ps) -> ~ In "HasHHR" (map fst ps) -> mani_SetParams c ps s = Some s.
Proof.
  intros H1 H2. unfold mani_SetParams, Manifold_SetParams.
  rewrite (on_name_absent "HasHHR") by exact H2. cbn [bindm].
  rewrite (on_name_absent "ParamSet") by exact H1.
  destruct c; try reflexivity. cbn [bindm]. apply on_name_absent, H1.
Qed.

(** On the Stiefel classes the parameter set switches HasHHR off again. *)
Lemma mani_hhr_lost c ps v i w j s : (c = MStiefel \/ c = MSphere \/ c = MCStiefel) ->
  NoDup (map fst ps) -> In ("ParamSet", v) ps -> int_part v i -> (1 <= i <= sets c)%Z ->
  In ("HasHHR", w) ps -> int_part w j -> j <> 0%Z ->
  exists s', mani_SetParams c ps s = Some s' /\ shhr s' = false.
Proof.
  intros Hc Hnd Hin Hi Hr Hw Hj Hj0.
  destruct (mani_set_documented c ps v i s Hnd Hin Hi Hr) as (s' & E & D).
  { intros w' Hw'. exists j. assert (w' = w); [|subst; exact Hj].
    clear -Hnd Hw Hw'. induction ps as [|[k x] ps IH]; [destruct Hw|].
    cbn in Hnd. inversion Hnd as [|? ? Hk Hnd']; subst.
    destruct Hw as [Hw|Hw], Hw' as [Hw'|Hw'].
    - congruence.
    - injection Hw as -> ->. exfalso. apply Hk. change "HasHHR" with (fst ("HasHHR", w')). apply in_map, Hw'.
    - injection Hw' as -> ->. exfalso. apply Hk. change "HasHHR" with (fst ("HasHHR", w)). apply in_map, Hw.
    - apply IH; assumption. }
  exists s'. split; [exact E|]. destruct Hc as [->|[->| ->]]; cbn in D; tauto.
Qed.

(** A number that is no documented set. *)
Lemma choose_outside c i : (i < 1 \/ sets c < i)%Z ->
  match c with
  | MStiefel | MCStiefel => choose c i = None
  | MSphere => Sphere_own i = None /\ choose c i = Stiefel_set i
  | MSymFixedRankQ | MCSymFixedRankQ => choose c i = choose c 1%Z
  end.
Proof.
  intro H.
  assert (Hd : forall n, (i < 1 \/ n < i)%Z -> (1 <= n <= 6)%Z ->
    (n < 1 \/ i <> 1)%Z /\ (n < 2 \/ i <> 2)%Z /\ (n < 3 \/ i <> 3)%Z /\ (n < 4 \/ i <> 4)%Z /\
    (n < 5 \/ i <> 5)%Z /\ (n < 6 \/ i <> 6)%Z) by (intros; lia).
  specialize (Hd (sets c) H ltac:(destruct c; cbn; lia)).
  destruct c; cbn [sets] in *; destruct i as [|p|p]; cbn; try (split; reflexivity); try reflexivity;
    try (exfalso; lia);
    repeat (match goal with
            | |- context [match ?q with xI _ => _ | xO _ => _ | xH => _ end] => is_var q; destruct q; cbn; try reflexivity; try (exfalso; lia)
            end); try (split; reflexivity); try (exfalso; lia).
Qed.

Lemma mani_outside c ps v i s :
  NoDup (map fst ps) -> In ("ParamSet", v) ps -> int_part v i -> (i < 1 \/ sets c < i)%Z ->
  ~ In "HasHHR" (map fst ps) ->
  exists s', mani_SetParams c ps s = Some s' /\
  match c with
  | MStiefel | MCStiefel => s' = s
  | MSphere => (i <> 5%Z -> s' = s) /\ (i = 5%Z -> documented MStiefel 5 s')
  | MSymFixedRankQ | MCSymFixedRankQ => documented c 1 s'
  end.
Proof.
  intros Hnd Hin Hi Ho Hh. apply int_part_cast in Hi.
  rewrite (mani_set_value c ps v i s Hnd Hin Hi). unfold Manifold_SetParams.
  rewrite (on_name_absent "HasHHR") by exact Hh. cbn [option_map]. eexists. split; [reflexivity|].
  pose proof (choose_outside c i Ho) as E. unfold mani_mid. destruct c; cbn [sets] in Ho.
  - rewrite E. reflexivity.
  - destruct E as [E1 E2]. rewrite E1, E2. cbn [run_set]. split.
    + intro H5. assert (Stiefel_set i = None) as ->; [|reflexivity].
      apply (choose_outside MStiefel i). cbn. lia.
    + intros ->. apply (proj1 (choose_documented MStiefel 5 s ltac:(cbn; lia))).
  - rewrite E. reflexivity.
  - rewrite E. apply (proj1 (choose_documented MSymFixedRankQ 1 s ltac:(cbn; lia))).
  - rewrite E. apply (proj1 (choose_documented MCSymFixedRankQ 1 s ltac:(cbn; lia))).
Qed.
