(** Properties of SetParams. *)
From Coq Require Import QArith ZArith List Bool String Permutation Lia.
From Verif Require Import ParamsModel ParamsSpec ParamsProofs.
Import ListNotations.
Local Open Scope string_scope.
Local Open Scope list_scope.

(** C35.  After SetParams on any solver, each recognised name has the given value and every
    other member is what it was.  Restriction: on the proximal solvers the three step
    parameters must be given whole numbers. *)
Theorem C35_set_partial :
  forall c ps st,
  NoDup (map fst ps) -> acceptable c ps ->
  (proximal c -> forall k v, In (k, v) ps -> step_parameter k -> whole v) ->
  exists st', SetParams c ps st = Some st' /\ honoured c ps st st'.
Proof. exact set_honoured. Qed.
Print Assumptions C35_set_partial.
Example C35_example :
  let ps := [("Max_Iteration", PNum 20); ("Tolerance", PNum (1 # 10)); ("nonsense", PNan)] in
  NoDup (map fst ps) /\ acceptable LRBFGS ps /\
  (proximal LRBFGS -> forall k v, In (k, v) ps -> step_parameter k -> whole v) /\
  option_map (fun st => (st "Max_Iteration", st "Tolerance", st "nu"))
    (SetParams LRBFGS ps (fun _ => MBool true))
  = Some (MInt 20, MReal (PNum (1 # 10)), MBool true).
Proof.
  split; [|split; [|split]].
  - repeat constructor; cbn; intuition discriminate.
  - intros k v ty [H|[H|[H|[]]]] Hp Ht; injection H as <- <-.
    + exists 20%Z. apply cast_int_part. reflexivity.
    + exfalso. cbn in Hp. intuition congruence.
    + exfalso. cbn in Hp. intuition congruence.
  - intros [H|H]; discriminate.
  - reflexivity.
Qed.

(** The order of the entries in the map does not matter. *)
Theorem C35_order :
  forall c ps ps' st st1 st2,
  Permutation ps ps' ->
  NoDup (map fst ps) -> acceptable c ps ->
  (proximal c -> forall k v, In (k, v) ps -> step_parameter k -> whole v) ->
  SetParams c ps st = Some st1 -> SetParams c ps' st = Some st2 -> forall m, st1 m = st2 m.
Proof. exact set_order. Qed.
Print Assumptions C35_order.

(** On ManPG and AManPG a ratio, line search constant or minimal step size between -1 and 1 is
    stored as zero, whatever the value was before. *)
Theorem C35_truncated_refuted :
  forall c k q st, proximal c -> step_parameter k -> (-(1) < q < 1)%Q -> ~ (q == 0)%Q ->
  exists st', SetParams c [(k, PNum q)] st = Some st' /\ st' k = MReal (PNum 0%Q) /\
    ~ honoured c [(k, PNum q)] st st'.
Proof. exact truncated. Qed.
Print Assumptions C35_truncated_refuted.
Example C35_truncated_example :
  proximal ManPG /\ step_parameter "LS_alpha" /\ (-(1) < 1 # 4 < 1)%Q /\ ~ ((1 # 4) == 0)%Q.
Proof.
  split; [left; reflexivity|]. split; [right; left; reflexivity|].
  split; [split; reflexivity|discriminate].
Qed.

(** C71.  A manifold given ParamSet has the documented settings of that set. *)
Theorem C71_paramset :
  forall c ps v i s,
  NoDup (map fst ps) -> In ("ParamSet", v) ps -> int_part v i -> (1 <= i <= sets c)%Z ->
  (forall w, In ("HasHHR", w) ps -> exists j, int_part w j) ->
  exists s', mani_SetParams c ps s = Some s' /\ documented c i s'.
Proof. exact mani_set_documented. Qed.
Print Assumptions C71_paramset.
Example C71_example :
  let ps := [("HasHHR", PNum 1); ("ParamSet", PNum 4)] in
  NoDup (map fst ps) /\ In ("ParamSet", PNum 4) ps /\ int_part (PNum 4) 4 /\ (1 <= 4 <= sets MSphere)%Z.
Proof.
  split; [repeat constructor; cbn; intuition discriminate|]. split; [right; left; reflexivity|].
  split; [apply cast_int_part; reflexivity|cbn; lia].
Qed.

(** Numbers that name no set: ignored by the Stiefel classes and the sphere (except that 5 on the
    sphere reaches the Stiefel class it derives from), the first set elsewhere. *)
Theorem C71_outside :
  forall c ps v i s,
  NoDup (map fst ps) -> In ("ParamSet", v) ps -> int_part v i -> (i < 1 \/ sets c < i)%Z ->
  ~ In "HasHHR" (map fst ps) ->
  exists s', mani_SetParams c ps s = Some s' /\
  match c with
  | MStiefel | MCStiefel => s' = s
  | MSphere => (i <> 5%Z -> s' = s) /\ (i = 5%Z -> documented MStiefel 5 s')
  | MSymFixedRankQ | MCSymFixedRankQ => documented c 1 s'
  end.
Proof. exact mani_outside. Qed.
Print Assumptions C71_outside.

(** A map without ParamSet changes HasHHR only. *)
Theorem C71_hhr_alone :
  forall c ps w j s,
  NoDup (map fst ps) -> In ("HasHHR", w) ps -> int_part w j -> ~ In "ParamSet" (map fst ps) ->
  mani_SetParams c ps s = Some {| smetric := smetric s; sretr := sretr s; svt := svt s;
    sintr := sintr s; shhr := negb (Z.eqb j 0) |}.
Proof. exact mani_hhr_alone. Qed.
Print Assumptions C71_hhr_alone.

(** A map with neither name changes nothing. *)
Theorem C71_unknown :
  forall c ps s, ~ In "ParamSet" (map fst ps) -> ~ In "HasHHR" (map fst ps) ->
  mani_SetParams c ps s = Some s.
Proof. exact mani_nothing. Qed.
Print Assumptions C71_unknown.

(** With both names, HasHHR has the given value on the fixed-rank manifolds. *)
Theorem C71_both_partial :
  forall c ps v i w j s, (c = MSymFixedRankQ \/ c = MCSymFixedRankQ) ->
  NoDup (map fst ps) -> In ("ParamSet", v) ps -> int_part v i ->
  In ("HasHHR", w) ps -> int_part w j ->
  exists s', mani_SetParams c ps s = Some s' /\ shhr s' = negb (Z.eqb j 0) /\
    sintr s' = sintr s /\ sretr s' = sretr s.
Proof. exact mani_both_fixed_rank. Qed.
Print Assumptions C71_both_partial.

(** On the Stiefel manifolds and the sphere a request for HasHHR is lost when the same map
    names a parameter set. *)
Theorem C71_both_refuted :
  forall c ps v i w j s, (c = MStiefel \/ c = MSphere \/ c = MCStiefel) ->
  NoDup (map fst ps) -> In ("ParamSet", v) ps -> int_part v i -> (1 <= i <= sets c)%Z ->
  In ("HasHHR", w) ps -> int_part w j -> j <> 0%Z ->
  exists s', mani_SetParams c ps s = Some s' /\ shhr s' = false.
Proof. exact mani_hhr_lost. Qed.
Print Assumptions C71_both_refuted.
