(** What SetParams should do, from the headers: every public parameter of a solver with its
    declared type, and the parameter sets of the manifolds. *)
From Coq Require Import QArith ZArith List Bool String.
From Verif Require Import ParamsModel.
Import ListNotations.
Local Open Scope string_scope.
Local Open Scope list_scope.

(** The parameters declared in the headers, class by class. *)
Definition p_all := [("Tolerance", TReal); ("TimeBound", TReal); ("Max_Iteration", TInt);
  ("Min_Iteration", TInt); ("OutputGap", TInt); ("Verbose", TEnum); ("Stop_Criterion", TEnum)].
Definition p_smooth := ("Accuracy", TReal) :: p_all.
Definition p_linesearch := [("LineSearch_LS", TEnum); ("IsPureLSInput", TBool); ("LS_alpha", TReal);
  ("LS_beta", TReal); ("Minstepsize", TReal); ("Maxstepsize", TReal); ("LS_ratio1", TReal);
  ("LS_ratio2", TReal); ("Initstepsize", TReal); ("Finalstepsize", TReal); ("Num_pre_BB", TInt);
  ("BBratio", TReal); ("Num_pre_funs", TInt); ("PreFunsAccuracy", TReal); ("InitSteptype", TEnum)]
  ++ p_smooth.
Definition p_inner := [("useRand", TBool); ("Max_Inner_Iter", TInt); ("Min_Inner_Iter", TInt);
  ("theta", TReal); ("kappa", TReal)].
Definition p_trustregion := [("Acceptence_Rho", TReal); ("Shrinked_tau", TReal);
  ("Magnified_tau", TReal); ("minimum_Delta", TReal); ("maximum_Delta", TReal);
  ("initial_Delta", TReal)] ++ p_inner ++ p_smooth.
Definition p_cautious := [("isconvex", TBool); ("nu", TReal); ("mu", TReal)].
Definition p_subgradient := [("Diffx", TReal); ("NumExtraGF", TInt); ("Eps", TReal);
  ("Theta_eps", TReal); ("Min_Eps", TReal); ("Del", TReal); ("Theta_del", TReal);
  ("LS_alpha", TReal); ("LS_beta", TReal); ("Minstepsize", TReal); ("Maxstepsize", TReal);
  ("lambdaLower", TReal); ("lambdaUpper", TReal)] ++ p_all.
Definition p_proximal := [("RPGLSVariant", TEnum); ("LS_ratio", TReal); ("LS_alpha", TReal);
  ("Minstepsize", TReal)] ++ p_all.

Definition parameters (c : solver) : list (string * mtype) :=
  match c with
  | RSD => p_linesearch
  | RNewton => p_inner ++ p_linesearch
  | RCG => ("RCGmethod", TEnum) :: p_linesearch
  | RBroydenFamily | RWRBFGS | RBFGS => p_cautious ++ p_linesearch
  | LRBFGS => [("LengthSY", TInt); ("LMrestart", TBool)] ++ p_cautious ++ p_linesearch
  | RTRSD | RTRNewton | RTRSR1 => p_trustregion
  | LRTRSR1 => [("LengthSY", TInt); ("LMrestart", TBool)] ++ p_trustregion
  | RBFGSSub | RGS => p_subgradient
  | LRBFGSSub => ("LengthSY", TInt) :: p_subgradient
  | ManPG => p_proximal
  | AManPG => ("SGIterGap", TInt) :: p_proximal
  end.

(** The member a parameter name stands for: the same name, but for one. *)
Definition member_of (name : string) : string :=
  if String.eqb name "RPGLSVariant" then "Variant" else name.

(** The integer part (towards zero) of a finite value that a 64-bit integer holds. *)
Definition int_part (v : pval) (z : Z) : Prop :=
  exists q, v = PNum q /\ (- 2 ^ 63 <= z < 2 ^ 63)%Z /\
    ((0 <= z)%Z /\ (inject_Z z <= q < inject_Z (z + 1))%Q
     \/ (z <= 0)%Z /\ (inject_Z (z - 1) < q <= inject_Z z)%Q).

(** [means ty v m]: [m] is the value a parameter of type [ty] has when the map says [v]. *)
Definition means (ty : mtype) (v : pval) (m : mval) : Prop :=
  match ty with
  | TReal => m = MReal v
  | TInt => exists z, int_part v z /\ m = MInt z
  | TBool => exists z, int_part v z /\ m = MBool (negb (Z.eqb z 0))
  | TEnum => exists z, int_part v z /\ m = MEnum z
  end.

(** The given map can be given to a solver of this class: an integer, boolean or enumeration
    parameter gets a value whose integer part fits. *)
Definition acceptable (c : solver) (ps : params) : Prop :=
  forall k v ty, In (k, v) ps -> In (k, ty) (parameters c) -> ty <> TReal ->
  exists z, int_part v z.

(** Exactly the named parameters are changed, to exactly the given values. *)
Definition honoured (c : solver) (ps : params) (before after : members) : Prop :=
  (forall k v ty, In (k, v) ps -> In (k, ty) (parameters c) -> means ty v (after (member_of k))) /\
  (forall m, (forall k v, In (k, v) ps -> In k (map fst (parameters c)) -> member_of k <> m) ->
     after m = before m).

(** The proximal solvers and the three parameters they read as integers. *)
Definition proximal (c : solver) : Prop := c = ManPG \/ c = AManPG.
Definition step_parameter (k : string) : Prop :=
  k = "LS_ratio" \/ k = "LS_alpha" \/ k = "Minstepsize".

(** A whole number written as one. *)
Definition whole (v : pval) : Prop :=
  exists z, v = PNum (inject_Z z) /\ (- 2 ^ 63 <= z < 2 ^ 63)%Z.

(** ** Manifolds *)

(** The documented parameter sets: Stiefel.h 58-75, Sphere.h 26-39, CStiefel.h 42-55. *)
Definition documented (c : mclass) (i : Z) (s : mani) : Prop :=
  match c with
  | MStiefel =>
      smetric s = STIE_EUCLIDEAN /\ shhr s = false /\
      (i = 1%Z -> sretr s = STIE_QF /\ svt s = STIE_PARALLELIZATION /\ sintr s = true) /\
      (i = 2%Z -> sretr s = STIE_QF /\ svt s = STIE_PROJECTION /\ sintr s = false) /\
      (i = 3%Z -> sretr s = STIE_POLAR /\ svt s = STIE_PARALLELIZATION /\ sintr s = true) /\
      (i = 4%Z -> sretr s = STIE_POLAR /\ svt s = STIE_PROJECTION /\ sintr s = false) /\
      (i = 5%Z -> sretr s = STIE_CAYLEYR /\ svt s = STIE_CAYLEYVT /\ sintr s = false)
  | MSphere =>
      smetric s = STIE_EUCLIDEAN /\ shhr s = false /\
      (i = 1%Z -> sretr s = STIE_QF /\ svt s = STIE_PARALLELIZATION /\ sintr s = true) /\
      (i = 2%Z -> sretr s = STIE_EXP /\ svt s = STIE_PARALLELTRANSLATION /\ sintr s = false) /\
      (i = 3%Z -> sretr s = STIE_QF /\ svt s = STIE_PARALLELTRANSLATION /\ sintr s = false) /\
      (i = 4%Z -> sretr s = STIE_QF /\ svt s = STIE_PARALLELTRANSLATION /\ sintr s = false)
  | MCStiefel =>
      smetric s = CSTIE_EUCLIDEAN /\ shhr s = false /\
      (i = 1%Z -> sretr s = CSTIE_QF /\ svt s = CSTIE_PARALLELIZATION /\ sintr s = true) /\
      (i = 2%Z -> sretr s = CSTIE_QF /\ svt s = CSTIE_PROJECTION /\ sintr s = false) /\
      (i = 3%Z -> sretr s = CSTIE_POLAR /\ svt s = CSTIE_PARALLELIZATION /\ sintr s = true) /\
      (i = 4%Z -> sretr s = CSTIE_POLAR /\ svt s = CSTIE_PROJECTION /\ sintr s = false)
  | MSymFixedRankQ =>   (* SymFixedRankQ.h 49-65 *)
      (i = 1%Z -> smetric s = SFRANKQEUC /\ svt s = SFRANKQPARALLELIZATION) /\
      (i = 2%Z -> smetric s = SFRANKQHGZ /\ svt s = SFRANKQPARALLELIZATION) /\
      (i = 3%Z -> smetric s = SFRANKQQEUC /\ svt s = SFRANKQPARALLELIZATION) /\
      (i = 4%Z -> smetric s = SFRANKQEUC /\ svt s = SFRANKQPROJECTION) /\
      (i = 5%Z -> smetric s = SFRANKQHGZ /\ svt s = SFRANKQPROJECTION) /\
      (i = 6%Z -> smetric s = SFRANKQQEUC /\ svt s = SFRANKQPROJECTION)
  | MCSymFixedRankQ =>  (* CSymFixedRankQ.h 51-61 *)
      (i = 1%Z -> smetric s = CSFRANKQEUC /\ svt s = CSFRANKQPARALLELIZATION) /\
      (i = 2%Z -> smetric s = CSFRANKQHGZ /\ svt s = CSFRANKQPARALLELIZATION) /\
      (i = 3%Z -> smetric s = CSFRANKQEUC /\ svt s = CSFRANKQPROJECTION) /\
      (i = 4%Z -> smetric s = CSFRANKQHGZ /\ svt s = CSFRANKQPROJECTION)
  end.

(** The number of documented sets. *)
Definition sets (c : mclass) : Z :=
  match c with MStiefel => 5 | MSphere => 4 | MCStiefel => 4 | MSymFixedRankQ => 6
             | MCSymFixedRankQ => 4 end.
