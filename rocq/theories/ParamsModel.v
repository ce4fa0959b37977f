(** Model of SetParams: the solvers' parameter maps (Solvers/*.cpp) and the manifolds'
    (Manifolds/*.cpp).

    PARAMSMAP is std::map<std::string, realdp> (Others/def.h 113): a list of entries with
    distinct names.  The members of a solver object are a function from member name to value.
    [None] is undefined behaviour: a floating point value converted to an integer type that
    cannot hold it.  Enumeration members hold the integer they were converted from; the
    language's range check on that conversion is not modelled. *)
From Coq Require Import QArith ZArith List Bool String.
Import ListNotations.
Local Open Scope string_scope.

(** A realdp value as it appears in a map. *)
Inductive pval := PNum (q : Q) | PPosInf | PNegInf | PNan.

(** The value of a member variable. *)
Inductive mval := MReal (v : pval) | MInt (z : Z) | MBool (b : bool) | MEnum (z : Z).

(** Declared type of a member variable in the class's header. *)
Inductive mtype := TReal | TInt | TBool | TEnum.

(** static_cast<integer>(v); integer is ptrdiff_t (Others/BlasLapackCppWrapper.h 20), 64 bits. *)
Definition cast_int (v : pval) : option Z :=
  match v with
  | PNum q =>
      let z := Z.quot (Qnum q) (Zpos (Qden q)) in
      if (Z.leb (- 2 ^ 63) z && Z.ltb z (2 ^ 63))%bool then Some z else None
  | _ => None
  end.

(** The right hand sides that occur in the SetParams functions. *)
Inductive rhs :=
| Raw            (* iter->second, also static_cast<realdp>(iter->second) *)
| AsInt          (* static_cast<integer>(iter->second) *)
| AsNonzero      (* (static_cast<integer>(iter->second)) != 0 *)
| AsEnum.        (* static_cast<Enum>(static_cast<integer>(iter->second)) *)

(** An integer assigned to a member of the declared type: implicit conversion. *)
Definition of_int (ty : mtype) (z : Z) : mval :=
  match ty with
  | TReal => MReal (PNum (inject_Z z))
  | TInt => MInt z
  | TBool => MBool (negb (Z.eqb z 0))
  | TEnum => MEnum z
  end.

(** Evaluate a right hand side and convert it to the declared type.  [Raw] occurs with members
    of type realdp only. *)
Definition eval (ty : mtype) (e : rhs) (v : pval) : option mval :=
  match e with
  | Raw => match ty with TReal => Some (MReal v) | _ => None end
  | AsInt => option_map (of_int ty) (cast_int v)
  | AsNonzero => option_map (fun z => of_int ty (if Z.eqb z 0 then 0 else 1)%Z) (cast_int v)
  | AsEnum => option_map (of_int ty) (cast_int v)
  end.

(** One "if (iter->first == key) { member = rhs; }". *)
Record branch := { bkey : string; bmem : string; bty : mtype; brhs : rhs }.
Definition br (k m : string) (t : mtype) (e : rhs) : branch :=
  {| bkey := k; bmem := m; bty := t; brhs := e |}.

Definition members := string -> mval.
Definition params := list (string * pval).

Definition set_member (st : members) (m : string) (v : mval) : members :=
  fun x => if String.eqb x m then v else st x.

(** if (...) ... else if (...) ... : the first branch whose key matches. *)
Fixpoint run_chain (c : list branch) (k : string) (v : pval) (st : members) : option members :=
  match c with
  | [] => Some st
  | b :: c =>
      if String.eqb k (bkey b) then option_map (set_member st (bmem b)) (eval (bty b) (brhs b) v)
      else run_chain c k v st
  end.

(** The statements of one loop body: consecutive if/else chains. *)
Fixpoint run_chains (cs : list (list branch)) (k : string) (v : pval) (st : members)
  : option members :=
  match cs with
  | [] => Some st
  | c :: cs =>
      match run_chain c k v st with
      | Some st => run_chains cs k v st
      | None => None
      end
  end.

(** for (iter = params.begin(); iter != params.end(); iter++) *)
Fixpoint loop (cs : list (list branch)) (ps : params) (st : members) : option members :=
  match ps with
  | [] => Some st
  | (k, v) :: ps =>
      match run_chains cs k v st with
      | Some st => loop cs ps st
      | None => None
      end
  end.

(** Solvers::SetParams, Solvers/Solvers.cpp 108-143; declarations Solvers.h 103-122. *)
Definition Solvers_body : list (list branch) :=
  [[br "Tolerance" "Tolerance" TReal Raw;
    br "TimeBound" "TimeBound" TReal Raw;
    br "Max_Iteration" "Max_Iteration" TInt AsInt;
    br "Min_Iteration" "Min_Iteration" TInt AsInt;
    br "OutputGap" "OutputGap" TInt AsInt;
    br "Verbose" "Verbose" TEnum AsEnum]].
Definition Solvers_SetParams (ps : params) (st : members) : option members :=
  loop Solvers_body ps st.

(** A derived class: the base class's SetParams, then the own loop. *)
Definition derived (base : params -> members -> option members) (body : list (list branch))
  (ps : params) (st : members) : option members :=
  match base ps st with
  | Some st => loop body ps st
  | None => None
  end.

(** SolversSM::SetParams, SolversSM.cpp 116-132; SolversSM.h 58, 65. *)
Definition SolversSM_body : list (list branch) :=
  [[br "Stop_Criterion" "Stop_Criterion" TEnum AsEnum;
    br "Accuracy" "Accuracy" TReal Raw]].
Definition SolversSM_SetParams := derived Solvers_SetParams SolversSM_body.

(** SolversSMLS::SetParams, SolversSMLS.cpp 810-891; SolversSMLS.h 76-141. *)
Definition SolversSMLS_body : list (list branch) :=
  [[br "LineSearch_LS" "LineSearch_LS" TEnum AsEnum;
    br "LS_alpha" "LS_alpha" TReal Raw;
    br "LS_beta" "LS_beta" TReal Raw;
    br "Minstepsize" "Minstepsize" TReal Raw;
    br "Maxstepsize" "Maxstepsize" TReal Raw;
    br "LS_ratio1" "LS_ratio1" TReal Raw;
    br "LS_ratio2" "LS_ratio2" TReal Raw;
    br "Initstepsize" "Initstepsize" TReal Raw;
    br "Finalstepsize" "Finalstepsize" TReal Raw;
    br "Num_pre_funs" "Num_pre_funs" TInt AsInt;
    br "InitSteptype" "InitSteptype" TEnum AsEnum;
    br "IsPureLSInput" "IsPureLSInput" TBool AsNonzero;
    br "PreFunsAccuracy" "PreFunsAccuracy" TReal Raw;
    br "Num_pre_BB" "Num_pre_BB" TInt AsInt;
    br "BBratio" "BBratio" TReal Raw]].
Definition SolversSMLS_SetParams := derived SolversSM_SetParams SolversSMLS_body.

(** SolversSMTR::SetParams, SolversSMTR.cpp 344-405; SolversSMTR.h 46-85. *)
Definition SolversSMTR_body : list (list branch) :=
  [[br "Acceptence_Rho" "Acceptence_Rho" TReal Raw;
    br "Shrinked_tau" "Shrinked_tau" TReal Raw;
    br "Magnified_tau" "Magnified_tau" TReal Raw;
    br "minimum_Delta" "minimum_Delta" TReal Raw;
    br "maximum_Delta" "maximum_Delta" TReal Raw;
    br "useRand" "useRand" TBool AsNonzero;
    br "Max_Inner_Iter" "Max_Inner_Iter" TInt AsInt;
    br "Min_Inner_Iter" "Min_Inner_Iter" TInt AsInt;
    br "theta" "theta" TReal Raw;
    br "kappa" "kappa" TReal Raw;
    br "initial_Delta" "initial_Delta" TReal Raw]].
Definition SolversSMTR_SetParams := derived SolversSM_SetParams SolversSMTR_body.

(** SolversNSM::SetParams, SolversNSM.cpp 41-52; SolversNSM.h 57. *)
Definition SolversNSM_body : list (list branch) :=
  [[br "Stop_Criterion" "Stop_Criterion" TEnum AsEnum]].
Definition SolversNSM_SetParams := derived Solvers_SetParams SolversNSM_body.

(** SolversNSMSub::SetParams, SolversNSMSub.cpp 113-129; SolversNSMSub.h 46, 52. *)
Definition SolversNSMSub_body : list (list branch) :=
  [[br "Diffx" "Diffx" TReal Raw;
    br "NumExtraGF" "NumExtraGF" TInt AsInt]].
Definition SolversNSMSub_SetParams := derived SolversNSM_SetParams SolversNSMSub_body.

(** SolversNSMSubLS::SetParams, SolversNSMSubLS.cpp 417-477; SolversNSMSubLS.h 53-90.  Line 472
    has no "else": the last test is a statement of its own. *)
Definition SolversNSMSubLS_body : list (list branch) :=
  [[br "Eps" "Eps" TReal Raw;
    br "Theta_eps" "Theta_eps" TReal Raw;
    br "Min_Eps" "Min_Eps" TReal Raw;
    br "Del" "Del" TReal Raw;
    br "Theta_del" "Theta_del" TReal Raw;
    br "LS_alpha" "LS_alpha" TReal Raw;
    br "LS_beta" "LS_beta" TReal Raw;
    br "Minstepsize" "Minstepsize" TReal Raw;
    br "Maxstepsize" "Maxstepsize" TReal Raw;
    br "lambdaLower" "lambdaLower" TReal Raw];
   [br "lambdaUpper" "lambdaUpper" TReal Raw]].
Definition SolversNSMSubLS_SetParams := derived SolversNSMSub_SetParams SolversNSMSubLS_body.

(** SolversNSMPGLS::SetParams, SolversNSMPGLS.cpp 105-131; SolversNSMPGLS.h 48-60.  The three
    realdp members are assigned static_cast<integer>(iter->second) (lines 118, 123, 128). *)
Definition SolversNSMPGLS_body : list (list branch) :=
  [[br "RPGLSVariant" "Variant" TEnum AsEnum;
    br "LS_ratio" "LS_ratio" TReal AsInt;
    br "LS_alpha" "LS_alpha" TReal AsInt;
    br "Minstepsize" "Minstepsize" TReal AsInt]].
Definition SolversNSMPGLS_SetParams := derived SolversNSM_SetParams SolversNSMPGLS_body.

(** AManPG::SetParams, AManPG.cpp 254-265; AManPG.h 49. *)
Definition AManPG_body : list (list branch) := [[br "SGIterGap" "SGIterGap" TInt AsInt]].
Definition AManPG_SetParams := derived SolversNSMPGLS_SetParams AManPG_body.

(** LRBFGS::SetParams, LRBFGS.cpp 40-71; LRBFGS.h 47-69. *)
Definition LRBFGS_body : list (list branch) :=
  [[br "isconvex" "isconvex" TBool AsNonzero;
    br "LengthSY" "LengthSY" TInt AsInt;
    br "LMrestart" "LMrestart" TBool AsInt;
    br "nu" "nu" TReal Raw;
    br "mu" "mu" TReal Raw]].
Definition LRBFGS_SetParams := derived SolversSMLS_SetParams LRBFGS_body.

(** LRBFGSSub::SetParams, LRBFGSSub.cpp 52-63; LRBFGSSub.h 61. *)
Definition LRBFGSSub_body : list (list branch) := [[br "LengthSY" "LengthSY" TInt AsInt]].
Definition LRBFGSSub_SetParams := derived SolversNSMSubLS_SetParams LRBFGSSub_body.

(** LRTRSR1::SetParams, LRTRSR1.cpp 42-58; LRTRSR1.h 43, 47. *)
Definition LRTRSR1_body : list (list branch) :=
  [[br "LengthSY" "LengthSY" TInt AsInt;
    br "LMrestart" "LMrestart" TBool AsInt]].
Definition LRTRSR1_SetParams := derived SolversSMTR_SetParams LRTRSR1_body.

(** RBFGS::SetParams, RBFGS.cpp 55-76; RBFGS.h 43-55. *)
Definition RBFGS_body : list (list branch) :=
  [[br "isconvex" "isconvex" TBool AsNonzero;
    br "nu" "nu" TReal Raw;
    br "mu" "mu" TReal Raw]].
Definition RBFGS_SetParams := derived SolversSMLS_SetParams RBFGS_body.

(** RBroydenFamily::SetParams, RBroydenFamily.cpp 54-75; RBroydenFamily.h 43-55. *)
Definition RBroydenFamily_body : list (list branch) :=
  [[br "isconvex" "isconvex" TBool AsNonzero;
    br "nu" "nu" TReal Raw;
    br "mu" "mu" TReal Raw]].
Definition RBroydenFamily_SetParams := derived SolversSMLS_SetParams RBroydenFamily_body.

(** RWRBFGS::SetParams, RWRBFGS.cpp 53-74; RWRBFGS.h 42-54. *)
Definition RWRBFGS_body : list (list branch) :=
  [[br "isconvex" "isconvex" TBool AsNonzero;
    br "nu" "nu" TReal Raw;
    br "mu" "mu" TReal Raw]].
Definition RWRBFGS_SetParams := derived SolversSMLS_SetParams RWRBFGS_body.

(** RCG::SetParams, RCG.cpp 149-160; RCG.h 49. *)
Definition RCG_body : list (list branch) := [[br "RCGmethod" "RCGmethod" TEnum AsEnum]].
Definition RCG_SetParams := derived SolversSMLS_SetParams RCG_body.

(** RNewton::SetParams, RNewton.cpp 172-203; RNewton.h 51-64. *)
Definition RNewton_body : list (list branch) :=
  [[br "useRand" "useRand" TBool AsNonzero;
    br "Max_Inner_Iter" "Max_Inner_Iter" TInt AsInt;
    br "Min_Inner_Iter" "Min_Inner_Iter" TInt AsInt;
    br "theta" "theta" TReal Raw;
    br "kappa" "kappa" TReal Raw]].
Definition RNewton_SetParams := derived SolversSMLS_SetParams RNewton_body.

(** The solver classes a user creates (Solvers/*.h, "class X : public Y"). *)
Inductive solver :=
| RSD | RNewton | RCG | RBroydenFamily | RWRBFGS | RBFGS | LRBFGS
| RTRSD | RTRNewton | RTRSR1 | LRTRSR1
| RBFGSSub | LRBFGSSub | RGS | ManPG | AManPG.

(** The virtual function SetParams.  RSD, RTRSD, RTRNewton, RTRSR1, RBFGSSub, RGS and ManPG have
    none of their own (RSD.h 20, RTRSD.h 20, RTRNewton.h 20, RTRSR1.h 20, RBFGSSub.h 18,
    RGS.h 26, ManPG.h 18). *)
Definition SetParams (c : solver) : params -> members -> option members :=
  match c with
  | RSD => SolversSMLS_SetParams
  | RNewton => RNewton_SetParams
  | RCG => RCG_SetParams
  | RBroydenFamily => RBroydenFamily_SetParams
  | RWRBFGS => RWRBFGS_SetParams
  | RBFGS => RBFGS_SetParams
  | LRBFGS => LRBFGS_SetParams
  | RTRSD | RTRNewton | RTRSR1 => SolversSMTR_SetParams
  | LRTRSR1 => LRTRSR1_SetParams
  | RBFGSSub | RGS => SolversNSMSubLS_SetParams
  | LRBFGSSub => LRBFGSSub_SetParams
  | ManPG => SolversNSMPGLS_SetParams
  | AManPG => AManPG_SetParams
  end.

(** ** Manifolds *)

(** The settings of a manifold object that parameter sets choose.  The enumerators of the
    different classes' enumerations are distinct values here. *)
Inductive mmetric := STIE_EUCLIDEAN | STIE_CANONICAL | CSTIE_EUCLIDEAN | CSTIE_CANONICAL
| SFRANKQEUC | SFRANKQHGZ | SFRANKQQEUC | CSFRANKQEUC | CSFRANKQHGZ.
Inductive mretr := STIE_QF | STIE_POLAR | STIE_EXP | STIE_CAYLEYR | CSTIE_QF | CSTIE_POLAR
| CSTIE_EXP | NORETR (* the fixed-rank classes have no such member *).
Inductive mvt := STIE_PARALLELIZATION | STIE_RIGGING | STIE_PARALLELTRANSLATION | STIE_PROJECTION
| STIE_CAYLEYVT | CSTIE_PARALLELIZATION | CSTIE_PARALLELTRANSLATION | CSTIE_PROJECTION
| SFRANKQPARALLELIZATION | SFRANKQPROJECTION | CSFRANKQPARALLELIZATION | CSFRANKQPROJECTION.

Record mani := {
  smetric : mmetric; sretr : mretr; svt : mvt;
  sintr : bool;      (* IsIntrApproach *)
  shhr : bool        (* HasHHR *)
}.

(** The classes with a SetParams of their own. *)
Inductive mclass := MStiefel | MSphere | MCStiefel | MSymFixedRankQ | MCSymFixedRankQ.

(** The body of ChooseParamsSetN on the Stiefel classes: five assignments. *)
Definition five (a : mmetric) (b : mretr) (c : mvt) (d e : bool) (s : mani) : mani :=
  {| smetric := a; sretr := b; svt := c; sintr := d; shhr := e |}.
(** On the fixed-rank classes: metric and VecTran. *)
Definition two (a : mmetric) (c : mvt) (s : mani) : mani :=
  {| smetric := a; sretr := sretr s; svt := c; sintr := sintr s; shhr := shhr s |}.

(** Stiefel::ChooseParamsSet1..5, Stiefel.cpp 29-72. *)
Definition Stiefel_set (i : Z) : option (mani -> mani) :=
  match i with
  | 1 => Some (five STIE_EUCLIDEAN STIE_QF STIE_PARALLELIZATION true false)
  | 2 => Some (five STIE_EUCLIDEAN STIE_QF STIE_PROJECTION false false)
  | 3 => Some (five STIE_EUCLIDEAN STIE_POLAR STIE_PARALLELIZATION true false)
  | 4 => Some (five STIE_EUCLIDEAN STIE_POLAR STIE_PROJECTION false false)
  | 5 => Some (five STIE_EUCLIDEAN STIE_CAYLEYR STIE_CAYLEYVT false false)
  | _ => None
  end%Z.

(** Sphere::ChooseParamsSet1..4, Sphere.cpp 17-56.  They override Stiefel's virtual functions;
    number 5 is inherited. *)
Definition Sphere_own (i : Z) : option (mani -> mani) :=
  match i with
  | 1 => Some (five STIE_EUCLIDEAN STIE_QF STIE_PARALLELIZATION true false)
  | 2 => Some (five STIE_EUCLIDEAN STIE_EXP STIE_PARALLELTRANSLATION false false)
  | 3 => Some (five STIE_EUCLIDEAN STIE_QF STIE_PARALLELTRANSLATION false false)
  | 4 => Some (five STIE_EUCLIDEAN STIE_QF STIE_PARALLELTRANSLATION false false)
  | _ => None
  end%Z.

(** CStiefel::ChooseParamsSet1..4, CStiefel.cpp 29-63. *)
Definition CStiefel_set (i : Z) : option (mani -> mani) :=
  match i with
  | 1 => Some (five CSTIE_EUCLIDEAN CSTIE_QF CSTIE_PARALLELIZATION true false)
  | 2 => Some (five CSTIE_EUCLIDEAN CSTIE_QF CSTIE_PROJECTION false false)
  | 3 => Some (five CSTIE_EUCLIDEAN CSTIE_POLAR CSTIE_PARALLELIZATION true false)
  | 4 => Some (five CSTIE_EUCLIDEAN CSTIE_POLAR CSTIE_PROJECTION false false)
  | _ => None
  end%Z.

(** SymFixedRankQ::ChooseParamsSet1..6, SymFixedRankQ.cpp 59-93. *)
Definition SymFixedRankQ_set (i : Z) : option (mani -> mani) :=
  match i with
  | 1 => Some (two SFRANKQEUC SFRANKQPARALLELIZATION)
  | 2 => Some (two SFRANKQHGZ SFRANKQPARALLELIZATION)
  | 3 => Some (two SFRANKQQEUC SFRANKQPARALLELIZATION)
  | 4 => Some (two SFRANKQEUC SFRANKQPROJECTION)
  | 5 => Some (two SFRANKQHGZ SFRANKQPROJECTION)
  | 6 => Some (two SFRANKQQEUC SFRANKQPROJECTION)
  | _ => None
  end%Z.

(** CSymFixedRankQ::ChooseParamsSet1..4, CSymFixedRankQ.cpp 57-79. *)
Definition CSymFixedRankQ_set (i : Z) : option (mani -> mani) :=
  match i with
  | 1 => Some (two CSFRANKQEUC CSFRANKQPARALLELIZATION)
  | 2 => Some (two CSFRANKQHGZ CSFRANKQPARALLELIZATION)
  | 3 => Some (two CSFRANKQEUC CSFRANKQPROJECTION)
  | 4 => Some (two CSFRANKQHGZ CSFRANKQPROJECTION)
  | _ => None
  end%Z.

Definition opt_or {A} (a b : option A) : option A := match a with Some x => Some x | None => b end.

(** The virtual call ChooseParamsSet_i() on an object of class [c], from Stiefel::SetParams. *)
Definition choose (c : mclass) (i : Z) : option (mani -> mani) :=
  match c with
  | MStiefel => Stiefel_set i
  | MSphere => opt_or (Sphere_own i) (Stiefel_set i)
  | MCStiefel => CStiefel_set i
  | MSymFixedRankQ => opt_or (SymFixedRankQ_set i) (SymFixedRankQ_set 1)     (* default: set 1 *)
  | MCSymFixedRankQ => opt_or (CSymFixedRankQ_set i) (CSymFixedRankQ_set 1)
  end.

Definition run_set (f : option (mani -> mani)) (s : mani) : mani :=
  match f with Some f => f s | None => s end.

(** A loop over the map that acts on one name. *)
Fixpoint on_name (name : string) (act : Z -> mani -> mani) (ps : params) (s : mani)
  : option mani :=
  match ps with
  | [] => Some s
  | (k, v) :: ps =>
      if String.eqb k name then
        match cast_int v with
        | Some z => on_name name act ps (act z s)
        | None => None
        end
      else on_name name act ps s
  end.

(** Manifold::SetParams, Manifold.cpp 306-316. *)
Definition Manifold_SetParams (ps : params) (s : mani) : option mani :=
  on_name "HasHHR"
    (fun z s => {| smetric := smetric s; sretr := sretr s; svt := svt s; sintr := sintr s;
                   shhr := negb (Z.eqb z 0) |}) ps s.

Definition bindm (a : option mani) (f : mani -> option mani) : option mani :=
  match a with Some s => f s | None => None end.

(** Stiefel::SetParams (Stiefel.cpp 965-995), Sphere::SetParams (Sphere.cpp 252-279, after
    Stiefel::SetParams), CStiefel::SetParams (CStiefel.cpp 692-719), SymFixedRankQ::SetParams
    (SymFixedRankQ.cpp 22-57), CSymFixedRankQ::SetParams (CSymFixedRankQ.cpp 26-55). *)
Definition mani_SetParams (c : mclass) (ps : params) (s : mani) : option mani :=
  let base := bindm (Manifold_SetParams ps s) (on_name "ParamSet" (fun z => run_set (choose c z)) ps) in
  match c with
  | MSphere => bindm base (on_name "ParamSet" (fun z => run_set (Sphere_own z)) ps)
  | _ => base
  end.
