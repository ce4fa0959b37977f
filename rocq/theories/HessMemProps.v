(** Theorems about the matrix a user passes to a quasi-Newton solver. *)
From stdpp Require Import gmap list.
From Coq Require Import ZArith Reals.
From Verif Require Import Arith SmartSpaceModel SmartSpaceSpec SmartSpaceFacts HessMemModel HessMemProofs HessMemFacts.

(** C56.  For RBFGS and RBroydenFamily the user's matrix keeps its contents through any number of
    iterations when the first one rescales H (isconvex) or uses a transport that writes H.  Missing
    for the full property: the other first iterations, see below. *)
Theorem C56_rbfgs_partial : forall (V FV : Type) (D : nat -> shape -> list (option V) -> FV) ops s outs u h n k lu z i its,
  run D init_st ops = Ok (s, outs) -> reads D s u = Some ((n, n, k), lu) -> reads D s h = None -> u <> h ->
  (it_rescale i <> None \/ it_tran i <> Keep) ->
  exists s' outs', run D s (solver (rbfgs_ops z) h u (i :: its)) = Ok (s', outs') /\ reads D s' u = Some ((n, n, k), lu).
Proof. exact (fun V FV D ops s outs u h n k lu z i its H => rbfgs_safe D s u h n k lu z i its (reach_Inv D ops s outs H)). Qed.
Print Assumptions C56_rbfgs_partial.

(** For RWRBFGS and RTRSR1 when the first iteration rescales, or does not update. *)
Theorem C56_rwrbfgs_partial : forall (V FV : Type) (D : nat -> shape -> list (option V) -> FV) ops s outs u h n k lu z i its,
  run D init_st ops = Ok (s, outs) -> reads D s u = Some ((n, n, k), lu) -> reads D s h = None -> u <> h ->
  (it_rescale i <> None \/ (it_tran i <> Keep /\ it_update i = None)) ->
  exists s' outs', run D s (solver (rwrbfgs_ops z) h u (i :: its)) = Ok (s', outs') /\ reads D s' u = Some ((n, n, k), lu).
Proof. exact (fun V FV D ops s outs u h n k lu z i its H => rwrbfgs_safe D s u h n k lu z i its (reach_Inv D ops s outs H)). Qed.
Print Assumptions C56_rwrbfgs_partial.

(** For RBFGSSub always: whatever the inner products of the first iteration are, it rescales H or
    resets it to the identity before any rank-one update. *)
Theorem C56_rbfgssub : forall (FV : Type) (D : nat -> shape -> list (option R) -> FV) ops s outs u h n k lu
    (big eps lambdaLower inpsy inpyy inpss : R) t gs its,
  run D init_st ops = Ok (s, outs) -> reads D s u = Some ((n, n, k), lu) -> reads D s h = None -> u <> h ->
  (0 <= lambdaLower)%R -> (0 <= inpss)%R ->
  exists s' outs', run D s (solver (rbfgssub_ops 1%R 0%R) h u
      (mkIter (@sub_rescale (R_arith big eps) 1 inpsy inpyy) t
              (if @sub_update (R_arith big eps) lambdaLower inpsy inpss then Some gs else None) :: its)) = Ok (s', outs') /\
    reads D s' u = Some ((n, n, k), lu).
Proof. exact (fun FV D ops s outs u h n k lu big eps lambdaLower inpsy inpyy inpss t gs its H Hu Hh Hne Hl Hs =>
  rbfgssub_safe D s u h n k lu 1%R 0%R _ its (reach_Inv D ops s outs H) Hu Hh Hne
    (sub_iter_R big eps lambdaLower inpsy inpyy inpss t gs Hl Hs)). Qed.
Print Assumptions C56_rbfgssub.

(** Otherwise the user's matrix is overwritten: after the first update of RBFGS or RBroydenFamily on
    a manifold that keeps coordinates it contains the solver's new H, for every matrix and every
    update; for RWRBFGS and RTRSR1 also on every other manifold. *)
Theorem C56_rbfgs_refuted : forall (V FV : Type) (D : nat -> shape -> list (option V) -> FV) ops s outs u h sz l z gs,
  run D init_st ops = Ok (s, outs) -> reads D s u = Some (sz, Some l) -> reads D s h = None -> u <> h ->
  exists s' outs', run D s (solver (rbfgs_ops z) h u [mkIter None Keep (Some gs)]) = Ok (s', outs') /\
    reads D s' u = Some (sz, Some (foldl (fun l g => imap (fun i c => g i <$> c) l) l gs)).
Proof. exact (fun V FV D ops s outs u h sz l z gs H => rbfgs_over D s u h sz l z gs (reach_Inv D ops s outs H)). Qed.
Print Assumptions C56_rbfgs_refuted.
Theorem C56_rwrbfgs_refuted : forall (V FV : Type) (D : nat -> shape -> list (option V) -> FV) ops s outs u h sz l z t gs,
  run D init_st ops = Ok (s, outs) -> reads D s u = Some (sz, Some l) -> reads D s h = None -> u <> h ->
  exists s' outs', run D s (solver (rwrbfgs_ops z) h u [mkIter None t (Some gs)]) = Ok (s', outs') /\
    reads D s' u = Some (sz, Some (foldl (fun l g => imap (fun i c => g i <$> c) l) l gs)).
Proof. exact (fun V FV D ops s outs u h sz l z t gs H => rwrbfgs_over D s u h sz l z t gs (reach_Inv D ops s outs H)). Qed.
Print Assumptions C56_rwrbfgs_refuted.

(** The hypotheses are met: the user's 2x2 identity, an update that adds 5 to every entry, and the
    matrix the user finds afterwards. *)
Example C56_example :
  let user := [ONew 0 (2, 2, 1); OScaledId 0 1%Z 0%Z] in
  exists s outs, run wD init_st user = Ok (s, outs) /\
    reads wD s 0 = Some ((2, 2, 1), Some [Some 1; Some 0; Some 0; Some 1]%Z) /\ reads wD s 1 = None /\
    (exists s' outs', run wD s (solver (rbfgs_ops 0%Z) 1 0 [mkIter None Keep (Some [fun _ x => (x + 5)%Z])]) = Ok (s', outs') /\
       reads wD s' 0 = Some ((2, 2, 1), Some [Some 6; Some 5; Some 5; Some 6]%Z)) /\
    (exists s' outs', run wD s (solver (rbfgs_ops 0%Z) 1 0 [mkIter (Some 3%Z) Keep (Some [fun _ x => (x + 5)%Z]); mkIter None Keep (Some [fun _ x => (x + 7)%Z])]) = Ok (s', outs') /\
       reads wD s' 0 = Some ((2, 2, 1), Some [Some 1; Some 0; Some 0; Some 1]%Z)).
Proof.
  eexists _, _. split; [vm_compute; reflexivity|]. split; [vm_compute; reflexivity|]. split; [vm_compute; reflexivity|].
  split; eexists _, _; split; vm_compute; reflexivity.
Qed.
