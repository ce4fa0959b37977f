(** Quasi-Newton updates: the properties. *)
From Coq Require Import QArith Reals List Bool.
From Verif Require Import Arith QuasiNewtonModel QuasiNewtonSpec QNMemProofs QNAlgebra QNFacts QuasiNewtonWitness.
Import ListNotations.
Local Open Scope nat_scope.

(** C36. Any arithmetic, any vector operations. The update never fails, and the memory read
    from its begin index is the list of the last LengthSY admitted corrections. *)
Theorem C36_memory :
  forall (A : arith) (G : qspace A) (p : qparams A) (l : list (step A G)), LMrestart A p = false ->
  exists m, lupdates A G p (mem0 A G p) l = Some m /\
            contents G p m = map Some (lastn (LengthSY A p) (corrections G p l)).
Proof. exact @memory_contents. Qed.
Print Assumptions C36_memory.

(** C36 with the restart option: the corrections since the last multiple of LengthSY. *)
Theorem C36_memory_restart :
  forall (A : arith) (G : qspace A) (p : qparams A) (l : list (step A G)), LMrestart A p = true -> 0 < LengthSY A p ->
  let cs := corrections G p l in
  exists m, lupdates A G p (mem0 A G p) l = Some m /\
            contents G p m = map Some (skipn (LengthSY A p * ((length cs - 1) / LengthSY A p)) cs).
Proof. exact @memory_contents_restart. Qed.
Print Assumptions C36_memory_restart.

Example C36_example := mem_example_ok.

(** C37. Any arithmetic: the two loops compute the recursive product of the last corrections. *)
Theorem C37_two_loops :
  forall (A : arith) (G : qspace A) (p : qparams A) P (l : list (step A G)) v, LMrestart A p = false ->
  exists m, lupdates A G p (mem0 A G p) l = Some m /\
            hv A G p P m v = Some (recursive G P (scaling G p l) (rev (lastn (LengthSY A p) (corrections G p l))) v).
Proof. exact @direction. Qed.
Print Assumptions C37_two_loops.

(** Each stage of the recursion is the inverse BFGS formula. *)
Theorem C37_recursion :
  forall (big eps : R) (G : qspace (R_arith big eps)), qn_space G ->
  forall P gamma s y older, symmetric G P ->
  (forall s y r, In (s, y, r) older -> r = (/ ip G s y)%R) ->
  symmetric G (recursive G P gamma older) /\
  bfgs_of G (recursive G P gamma older) (recursive G P gamma ((s, y, (/ ip G s y)%R) :: older)) s y.
Proof. exact @recursion_bfgs. Qed.
Print Assumptions C37_recursion.

(** Exact arithmetic, isometric transports, positive threshold: after every history the
    product is defined for every vector and is a symmetric positive definite operator (both
    memory modes); in particular minus the product of the gradient is a descent direction. *)
Theorem C37_positive :
  forall (big eps : R) (G : qspace (R_arith big eps)), qn_space G ->
  forall p P (l : list (step _ G)), Forall (good G p) l -> spd G P ->
  exists m H, lupdates _ G p (mem0 _ G p) l = Some m /\ spd G H /\ (forall v, hv _ G p P m v = Some (H v)) /\
              forall g, (0 < ip G g g)%R -> (ip G (qscal _ G (-1)%R (H g)) g < 0)%R.
Proof. exact @lbfgs_descent. Qed.
Print Assumptions C37_positive.

Example C37_example := dense_example_ok.

(** C38, one update of RBFGS. *)
Theorem C38_secant :
  forall (big eps : R) (G : qspace (R_arith big eps)), qn_space G ->
  forall p T first H e, threshold G p e -> snd (rbfgs _ G p T first H e) = true ->
  let s := tr _ G e (seta _ G e) in
  let y := qcomb _ G (1 / sbeta _ G e)%R (sgf2 _ G e) (-1)%R (tr _ G e (sgf1 _ G e)) in
  (0 < ip G s y)%R /\ maps G (fst (rbfgs _ G p T first H e)) y s.
Proof. exact @rbfgs_secant_spec. Qed.
Print Assumptions C38_secant.

(** The update is the inverse BFGS formula. *)
Theorem C38_formula :
  forall (big eps : R) (G : qspace (R_arith big eps)), qn_space G ->
  forall H s y, symmetric G H -> bfgs_of G H (bfgs_update _ G H s y (ip G s y)) s y.
Proof. exact @bfgs_correct. Qed.
Print Assumptions C38_formula.

(** Whole runs of the three dense solvers keep the operator symmetric positive definite. *)
Theorem C38_run :
  forall (big eps : R) (G : qspace (R_arith big eps)), qn_space G ->
  forall p (l : list ((ope _ G -> ope _ G) * step _ G)) (k : nat) H, spd G H ->
  Forall (fun Te => conjugation G (fst Te) /\ threshold G p (snd Te)) l ->
  spd G (rbfgs_run _ G p k H l) /\ spd G (rbroyden_run _ G p k H l).
Proof. exact @dense_runs. Qed.
Print Assumptions C38_run.

Theorem C38_run_rw :
  forall (big eps : R) (G : qspace (R_arith big eps)), qn_space G ->
  forall p (l : list ((ope _ G -> ope _ G) * step _ G * QV _ G)) (k : nat) H, spd G H ->
  Forall (fun Te => conjugation G (fst (fst Te)) /\ threshold G p (snd (fst Te))) l ->
  spd G (rwrbfgs_run _ G p k H l).
Proof. exact @rw_run. Qed.
Print Assumptions C38_run_rw.

(** RWRBFGS updates before it transports: when updated, the operator is the transport of one
    that maps y to s. *)
Theorem C38_secant_rw :
  forall (big eps : R) (G : qspace (R_arith big eps)), qn_space G ->
  forall p T first H e c, threshold G p e -> snd (rwrbfgs _ G p T first H e c) = true ->
  exists H', fst (rwrbfgs _ G p T first H e c) = T H' /\
             maps G H' (qcomb _ G (-1)%R (sgf1 _ G e) 1%R c) (seta _ G e).
Proof. exact @rw_secant. Qed.
Print Assumptions C38_secant_rw.

Example C38_example := dense_example_ok.

(** C39. *)
Theorem C39_broyden :
  forall (big eps : R) (G : qspace (R_arith big eps)), qn_space G ->
  forall H s y phi, ip G y (H y) <> 0%R -> ip G s y <> 0%R ->
  maps G (broyden_update _ G H s y (ip G s y) phi) y s.
Proof. exact @broyden_secant. Qed.
Print Assumptions C39_broyden.

Theorem C39_broyden_update :
  forall (big eps : R) (G : qspace (R_arith big eps)), qn_space G ->
  forall p T first H e, spd G H -> conjugation G T -> threshold G p e -> snd (rbroyden _ G p T first H e) = true ->
  maps G (fst (rbroyden _ G p T first H e)) (pair_y _ G e) (pair_s _ G e).
Proof. exact @rbroyden_secant. Qed.
Print Assumptions C39_broyden_update.

(** SR1 at iterations other than the second, when the residual is not zero. Missing: the
    second iteration (C39_sr1_second_refuted) and zero residuals (C39_sr1_nan_refuted). *)
Theorem C39_sr1_partial :
  forall (big eps : R) (G : qspace (R_arith big eps)), qn_space G ->
  forall (B : QV _ G -> QV _ G) Heta g e,
  (forall u, ip G Heta u = ip G (B (seta _ G e)) u) ->
  let y := qaxpy _ G (@fq (R_arith big eps) (-1)) (sgf1 _ G e) g in let z := qaxpy _ G (@fq (R_arith big eps) (-1)) Heta y in
  (0 < eps)%R -> (0 < ip G (seta _ G e) (seta _ G e))%R -> (0 < ip G z z)%R ->
  snd (sr1 _ G false B Heta g e) = true ->
  maps G (fst (sr1 _ G false B Heta g e)) (seta _ G e) y.
Proof. exact @sr1_secant. Qed.
Print Assumptions C39_sr1_partial.

Example C39_example := sr1_example_ok.

Theorem C39_sr1_second_refuted : exists l e g,
  length l = 1 /\
  let B := sr1_run D_arith D1 0 (scaled_id D_arith D1 (d 1)) l in
  let r := sr1 D_arith D1 true B (B (seta D_arith D1 e)) g e in
  feq (B (d 1)) (d 2) = true /\
  snd r = true /\ feq (fst r (seta D_arith D1 e)) (fsub g (sgf1 D_arith D1 e)) = false.
Proof. exact sr1_second_refuted. Qed.
Print Assumptions C39_sr1_second_refuted.

Theorem C39_sr1_nan_refuted : exists e g,
  let B := scaled_id D_arith D1 (d 1) in
  let r := sr1 D_arith D1 false B (B (seta D_arith D1 e)) g e in
  feq (fst r (seta D_arith D1 e)) (fsub g (sgf1 D_arith D1 e)) = false /\ fbad (fst r (seta D_arith D1 e)) = true.
Proof. exact sr1_nan_refuted. Qed.
Print Assumptions C39_sr1_nan_refuted.

(** C40. A second Run of LRBFGS reads a correction that was never written. *)
Theorem C40_second_run_refuted : exists (A : arith) (G : qspace A) (p : qparams A) P l m v,
  lupdates A G p (mem0 A G p) l = Some m /\
  hv A G p P (mem0 A G p) v <> None /\ hv A G p P m v <> None /\
  hv A G p P (mem_rerun A G p m) v = None.
Proof. exact second_run_refuted. Qed.
Print Assumptions C40_second_run_refuted.

(** What does hold: when no correction was stored, the second run starts like the first. *)
Theorem C40_second_run_partial :
  forall (A : arith) (G : qspace A) (p : qparams A) l m, 
  lupdates A G p (mem0 A G p) l = Some m -> corrections G p l = [] ->
  mem_rerun A G p m = mem0 A G p.
Proof. exact @rerun_fresh. Qed.
Print Assumptions C40_second_run_partial.

Example C40_example := rerun_fresh_example_ok.
