(** Properties of the limited memory of LRTRSR1. *)
From Coq Require Import QArith Reals List Bool.
From Verif Require Import Arith QuasiNewtonModel QuasiNewtonSpec LSR1Model LSR1Spec LSR1Proofs LSR1Exact QuasiNewtonWitness LSR1Witness.
Import ListNotations.

(** C109: after every run with isometric transports, in any arithmetic with a symmetric metric, the
    memory holds the pairs documented, in order, with the inner products that belong to them. *)
Theorem C109_memory_partial (A : arith) (G : qspace A) (L : nat) (restart u : bool) (l : list (pass A G)) :
  (forall v w, qmet A G v w = qmet A G w v) -> isometric G l ->
  exists m, passes A G L restart 0 (smem0 A G L u) l = Some m /\ represents G L m (gamma_of G l) (kept G L restart l).
Proof. exact (fun S => @run_represents A G L restart S u l). Qed.
Print Assumptions C109_memory_partial.
(** Without isometry the stored inner products are not those of the stored vectors. *)
Theorem C109_transport_refuted : exists (A : arith) (G : qspace A) L restart u l m,
  passes A G L restart 0 (smem0 A G L u) l = Some m /\ ~ represents G L m (gamma_of G l) (kept G L restart l).
Proof. exact transport_refuted. Qed.
Print Assumptions C109_transport_refuted.
(** A second Run reads pairs that were never written. *)
Theorem C109_second_run_refuted : exists (A : arith) (G : qspace A) L restart u l m,
  passes A G L restart 0 (smem0 A G L u) l = Some m /\
  ymgs A G L (smem0 A G L u) <> None /\ ymgs A G L m <> None /\ ymgs A G L (smem_rerun A G L m) = None.
Proof. exact LSR1Witness.second_run_refuted. Qed.
Print Assumptions C109_second_run_refuted.
Example C109_example : map (stored D1 false) (tl (Drun 1)) = [true; true; false; true] /\
  stored D1 true (Dpass 1 0 1 0 (Some (-1))) = false /\
  length (pairs D1 (Drun 1)) = 3%nat /\ length (kept D1 2 false (Drun 1)) = 2%nat /\ length (kept D1 2 true (Drun 1)) = 1%nat.
Proof. exact run_example. Qed.

(** C110: in exact arithmetic the product with the quasi-Newton matrix is then symmetric, maps the
    newest step to its gradient difference, and is that of the symmetric rank-one recursion. *)
Theorem C110_operator_partial (big eps : R) (G : qspace (R_arith big eps)) (L : nat) (restart u : bool) l solve :
  qn_space G -> isometric G l -> exists m, passes (R_arith big eps) G L restart 0 (smem0 (R_arith big eps) G L u) l = Some m /\
  let cs := kept G L restart l in let gamma := gamma_of G l in
  (solves solve (length cs) (pmgq (R_arith big eps) G L m) -> exists H, (forall v, hv_lsr1 (R_arith big eps) G L solve m v = Some (H v)) /\
   (nonsingular (length cs) (middle G gamma cs) ->
      symmetric G H /\ forall older s y, cs = older ++ [(s, y)] -> maps G H s y) /\
   (sr1_defined G gamma (rev cs) -> nonsingular (length cs) (middle G gamma cs) /\ forall v, same G (H v) (sr1_rec G gamma (rev cs) v))).
Proof. exact (@run_operator big eps G L restart u l solve). Qed.
Print Assumptions C110_operator_partial.
Theorem C110_second_run_refuted : exists (A : arith) (G : qspace A) L restart u l m,
  passes A G L restart 0 (smem0 A G L u) l = Some m /\ forall solve v, hv_lsr1 A G L solve m v <> None /\
  hv_lsr1 A G L solve (smem_rerun A G L m) v = None.
Proof. exact product_refuted. Qed.
Print Assumptions C110_second_run_refuted.
Example C110_example : qn_space R1 /\ isometric R1 Rrun /\
  length (kept R1 2 false Rrun) = 1%nat /\ (forall m, solves solve1 (length (kept R1 2 false Rrun)) (pmgq AR R1 2 m)) /\
  sr1_defined R1 (gamma_of R1 Rrun) (rev (kept R1 2 false Rrun)).
Proof. exact real_example. Qed.
