(** Properties of tangent vector arithmetic, transports and the sphere. *)
From Coq Require Import List Arith Bool Reals Lra Lia QArith Qreals Floats.SpecFloat.
Import ListNotations.
From Verif Require Import Arith MatOpsModel TangentModel TangentSpec TangentProofs TangentLC TangentOps TangentSphere TangentFacts.
Local Close Scope Q_scope.
Local Open Scope R_scope.

Theorem C47_scalar_times_vector : forall (big eps : R) s etax result (m : @state (R_arith big eps)),
  let m' := scalar_times_vector s etax result m in
  (forall i, nth i (m' result : list R) 0 = s * nth i (m etax : list R) 0) /\
  (forall o, o <> result -> m' o = m o).
Proof. exact times_vector. Qed.
Print Assumptions C47_scalar_times_vector.
Theorem C47_result_on_operand_partial : forall (big eps : R) (m : @state (R_arith big eps)) etax xix result,
  length (m etax) = length (m xix) ->
  (forall s, result <> etax \/ etax = xix ->
     let m' := scalar_vector_add_vector s etax xix result m in
     (forall i, nth i (m' result : list R) 0 = s * nth i (m etax : list R) 0 + nth i (m xix : list R) 0) /\
     (forall o, o <> result -> m' o = m o)) /\
  (forall s1 s2, result <> etax ->
     let m' := vector_linear_combination s1 etax s2 xix result m in
     (forall i, nth i (m' result : list R) 0 = s1 * nth i (m etax : list R) 0 + s2 * nth i (m xix : list R) 0) /\
     (forall o, o <> result -> m' o = m o)) /\
  (result <> etax \/ etax = xix ->
     let m' := default_retraction xix etax result m in
     (forall i, nth i (m' result : list R) 0 = nth i (m xix : list R) 0 + nth i (m etax : list R) 0) /\
     (forall o, o <> result -> m' o = m o)).
Proof. exact result_on_operand. Qed.
Print Assumptions C47_result_on_operand_partial.
Example C47_example : exists m : @state (R_arith 1 1), length (m 0%nat) = length (m 1%nat) /\ m 0%nat <> m 1%nat /\ (2 <> 0)%nat.
Proof. exists (two_vectors 1 1 [1; 2] [3; 4]). repeat split; try discriminate. cbn. intro H. injection H. lra. Qed.
Theorem C47_refuted : forall big eps : R,
  (exists s etax xix (m : @state (R_arith big eps)), etax <> xix /\ length (m etax) = length (m xix) /\
    nth 0 (scalar_vector_add_vector s etax xix etax m etax : list R) 0 <>
    s * nth 0 (m etax : list R) 0 + nth 0 (m xix : list R) 0) /\
  (exists s1 etax s2 xix (m : @state (R_arith big eps)), etax <> xix /\ length (m etax) = length (m xix) /\
    nth 0 (vector_linear_combination s1 etax s2 xix etax m etax : list R) 0 <>
    s1 * nth 0 (m etax : list R) 0 + s2 * nth 0 (m xix : list R) 0) /\
  (exists s1 s2 o (m : @state (R_arith big eps)),
    nth 0 (vector_linear_combination s1 o s2 o o m o : list R) 0 <>
    s1 * nth 0 (m o : list R) 0 + s2 * nth 0 (m o : list R) 0).
Proof. exact alias_refuted. Qed.
Print Assumptions C47_refuted.

Theorem C48_locking_condition_transport_partial : forall (big eps : R) d gx gy,
  inner_product d gx -> inner_product d gy -> forall T Tinv eta res,
  isometry d gx gy T -> length eta = d -> eta <> zero d -> length res = d -> res <> zero d ->
  let tr := beta_TReta (A := R_arith big eps) gx gy eta res in
  let lc := lc_transport (A := R_arith big eps) gx gy T eta tr in
  comb 1 tr (T eta) <> zero d ->
  (exists b, 0 < b /\ forall i, nth i (tr : list R) 0 = b * nth i res 0) /\
  lc eta = tr /\
  (forall u v, length u = d -> length v = d -> u <> zero d -> v <> zero d -> gy (lc u) (lc v) = gx u v) /\
  (forall xi, length xi = d -> xi <> zero d -> Tinv (T xi) = xi ->
     lc_inverse (A := R_arith big eps) gx gy T Tinv eta tr (lc xi) = xi).
Proof. exact locking_condition. Qed.
Print Assumptions C48_locking_condition_transport_partial.
Example C48_example : let T := fun v : list R => v in let eta := [1; 0] in let res := [0; 3] in
  inner_product 2 inner /\ isometry 2 inner inner T /\ eta <> zero 2 /\ res <> zero 2 /\
  comb 1 (beta_TReta (A := R_arith 1 1) inner inner eta res) (T eta) <> zero 2.
Proof. exact lc_example. Qed.
(** A zero vector, and a derivative opposite to the transported step, give NaN; with a base
    transport that is no isometry the inverse does not undo the transport. *)
Theorem C48_refuted :
  (forall i, (i < 2)%nat ->
    fbad (nth i (lc_transport (A := D_arith) (@dotp D_arith) (@dotp D_arith) (fun v => v) [d1; d0] [d0; d1] [d0; d0]) d0) = true) /\
  (forall i, (i < 2)%nat ->
    fbad (nth i (lc_transport (A := D_arith) (@dotp D_arith) (@dotp D_arith) (fun v => v) [d1; d0] [fopp (a := D_arith) d1; d0] [d0; d1]) d0) = true) /\
  lc_inverse (A := D_arith) (@dotp D_arith) (@dotp D_arith) halve halve [d1; d0] [d0; d1]
    (lc_transport (A := D_arith) (@dotp D_arith) (@dotp D_arith) halve [d1; d0] [d0; d1] [d1; d0]) <> [d1; d0].
Proof. exact lc_refuted. Qed.
Print Assumptions C48_refuted.

Theorem C49_locking_condition_operators_partial : forall (big eps : R) d T (eta res : list R),
  isometry d inner inner T -> length eta = d -> eta <> zero d -> length res = d -> res <> zero d ->
  let tr := beta_TReta (A := R_arith big eps) inner inner eta res in
  comb 1 tr (T eta) <> zero d ->
  let lc := lc_transport (A := R_arith big eps) inner inner T eta tr in
  let n1 := nu1 (A := R_arith big eps) inner inner T eta in
  let n2 := nu2 (A := R_arith big eps) inner inner T eta tr in
  let t1 := tau (A := R_arith big eps) inner n1 in
  let t2 := tau (A := R_arith big eps) inner n2 in
  (forall B H : nat -> nat -> R, (forall v, length v = d -> times d B (T v) = T (times d H v)) ->
     forall v, length v = d -> v <> zero d -> times d H v <> zero d ->
     times d (lc_TranHInvTran (A := R_arith big eps) n1 n2 t1 t2 B) (lc v) = lc (times d H v)) /\
  (forall ell s (B H : nat -> nat -> R), (s + d <= ell)%nat ->
     (forall v w, length v = d -> length w = ell -> times ell B (replace s (T v) w) = times ell H (replace s v w)) ->
     forall v w, length v = d -> v <> zero d -> length w = ell ->
     times ell (lc_HInvTran (A := R_arith big eps) s n1 n2 t1 t2 B) (replace s (lc v) w) = times ell H (replace s v w)) /\
  (forall ell s (B H : nat -> nat -> R), (s + d <= ell)%nat ->
     (forall w, length w = ell -> times ell B w = replace s (T (block s d (times ell H w))) (times ell H w)) ->
     forall w, length w = ell -> block s d (times ell H w) <> zero d ->
     times ell (lc_TranH (A := R_arith big eps) s n1 n2 t1 t2 B) w = replace s (lc (block s d (times ell H w))) (times ell H w)).
Proof. exact lc_operators. Qed.
Print Assumptions C49_locking_condition_operators_partial.
(** The hypotheses on B hold for B = H when the base transport is the identity of coordinates. *)
Example C49_example : forall ell s d (H : nat -> nat -> R),
  (forall v, length v = d -> times d H v = (fun w : list R => w) (times d H v)) /\
  (forall w, length w = ell -> (s + d <= ell)%nat -> times ell H w = replace s (block s d (times ell H w)) (times ell H w)).
Proof. exact ops_example. Qed.
Theorem C49_sphere_operators : forall (big eps : R) (x y : list R), unit_vec x -> unit_vec y -> length y = length x ->
  comb 1 y x <> zero (length x) -> forall H : nat -> nat -> R,
  exists D, exp_TranHInvTran (A := R_arith big eps) x y H = Some D /\
  forall v, tangent x v ->
  times (length x) D (exp_transport (A := R_arith big eps) x y v) = exp_transport (A := R_arith big eps) x y (times (length x) H v).
Proof. exact TranHInvTran_times. Qed.
Print Assumptions C49_sphere_operators.
Theorem C49_matvec : forall (big eps : R) n (H : nat -> nat -> R) (v : list R), length v = n ->
  matvec (A := R_arith big eps) n H v = times n H v.
Proof. exact matvecE. Qed.
Print Assumptions C49_matvec.
(** The transports by projection and by Cayley transform copy the operator; the sphere's
    HInvTran for a product with other components reads outside the vector x. *)
Theorem C49_refuted : forall big eps : R,
  (exists (x y v : list R) (H : nat -> nat -> R), unit_vec x /\ unit_vec y /\ tangent x v /\
    (forall w, length w = length x -> tangent x (times (length x) H w)) /\
    times (length x) (copy_TranHInvTran (A := R_arith big eps) H) (sphere_projection (A := R_arith big eps) y v) <>
    sphere_projection (A := R_arith big eps) y (times (length x) H v)) /\
  (forall (A : arith) ell start (x y : @vec A) (H : @ope A), (length x < ell)%nat ->
    exp_HInvTran (A := A) ell start x y H = None).
Proof. exact ops_refuted. Qed.
Print Assumptions C49_refuted.

Theorem C50_sphere_exponential_partial : forall (big eps : R) (x eta : list R),
  unit_vec x -> tangent x eta -> eta <> zero (length x) ->
  let y := exp_retraction (A := R_arith big eps) sin cos x eta in
  let n := sqrt (inner eta eta) in
  length y = length x /\ unit_vec y /\ (forall i, nth i (y : list R) 0 = cos n * nth i x 0 + sin n / n * nth i eta 0).
Proof. exact exp_facts. Qed.
Print Assumptions C50_sphere_exponential_partial.
Example C50_example : unit_vec [3/5; 4/5; 0] /\ tangent [3/5; 4/5; 0] [-4; 3; 1] /\ [-4; 3; 1] <> zero 3.
Proof. exact sphere_example. Qed.
(** The zero vector gives 0/0. *)
Theorem C50_refuted : forall fsin fcos : spec_float -> spec_float, fsin d0 = d0 -> fcos d0 = d1 ->
  forall i, (i < 2)%nat -> fbad (nth i (exp_retraction (A := D_arith) fsin fcos [d1; d0] [d0; d0]) d0) = true.
Proof. exact exp_zero_bad. Qed.
Print Assumptions C50_refuted.

Theorem C51_parallel_translation : forall (big eps : R) (x y : list R), unit_vec x -> unit_vec y -> length y = length x ->
  comb 1 y x <> zero (length x) ->
  let T := exp_transport (A := R_arith big eps) x y in
  let Tinv := exp_inverse_transport (A := R_arith big eps) x y in
  (forall v, tangent x v -> tangent y (T v) /\ Tinv (T v) = v) /\
  (forall v w, tangent x v -> tangent x w -> inner (T v) (T w) = inner v w) /\
  (forall w, tangent y w -> tangent x (Tinv w) /\ T (Tinv w) = w).
Proof. exact parallel_facts. Qed.
Print Assumptions C51_parallel_translation.
Example C51_example : unit_vec [3/5; 4/5; 0] /\ unit_vec [0; 0; 1] /\ comb 1 [0; 0; 1] [3/5; 4/5; 0] <> zero 3.
Proof. exact parallel_example. Qed.

Theorem C84_exponential_derivative : forall (big eps : R) (x eta xi : list R),
  unit_vec x -> tangent x eta -> tangent x xi -> eta <> zero (length x) ->
  let y := exp_retraction (A := R_arith big eps) sin cos x eta in
  let d := exp_diff (A := R_arith big eps) sin cos x eta xi in
  (forall i, derivable_pt_lim (fun t => nth i (exp_retraction (A := R_arith big eps) sin cos x (comb t xi eta) : list R) 0) 0 (nth i (d : list R) 0)) /\
  tangent y d /\
  (forall w, length w = length x ->
     tangent x (exp_cotangent (A := R_arith big eps) sin cos x eta w) /\
     inner (exp_cotangent (A := R_arith big eps) sin cos x eta w) xi = inner w d).
Proof. exact derivative_facts. Qed.
Print Assumptions C84_exponential_derivative.

Theorem C85_sphere_locking_condition : forall (big eps : R) (x eta : list R),
  unit_vec x -> tangent x eta -> eta <> zero (length x) ->
  let y := exp_retraction (A := R_arith big eps) sin cos x eta in
  comb 1 y x <> zero (length x) ->
  exp_transport (A := R_arith big eps) x y eta = exp_diff (A := R_arith big eps) sin cos x eta eta /\
  inner (exp_diff (A := R_arith big eps) sin cos x eta eta) (exp_diff (A := R_arith big eps) sin cos x eta eta) = inner eta eta.
Proof. exact locking_facts. Qed.
Print Assumptions C85_sphere_locking_condition.
Example C84_C85_example : let x := [1; 0] in let eta := [0; PI / 2] in
  unit_vec x /\ tangent x eta /\ eta <> zero 2 /\
  comb 1 (exp_retraction (A := R_arith 1 1) sin cos x eta) x <> zero 2.
Proof. exact locking_example. Qed.
