(** Aliased results, and inputs on which the claims about transports fail. *)
From Coq Require Import List Arith Bool Reals Lra Lia QArith Qreals Floats.SpecFloat.
Import ListNotations.
From Verif Require Import Arith MatOpsModel MatOpsReal TangentModel TangentSpec TangentProofs TangentLC TangentOps TangentSphere.
Local Close Scope Q_scope.
Local Open Scope R_scope.

Section alias.
Variables big epsv : R.
Notation A := (R_arith big epsv).
Lemma same r (v : list R) (m : @state A) : assign (A := A) r v m r = v.
Proof. unfold assign. now rewrite Nat.eqb_refl. Qed.
Lemma other r o (v : list R) (m : @state A) : o <> r -> assign (A := A) r v m o = m o.
Proof. intros. unfold assign. apply Nat.eqb_neq in H. now rewrite H. Qed.
Lemma times_vector s etax result (m : @state A) :
  let m' := scalar_times_vector (A := A) s etax result m in
  (forall i, nth i (m' result : list R) 0 = s * nth i (m etax : list R) 0) /\
  (forall o, o <> result -> m' o = m o).
Proof.
  cbv zeta. unfold scalar_times_vector. split; intros.
  - rewrite !same. apply nth_scal.
  - now rewrite !other.
Qed.
Lemma add_vector s etax xix result (m : @state A) : (result <> etax \/ etax = xix) ->
  length (m etax) = length (m xix) ->
  let m' := scalar_vector_add_vector (A := A) s etax xix result m in
  (forall i, nth i (m' result : list R) 0 = s * nth i (m etax : list R) 0 + nth i (m xix : list R) 0) /\
  (forall o, o <> result -> m' o = m o).
Proof.
  intros H L. cbv zeta. unfold scalar_vector_add_vector. split; intros.
  - rewrite !same, axpyE. assert (E : assign (A := A) result (m xix) m etax = m etax).
    { destruct (Nat.eq_dec etax result) as [->|N]; [|now apply other]. destruct H as [H| ->]; [now elim H|apply same]. }
    rewrite E. now apply nth_comb.
  - now rewrite !other.
Qed.
Lemma linear_combination s1 etax s2 xix result (m : @state A) : result <> etax ->
  length (m etax) = length (m xix) ->
  let m' := vector_linear_combination (A := A) s1 etax s2 xix result m in
  (forall i, nth i (m' result : list R) 0 = s1 * nth i (m etax : list R) 0 + s2 * nth i (m xix : list R) 0) /\
  (forall o, o <> result -> m' o = m o).
Proof.
  intros H L. cbv zeta. unfold vector_linear_combination. split; intros.
  - rewrite !same, axpyE. rewrite !other by auto. rewrite nth_comb.
    + f_equal. apply nth_scal.
    + etransitivity; [exact L|]. symmetry. apply length_scal.
  - now rewrite !other.
Qed.
Lemma retraction_alias x etax result (m : @state A) : (result <> etax \/ etax = x) -> length (m etax) = length (m x) ->
  let m' := default_retraction (A := A) x etax result m in
  (forall i, nth i (m' result : list R) 0 = nth i (m x : list R) 0 + nth i (m etax : list R) 0) /\
  (forall o, o <> result -> m' o = m o).
Proof.
  intros H L. destruct (add_vector 1 etax x result m H L) as [H1 H2]. cbv zeta.
  assert (E : forall o, default_retraction (A := A) x etax result m o = scalar_vector_add_vector (A := A) 1 etax x result m o).
  { intros o. unfold default_retraction, scalar_vector_add_vector. rewrite litE, q1. reflexivity. }
  split; intros.
  - rewrite E, H1. lra.
  - rewrite E. auto.
Qed.
Definition two_vectors (a b : list R) : @state A := fun o => if Nat.eqb o 0 then a else b.
Lemma add_vector_bad : exists s etax xix (m : @state A), etax <> xix /\ length (m etax) = length (m xix) /\
  nth 0 (scalar_vector_add_vector (A := A) s etax xix etax m etax : list R) 0 <>
  s * nth 0 (m etax : list R) 0 + nth 0 (m xix : list R) 0.
Proof.
  exists 1, 0%nat, 1%nat, (two_vectors [1] [0]). split; [lia|]. split; [reflexivity|].
  unfold scalar_vector_add_vector. rewrite !same, axpyE. cbn. lra.
Qed.
Lemma linear_combination_bad : exists s1 etax s2 xix (m : @state A), etax <> xix /\ length (m etax) = length (m xix) /\
  nth 0 (vector_linear_combination (A := A) s1 etax s2 xix etax m etax : list R) 0 <>
  s1 * nth 0 (m etax : list R) 0 + s2 * nth 0 (m xix : list R) 0.
Proof.
  exists 1, 0%nat, 1, 1%nat, (two_vectors [1] [0]). split; [lia|]. split; [reflexivity|].
  unfold vector_linear_combination. rewrite !same, axpyE. cbn. lra.
Qed.
(** also when both operands are the result *)
Lemma linear_combination_same : exists s1 s2 o (m : @state A),
  nth 0 (vector_linear_combination (A := A) s1 o s2 o o m o : list R) 0 <>
  s1 * nth 0 (m o : list R) 0 + s2 * nth 0 (m o : list R) 0.
Proof.
  exists 1, 0, 0%nat, (two_vectors [1] [0]).
  unfold vector_linear_combination. rewrite !same, axpyE. cbn. lra.
Qed.

(** Operators copied instead of conjugated: the transport by projection. *)
Definition py : list R := [3/5; 4/5; 0].
Definition px : list R := [1; 0; 0].
Definition pH : nat -> nat -> R := fun i j => match i, j with 1%nat, 2%nat | 2%nat, 1%nat => 1 | _, _ => 0 end.
Lemma copy_bad : exists (x y v : list R) (H : @ope A), unit_vec x /\ unit_vec y /\ tangent x v /\
  (forall w, length w = length x -> tangent x (times (length x) H w)) /\
  times (length x) (copy_TranHInvTran (A := A) H) (sphere_projection (A := A) y v) <>
  sphere_projection (A := A) y (times (length x) H v).
Proof.
  exists px, py, [0; 1; 0], pH.
  repeat split; try (unfold unit_vec, px, py; cbn; lra).
  unfold copy_TranHInvTran. rewrite !projection_eq by reflexivity. intros E.
    apply (f_equal (fun l => nth 2 l 0)) in E. cbn in E. unfold entry_sum in E. cbn in E. lra.
Qed.
Lemma copy_good n (H : @ope A) v : times n (copy_TranHInvTran (A := A) H) v = times n H v.
Proof. reflexivity. Qed.
End alias.

(** Any arithmetic: the operator of a product is larger than the sphere's vectors. *)
Lemma HInvTran_outside (A : arith) ell start (x y : @vec A) (H : @ope A) : (length x < ell)%nat ->
  exp_HInvTran (A := A) ell start x y H = None.
Proof.
  intros L. unfold exp_HInvTran, ger. apply Nat.ltb_lt in L. now rewrite L, orb_true_r.
Qed.
Lemma TranH_inside (A : arith) ell start (x y : @vec A) (H : @ope A) : length y = length x ->
  exp_TranH (A := A) ell start x y H <> None.
Proof.
  intros L. unfold exp_TranH, ger. rewrite map_length, seq_length. rewrite Nat.ltb_irrefl, orb_false_r.
  replace (length (xpy x y)) with (length x).
  - now rewrite Nat.ltb_irrefl.
  - unfold xpy, axpy. clear H. revert y L. induction x as [|a x IH]; intros [|b y] L; cbn in *; auto; try discriminate.
Qed.

(** Binary64. *)
Notation D := D_arith.
Definition d0 : spec_float := @fq D 0.
Definition d1 : spec_float := @fq D 1.
Lemma exp_zero_bad : forall fsin fcos : spec_float -> spec_float, fsin d0 = d0 -> fcos d0 = d1 ->
  forall i, (i < 2)%nat -> fbad (nth i (exp_retraction (A := D) fsin fcos [d1; d0] [d0; d0]) d0) = true.
Proof.
  intros fsin fcos Hs Hc i Hi. unfold exp_retraction.
  replace (@fsqrt D (@dotp D [d0; d0] [d0; d0])) with d0 by (vm_compute; reflexivity).
  cbv zeta. change (F D) with spec_float in *. rewrite Hs, Hc.
  destruct i as [|[|i]]; [vm_compute; reflexivity|vm_compute; reflexivity|lia].
Qed.
Lemma lc_zero_bad : forall i, (i < 2)%nat ->
  fbad (nth i (lc_transport (A := D) (@dotp D) (@dotp D) (fun v => v) [d1; d0] [d0; d1] [d0; d0]) d0) = true.
Proof. intros [|[|i]] Hi; [vm_compute; reflexivity|vm_compute; reflexivity|lia]. Qed.
Lemma lc_same_direction_bad : forall i, (i < 2)%nat ->
  fbad (nth i (lc_transport (A := D) (@dotp D) (@dotp D) (fun v => v) [d1; d0] [fopp (a := D) d1; d0] [d0; d1]) d0) = true.
Proof. intros [|[|i]] Hi; [vm_compute; reflexivity|vm_compute; reflexivity|lia]. Qed.
(** A base transport that halves vectors, and its transpose. *)
Definition halve (v : list spec_float) : list spec_float := map (@fmul D (@fq D (1#2))) v.
Lemma lc_inverse_bad :
  lc_inverse (A := D) (@dotp D) (@dotp D) halve halve [d1; d0] [d0; d1]
    (lc_transport (A := D) (@dotp D) (@dotp D) halve [d1; d0] [d0; d1] [d1; d0]) <> [d1; d0].
Proof. vm_compute. discriminate. Qed.

(** The statements of TangentProps.v put together. *)
Lemma result_on_operand (big eps : R) (m : @state (R_arith big eps)) etax xix result :
  length (m etax) = length (m xix) ->
  (forall s, result <> etax \/ etax = xix ->
     let m' := scalar_vector_add_vector s etax xix result m in
     (forall i, nth i (m' result : list R) 0 = s * nth i (m etax : list R) 0 + nth i (m xix : list R) 0) /\
     (forall o, o <> result -> m' o = m o)) /\
  (forall s1 s2, result <> etax ->
     let m' := vector_linear_combination s1 etax s2 xix result m in
     (forall i, nth i (m' result : list R) 0 = s1 * nth i (m etax : list R) 0 + s2 * nth i (m xix : list R) 0) /\
     (forall o, o <> result -> m' o = m o)) /\
  (result <> etax \/ etax = xix ->
     let m' := default_retraction xix etax result m in
     (forall i, nth i (m' result : list R) 0 = nth i (m xix : list R) 0 + nth i (m etax : list R) 0) /\
     (forall o, o <> result -> m' o = m o)).
Proof.
  intros L. split; [|split].
  - intros. now apply add_vector.
  - intros. now apply linear_combination.
  - intros. now apply retraction_alias.
Qed.
Lemma alias_refuted (big eps : R) :
  (exists s etax xix (m : @state (R_arith big eps)), etax <> xix /\ length (m etax) = length (m xix) /\
    nth 0 (scalar_vector_add_vector s etax xix etax m etax : list R) 0 <>
    s * nth 0 (m etax : list R) 0 + nth 0 (m xix : list R) 0) /\
  (exists s1 etax s2 xix (m : @state (R_arith big eps)), etax <> xix /\ length (m etax) = length (m xix) /\
    nth 0 (vector_linear_combination s1 etax s2 xix etax m etax : list R) 0 <>
    s1 * nth 0 (m etax : list R) 0 + s2 * nth 0 (m xix : list R) 0) /\
  (exists s1 s2 o (m : @state (R_arith big eps)),
    nth 0 (vector_linear_combination s1 o s2 o o m o : list R) 0 <>
    s1 * nth 0 (m o : list R) 0 + s2 * nth 0 (m o : list R) 0).
Proof. exact (conj (add_vector_bad big eps) (conj (linear_combination_bad big eps) (linear_combination_same big eps))). Qed.
Lemma lc_refuted :
  (forall i, (i < 2)%nat ->
    fbad (nth i (lc_transport (A := D) (@dotp D) (@dotp D) (fun v => v) [d1; d0] [d0; d1] [d0; d0]) d0) = true) /\
  (forall i, (i < 2)%nat ->
    fbad (nth i (lc_transport (A := D) (@dotp D) (@dotp D) (fun v => v) [d1; d0] [fopp (a := D) d1; d0] [d0; d1]) d0) = true) /\
  lc_inverse (A := D) (@dotp D) (@dotp D) halve halve [d1; d0] [d0; d1]
    (lc_transport (A := D) (@dotp D) (@dotp D) halve [d1; d0] [d0; d1] [d1; d0]) <> [d1; d0].
Proof. exact (conj lc_zero_bad (conj lc_same_direction_bad lc_inverse_bad)). Qed.
Lemma lc_example : let T := fun v : list R => v in let eta := [1; 0] in let res := [0; 3] in
  inner_product 2 inner /\ isometry 2 inner inner T /\ eta <> zero 2 /\ res <> zero 2 /\
  comb 1 (beta_TReta (A := R_arith 1 1) inner inner eta res) (T eta) <> zero 2.
Proof.
  cbv zeta. split; [apply inner_is_ip|]. split; [now intros u v Hu Hv|].
  repeat split; intros E; apply (f_equal (fun l => (nth 0 l 0, nth 1 l 0))) in E; injection E; cbn; lra.
Qed.
Lemma ops_example ell s d (H : nat -> nat -> R) :
  (forall v, length v = d -> times d H v = (fun w : list R => w) (times d H v)) /\
  (forall w, length w = ell -> (s + d <= ell)%nat -> times ell H w = replace s (block s d (times ell H w)) (times ell H w)).
Proof.
  split; auto. intros w Hw Hs. set (u := times ell H w). assert (Lu : length u = ell) by apply length_times.
  assert (Lb : length (block s d u) = d) by (apply length_block; lia).
  apply vec_eq; [rewrite length_replace; lia|]. intros i Hi. rewrite nth_replace by lia. rewrite Lb.
  destruct (inb s d i) eqn:E; auto. apply inb_spec in E. rewrite nth_block by lia. f_equal. lia.
Qed.
Lemma ops_refuted (big eps : R) :
  (exists (x y v : list R) (H : nat -> nat -> R), unit_vec x /\ unit_vec y /\ tangent x v /\
    (forall w, length w = length x -> tangent x (times (length x) H w)) /\
    times (length x) (copy_TranHInvTran (A := R_arith big eps) H) (sphere_projection (A := R_arith big eps) y v) <>
    sphere_projection (A := R_arith big eps) y (times (length x) H v)) /\
  (forall (A : arith) ell start (x y : @vec A) (H : @ope A), (length x < ell)%nat ->
    exp_HInvTran (A := A) ell start x y H = None).
Proof. exact (conj (copy_bad big eps) HInvTran_outside). Qed.
Lemma exp_facts (big eps : R) (x eta : list R) :
  unit_vec x -> tangent x eta -> eta <> zero (length x) ->
  let y := exp_retraction (A := R_arith big eps) sin cos x eta in
  let n := sqrt (inner eta eta) in
  length y = length x /\ unit_vec y /\ (forall i, nth i (y : list R) 0 = cos n * nth i x 0 + sin n / n * nth i eta 0).
Proof.
  intros Hx He H0. cbv zeta. split; [now apply exp_length|]. split; [now apply exp_unit|].
  intros i. rewrite exp_eq by auto. destruct He. repeat (rewrite nth_comb by vlen). rewrite nth_zero. lra.
Qed.
Lemma sphere_example : unit_vec [3/5; 4/5; 0] /\ tangent [3/5; 4/5; 0] [-4; 3; 1] /\ [-4; 3; 1] <> zero 3.
Proof.
  unfold unit_vec, tangent. cbn. repeat split; try lra. intros E. injection E. lra.
Qed.
Lemma parallel_facts (big eps : R) (x y : list R) : unit_vec x -> unit_vec y -> length y = length x ->
  comb 1 y x <> zero (length x) ->
  let T := exp_transport (A := R_arith big eps) x y in
  let Tinv := exp_inverse_transport (A := R_arith big eps) x y in
  (forall v, tangent x v -> tangent y (T v) /\ Tinv (T v) = v) /\
  (forall v w, tangent x v -> tangent x w -> inner (T v) (T w) = inner v w) /\
  (forall w, tangent y w -> tangent x (Tinv w) /\ T (Tinv w) = w).
Proof.
  intros Hx Hy L H. cbv zeta. split; [|split]; intros.
  - split; [now apply transport_tangent|now apply inverse_transport].
  - now apply transport_isometry.
  - now apply transport_inverse.
Qed.
Lemma parallel_example : unit_vec [3/5; 4/5; 0] /\ unit_vec [0; 0; 1] /\ comb 1 [0; 0; 1] [3/5; 4/5; 0] <> zero 3.
Proof.
  unfold unit_vec. cbn. repeat split; try lra. intros E. injection E. lra.
Qed.
Lemma derivative_facts (big eps : R) (x eta xi : list R) :
  unit_vec x -> tangent x eta -> tangent x xi -> eta <> zero (length x) ->
  let y := exp_retraction (A := R_arith big eps) sin cos x eta in
  let d := exp_diff (A := R_arith big eps) sin cos x eta xi in
  (forall i, derivable_pt_lim (fun t => nth i (exp_retraction (A := R_arith big eps) sin cos x (comb t xi eta) : list R) 0) 0 (nth i (d : list R) 0)) /\
  tangent y d /\
  (forall w, length w = length x ->
     tangent x (exp_cotangent (A := R_arith big eps) sin cos x eta w) /\
     inner (exp_cotangent (A := R_arith big eps) sin cos x eta w) xi = inner w d).
Proof.
  intros. cbv zeta. split; [|split]; intros.
  - now apply exp_derivative.
  - now apply diff_tangent.
  - now apply cotangent_adjoint.
Qed.
Lemma locking_facts (big eps : R) (x eta : list R) :
  unit_vec x -> tangent x eta -> eta <> zero (length x) ->
  let y := exp_retraction (A := R_arith big eps) sin cos x eta in
  comb 1 y x <> zero (length x) ->
  exp_transport (A := R_arith big eps) x y eta = exp_diff (A := R_arith big eps) sin cos x eta eta /\
  inner (exp_diff (A := R_arith big eps) sin cos x eta eta) (exp_diff (A := R_arith big eps) sin cos x eta eta) = inner eta eta.
Proof.
  intros Hx He H0 y Hu. pose proof (locking big eps x eta Hx He H0 Hu) as E. fold y in E. split; [now symmetry|].
  rewrite E. apply transport_isometry; auto; [now apply exp_unit|now apply exp_length].
Qed.
Lemma locking_example : let x := [1; 0] in let eta := [0; PI / 2] in
  unit_vec x /\ tangent x eta /\ eta <> zero 2 /\
  comb 1 (exp_retraction (A := R_arith 1 1) sin cos x eta) x <> zero 2.
Proof.
  pose proof PI_RGT_0 as P.
  assert (E : unit_vec [1; 0] /\ tangent [1; 0] [0; PI / 2] /\ [0; PI / 2] <> zero 2).
  { unfold unit_vec, tangent. cbn. repeat split; try lra. intros E. injection E. lra. }
  cbv zeta. destruct E as (E1 & E2 & E3). repeat split; try apply E2; auto.
  rewrite exp_eq by auto. intros E. apply (f_equal (fun l => nth 1 l 0)) in E. cbn -[sqrt PI sin] in E.
  replace (0 * 0 + (PI / 2 * (PI / 2) + 0)) with (PI / 2 * (PI / 2)) in E by lra.
  rewrite sqrt_square, sin_PI2 in E by lra.
  replace (1 * (cos (PI / 2) * 0 + (1 / (PI / 2) * (PI / 2) + 0)) + 0) with 1 in E by (field; lra). lra.
Qed.
