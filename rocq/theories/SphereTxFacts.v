(** Cases for the theorems about the unit sphere of a tangent space. *)
From Coq Require Import List Arith Bool Reals Lra Lia QArith Qreals Floats.SpecFloat.
Import ListNotations.
From Verif Require Import Arith MatOpsModel MatOpsReal TangentModel TangentSpec TangentProofs TangentSphere TangentFacts SphereTxModel SphereTxSpec SphereTxProofs SphereTxRQ.
Local Close Scope Q_scope.
Local Open Scope R_scope.

(** The plane of the first two coordinates in three dimensions, and diag (2, 5) on it. *)
Definition plane (v : list R) : list R := [nth 0 v 0; nth 1 v 0; 0].
Definition diag25 (v : list R) : list R := [2 * nth 0 v 0; 5 * nth 1 v 0; 0].
Ltac lst := match goal with |- @eq _ ?a ?b => change (@eq (list R) a b) end; repeat (apply (f_equal2 (@cons R)); [ring|]); reflexivity.
Lemma three (v : list R) : length v = 3%nat -> exists a b c, v = [a; b; c].
Proof. destruct v as [|a [|b [|c [|]]]]; try discriminate. eauto. Qed.
Lemma plane_space : tangent_space 3 inner plane.
Proof.
  split.
  - apply inner_is_ip.
  - reflexivity.
  - intros a u v Lu Lv. destruct (three u Lu) as (u0 & u1 & u2 & ->), (three v Lv) as (v0 & v1 & v2 & ->). unfold plane. cbn [nth comb]. lst.
  - reflexivity.
  - intros u v Lu Lv. destruct (three u Lu) as (u0 & u1 & u2 & ->), (three v Lv) as (v0 & v1 & v2 & ->). cbn. lra.
Qed.
Lemma plane_in v : in_space 3 plane v -> exists a b, v = [a; b; 0].
Proof. intros [L E]. destruct (three v L) as (a & b & c & ->). cbn in E. injection E as ->. eauto. Qed.
Lemma diag_operator : operator 3 inner plane diag25.
Proof.
  split.
  - split; reflexivity.
  - intros a u v Hu Hv. destruct (plane_in u Hu) as (u0 & u1 & ->), (plane_in v Hv) as (v0 & v1 & ->).
    unfold diag25. cbn [nth comb]. lst.
  - intros u v Hu Hv. destruct (plane_in u Hu) as (u0 & u1 & ->), (plane_in v Hv) as (v0 & v1 & ->). cbn. ring.
Qed.
Lemma e1_sphere : on_sphere 3 inner plane [1; 0; 0].
Proof. repeat split; cbn; lra. Qed.
Lemma e2_sphere : on_sphere 3 inner plane [0; 1; 0].
Proof. repeat split; cbn; lra. Qed.
Lemma space_example : tangent_space 3 inner plane /\ on_sphere 3 inner plane [3/5; 4/5; 0] /\
  tangent_at 3 inner plane [3/5; 4/5; 0] [-4; 3; 0] /\ plane [1; 2; 3] <> zero 3.
Proof.
  split; [apply plane_space|]. repeat split; cbn; try lra. unfold plane. cbn. intro E. injection E. lra.
Qed.
Lemma transport_example : on_sphere 3 inner plane [1; 0; 0] /\ on_sphere 3 inner plane [0; 1; 0] /\
  [0; 1; 0] <> opposite [1; 0; 0] /\ tangent_at 3 inner plane [1; 0; 0] [0; PI / 2; 0] /\
  1 / 2 < sqrt (inner [0; PI / 2; 0] [0; PI / 2; 0]) /\
  tx_retraction (A := R_arith 1 (1/2)) sin cos inner [1; 0; 0] [0; PI / 2; 0] <> opposite [1; 0; 0].
Proof.
  split; [apply e1_sphere|]. split; [apply e2_sphere|]. split.
  { unfold opposite. cbn. intro E. injection E. lra. }
  assert (T : tangent_at 3 inner plane [1; 0; 0] [0; PI / 2; 0]) by (repeat split; cbn; lra).
  split; auto. pose proof PI2_1 as P1.
  assert (N : sqrt (inner [0; PI / 2; 0] [0; PI / 2; 0]) = PI / 2).
  { replace (inner _ _) with (PI / 2 * (PI / 2)) by (cbn; ring). apply sqrt_square. lra. }
  split; [lra|]. rewrite (retr_long 1 (1/2) _ _ _ plane_space _ _ e1_sphere T) by lra.
  unfold end_point. rewrite N, cos_PI2. unfold opposite. cbn. intro E. injection E. lra.
Qed.

Lemma spectrum_example : let A := R_arith 1 1 in let x := [1; 0; 0] in let z := [0; 1; 0] in
  tangent_space 3 inner plane /\ operator 3 inner plane diag25 /\
  on_sphere 3 inner plane x /\ on_sphere 3 inner plane z /\
  rq_grad (A := A) inner plane diag25 true x = zero 3 /\
  (forall eta, tangent_at 3 inner plane x eta -> 0 <= inner (rq_hess (A := A) inner plane diag25 true x eta) eta) /\
  rq_grad (A := A) inner plane diag25 false z = zero 3 /\
  (forall eta, tangent_at 3 inner plane z eta -> 0 <= inner (rq_hess (A := A) inner plane diag25 false z eta) eta) /\
  eig_values (A := A) inner diag25 x z = (2, 5).
Proof.
  cbv zeta. split; [apply plane_space|]. split; [apply diag_operator|]. split; [apply e1_sphere|]. split; [apply e2_sphere|].
  split; [|split; [|split; [|split]]].
  - rewrite (gradE _ _ _ _ _ plane_space _ diag_operator _ _ e1_sphere), fE. unfold sg. cbn. lst.
  - intros eta He. destruct (hess_facts 1 1 _ _ _ plane_space _ diag_operator true _ eta e1_sphere He) as [_ ->]; auto.
    destruct He as [Hi E]. destruct (plane_in _ Hi) as (a & b & ->). rewrite fE. unfold sg. cbn in E |- *.
    assert (a = 0) as -> by lra. pose proof (Rle_0_sqr b). unfold Rsqr in *. lra.
  - rewrite (gradE _ _ _ _ _ plane_space _ diag_operator _ _ e2_sphere), fE. unfold sg. cbn. lst.
  - intros eta He. destruct (hess_facts 1 1 _ _ _ plane_space _ diag_operator false _ eta e2_sphere He) as [_ ->]; auto.
    destruct He as [Hi E]. destruct (plane_in _ Hi) as (a & b & ->). rewrite fE. unfold sg. cbn in E |- *.
    assert (b = 0) as -> by lra. pose proof (Rle_0_sqr a). unfold Rsqr in *. lra.
  - unfold eig_values. rewrite !fE. unfold sg. cbn. f_equal; ring.
Qed.

(** Short steps do not move, so the curve t -> R (t eta) has velocity 0 at t = 0. *)
Lemma no_velocity (big epsv : R) : 0 < epsv <= 1 -> exists d g P x eta,
  tangent_space d g P /\ on_sphere d g P x /\ tangent_at d g P x eta /\ eta <> zero d /\
  ~ (forall i, derivable_pt_lim (fun t => nth i (tx_retraction (A := R_arith big epsv) sin cos g x (comb t eta (zero d)) : list R) 0) 0 (nth i eta 0)).
Proof.
  intros He. exists 3%nat, inner, plane, [1; 0; 0], [0; 1; 0].
  assert (T : tangent_at 3 inner plane [1; 0; 0] [0; 1; 0]) by (repeat split; cbn; lra).
  split; [apply plane_space|]. split; [apply e1_sphere|]. split; auto. split; [cbn; intro E; injection E; lra|].
  intros D. pose proof (flat big epsv _ _ _ plane_space _ _ e1_sphere T He 1%nat) as F.
  pose proof (uniqueness_limite _ _ _ _ F (D 1%nat)) as E. cbn in E. lra.
Qed.
Definition dm1 : spec_float := fopp (a := D_arith) d1.
Lemma antipodal : forall i, (i < 2)%nat ->
  fbad (nth i (tx_transport (A := D_arith) (@dotp D_arith) [d1; d0] [d0; d0] [dm1; d0] [d0; d1]) d0) = true.
Proof. intros [|[|i]] Hi; [vm_compute; reflexivity|vm_compute; reflexivity|lia]. Qed.
