(** Quasi-Newton updates: concrete cases and counterexamples. *)
From Coq Require Import QArith Reals Qreals List Bool Lra Lia SpecFloat.
From Verif Require Import Arith QuasiNewtonModel QuasiNewtonSpec QNMemProofs QNAlgebra.
Import ListNotations.

(** ** Binary64, one dimension *)
Definition D1 : qspace D_arith :=
  Build_qspace D_arith (F D_arith) (fun a v w => fadd (fmul a v) w) fmul
    (fun a v b w => fadd (fmul a v) (fmul b w)) fmul fmul.
Definition d (q : Q) : F D_arith := @fq D_arith q.
Definition Dp (n : nat) (r : bool) : qparams D_arith := Build_qparams D_arith (d (1#10000)) (fun v => v) n r false.
(** Transport multiplies by t; step s, gradient difference y. *)
Definition Dstep (t s g1 g2 : Q) : step D_arith D1 :=
  mkStep D_arith D1 (fmul (d t)) (d s) (d g1) (d g2) (d 1) (fabs (d g2)) (d 8) (fun v => v).
Definition Dhist : list (step D_arith D1) :=
  [Dstep 1 1 (-8) (-6); Dstep (-1) 1 (-6) 2; Dstep 1 1 2 1; Dstep 1 2 1 4; Dstep (-1) 1 4 (-8)].

(** Five iterations, the third is not admitted; memory of length 2, and of length 3 with
    restarts. *)
Definition shape (n : nat) (r : bool) (l b : nat) : bool :=
  match lupdates D_arith D1 (Dp n r) (mem0 D_arith D1 (Dp n r)) Dhist with
  | Some m => Nat.eqb (mlen D_arith D1 m) l && Nat.eqb (mbeg D_arith D1 m) b
  | None => false
  end.
Definition mem_example : Prop :=
  map (admitted D1 (Dp 2 false)) Dhist = [true; true; false; true; true] /\
  shape 2 false 2 0 = true /\ shape 3 false 3 1 = true /\ shape 3 true 1 0 = true.
Lemma mem_example_ok : mem_example.
Proof. repeat split; vm_compute; reflexivity. Qed.

(** ** A second run of LRBFGS *)
Lemma rerun_none {A} (G : qspace A) (p : qparams A) P m v : (0 < mlen A G m)%nat ->
  hv A G p P (mem_rerun A G p m) v = None.
Proof.
  intros H. unfold hv. cbn [mem_rerun mlen]. destruct (mlen A G m) as [|k]; [lia|]. cbn [loop1].
  assert (E : forall i, slot A G (mem_rerun A G p m) i = None).
  { intros i. unfold slot, mem_rerun, rd. cbn. generalize (LengthSY A p). intros n.
    destruct (nth_error (repeat None n) i) as [[v0|]|] eqn:E; try reflexivity.
    apply nth_error_In, repeat_spec in E. discriminate. }
  rewrite E. reflexivity.
Qed.

Definition after_one : bool :=
  let p := Dp 4 false in
  match lupdates D_arith D1 p (mem0 D_arith D1 p) [Dstep 1 1 (-8) (-6)] with
  | Some m => Nat.ltb 0 (mlen D_arith D1 m) && match hv D_arith D1 p (fun v => v) m (d 1) with Some _ => true | None => false end
  | None => false
  end.
Lemma second_run_refuted : exists (A : arith) (G : qspace A) (p : qparams A) P l m v,
  lupdates A G p (mem0 A G p) l = Some m /\
  hv A G p P (mem0 A G p) v <> None /\ hv A G p P m v <> None /\
  hv A G p P (mem_rerun A G p m) v = None.
Proof.
  assert (H : after_one = true) by (vm_compute; reflexivity).
  exists D_arith, D1, (Dp 4 false), (fun v => v), [Dstep 1 1 (-8) (-6)]. unfold after_one in H.
  destruct (lupdates _ _ _ _ _) as [m|]; [|discriminate]. apply andb_true_iff in H. destruct H as [H1 H2].
  exists m, (d 1). split; [reflexivity|]. split; [discriminate|]. split.
  - intros E. rewrite E in H2. discriminate.
  - apply rerun_none. now apply Nat.ltb_lt.
Qed.

(** One iteration with negative curvature: nothing is stored. *)
Definition rerun_fresh_example : Prop :=
  map (admitted D1 (Dp 2 false)) [Dstep 1 1 (-8) (-9)] = [false].
Lemma rerun_fresh_example_ok : rerun_fresh_example.
Proof. vm_compute. reflexivity. Qed.

(** ** SR1 *)
(** Two iterations with gradients -8, -6, -3 at steps of length 1: the second update is
    performed and the new operator does not map the step to the gradient difference. *)
Definition sr1_first : list (F D_arith * step D_arith D1 * option (ope D_arith D1 -> ope D_arith D1)) :=
  [(d (-6), Dstep 1 1 (-8) (-6), Some (fun B => B))].
Lemma sr1_second_refuted : exists l e g,
  length l = 1%nat /\
  let B := sr1_run D_arith D1 0 (scaled_id D_arith D1 (d 1)) l in
  let r := sr1 D_arith D1 true B (B (seta D_arith D1 e)) g e in
  feq (B (d 1)) (d 2) = true /\
  snd r = true /\ feq (fst r (seta D_arith D1 e)) (fsub g (sgf1 D_arith D1 e)) = false.
Proof.
  exists sr1_first, (Dstep 1 1 (-6) (-3)), (d (-3)). vm_compute. repeat split; reflexivity.
Qed.

(** One iteration on x^2/2 from -1 with B = 1 and a step of length 1 - 2^-11: the operator
    after the update maps the step to NaN. *)
Lemma sr1_nan_refuted : exists e g,
  let B := scaled_id D_arith D1 (d 1) in
  let r := sr1 D_arith D1 false B (B (seta D_arith D1 e)) g e in
  feq (fst r (seta D_arith D1 e)) (fsub g (sgf1 D_arith D1 e)) = false /\ fbad (fst r (seta D_arith D1 e)) = true.
Proof.
  exists (mkStep D_arith D1 (fun v => v) (d (2047#2048)) (d (-1)) (d (-1#2048)) (d 1) (d (1#2048)) (d 1) (fun v => v)), (d (-1#2048)).
  vm_compute. split; reflexivity.
Qed.

(** ** Reals, two dimensions *)
Section r2.
Local Open Scope R_scope.
Context (big eps : R).
Notation A := (R_arith big eps).
Definition V2 : Type := R * R.
Definition R2 : qspace A :=
  Build_qspace A V2
    (fun a v w => (a * fst v + fst w, a * snd v + snd w)) (fun a v => (a * fst v, a * snd v))
    (fun a v b w => (a * fst v + b * fst w, a * snd v + b * snd w))
    (fun v w => fst v * fst w + snd v * snd w) (fun v w => fst v * fst w + snd v * snd w).
Lemma R2_space : qn_space R2.
Proof.
  split; unfold ip; cbn; intros; try ring. pose proof (Rle_0_sqr (fst v)). pose proof (Rle_0_sqr (snd v)). unfold Rsqr in *. lra.
Qed.
Definition rot (v : V2) : V2 := (- snd v, fst v).
Definition rot_inv (v : V2) : V2 := (snd v, - fst v).
Definition Rp : qparams A := Build_qparams A (1/10000) (fun v => v) 2 false true.
(** A quarter turn, step (1,0), gradients (-8,0) and (0,-6), preconditioner 2. *)
Definition Rstep : step A R2 :=
  mkStep A R2 rot (1, 0) (-8, 0) (0, -6) 1 6 8 (fun v => (2 * fst v, 2 * snd v)).
Definition Rconj : (V2 -> V2) -> V2 -> V2 := fun H v => rot (H (rot_inv v)).

Lemma Rconj_ok : conjugation R2 Rconj.
Proof. exists rot, rot_inv. split; [|reflexivity]. split; unfold ip, rot, rot_inv; cbn; intros; ring. Qed.
Lemma Rthreshold : threshold R2 Rp Rstep.
Proof. unfold threshold. cbn. lra. Qed.
Lemma Rgood : good R2 Rp Rstep.
Proof.
  split; [unfold ip, rot; cbn; intros; ring|]. split; [exact Rthreshold|]. unfold ip. split; [|split].
  - intros v w. unfold ip. cbn. ring.
  - intros v. unfold ip. cbn. pose proof (Rle_0_sqr (fst v)). pose proof (Rle_0_sqr (snd v)). unfold Rsqr in *. lra.
  - intros v. unfold ip. cbn. intros H. lra.
Qed.
Lemma Rcurv : 0 < eps < 1 -> curvature_ok A Rp 6 8 (qmet A R2 (pair_s A R2 Rstep) (pair_y A R2 Rstep)) (qmet A R2 (pair_s A R2 Rstep) (pair_s A R2 Rstep)) = true.
Proof.
  intros He.
  assert (Es : pair_s A R2 Rstep = (0, 1)) by (cbn; unfold rot; cbn; f_equal; ring).
  assert (Ey : pair_y A R2 Rstep = (0, 2)) by (unfold pair_y; cbn; rewrite Q2R_p1, Q2R_m1; f_equal; field).
  rewrite Es, Ey. unfold curvature_ok. cbn. replace (0 * 0 + 1 * 2) with 2 by ring. replace (0 * 0 + 1 * 1) with 1 by ring.
  apply andb_true_iff. split.
  - apply Rleb_true. lra.
  - apply orb_true_iff. right. apply andb_true_iff. split; apply Rltb_true; lra.
Qed.

(** The hypotheses hold, the update is performed. *)
Definition dense_example : Prop := 0 < eps < 1 ->
  qn_space R2 /\ spd R2 (scaled_id A R2 1) /\ conjugation R2 Rconj /\ threshold R2 Rp Rstep /\ good R2 Rp Rstep /\
  snd (rbfgs A R2 Rp Rconj true (scaled_id A R2 1) Rstep) = true /\
  snd (rbroyden A R2 Rp Rconj true (scaled_id A R2 1) Rstep) = true /\
  admitted R2 Rp Rstep = true.
Lemma dense_example_ok : dense_example.
Proof.
  intros He. pose proof (Rcurv He) as Hc.
  split; [exact R2_space|]. split; [apply scaled_spd; [exact R2_space|lra]|]. split; [exact Rconj_ok|].
  split; [exact Rthreshold|]. split; [exact Rgood|].
  split; [unfold rbfgs; cbv zeta; change (sngf2 A R2 Rstep) with 6; change (sngf0 A R2 Rstep) with 8; rewrite Hc; reflexivity|].
  split; [unfold rbroyden; cbv zeta; change (sngf2 A R2 Rstep) with 6; change (sngf0 A R2 Rstep) with 8; rewrite Hc; reflexivity|].
  exact Hc.
Qed.

(** SR1: B = 1, step (1,0), y = (2,1). *)
Definition Sstep : step A R2 := mkStep A R2 (fun v => v) (1, 0) (-8, 0) (-6, 1) 1 6 8 (fun v => v).
Definition sr1_example : Prop := 0 < eps < 1 / 10 ->
  let B := scaled_id A R2 1 in
  let y := qaxpy A R2 (fq (-1)) (sgf1 A R2 Sstep) (-6, 1) in let z := qaxpy A R2 (fq (-1)) (B (1, 0)) y in
  0 < ip R2 (seta A R2 Sstep) (seta A R2 Sstep) /\ 0 < ip R2 z z /\ snd (sr1 A R2 false B (B (1, 0)) (-6, 1) Sstep) = true.
Lemma sr1_example_ok : sr1_example.
Proof.
  intros He. cbv zeta. unfold sr1, ip. cbn. rewrite Q2R_m1. split; [lra|]. split; [lra|].
  match goal with |- context [if ?c then _ else _] => replace c with true; [reflexivity|] end.
  symmetry. apply andb_true_iff. split.
  - apply Rleb_true. lra.
  - apply orb_true_iff. left. apply Rleb_true. lra.
Qed.
End r2.
