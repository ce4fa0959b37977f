(** The memory of LRTRSR1: concrete runs. *)
From Coq Require Import QArith Reals Qreals List Bool Lra Lia SpecFloat.
From Verif Require Import Arith QuasiNewtonModel QuasiNewtonSpec QuasiNewtonWitness LSR1Model LSR1Spec LSR1Proofs LSR1Exact.
Import ListNotations.

(** ** Binary64, one dimension *)
(** Step s, gradients g1 and g2 (taken back), B s, transport by t if accepted. *)
Definition Dpass (s g1 g2 Bs : Q) (t : option Q) : pass D_arith D1 :=
  mkPass D_arith D1 (d s) (d g1) (d g2) (d Bs) (d 1) (d 1) (option_map (fun t => fmul (d t)) t).
(** The first pair is a multiple of the identity and is not stored. *)
Definition Drun (t : Q) : list (pass D_arith D1) :=
  [Dpass 1 0 1 0 (Some (-1)); Dpass 1 0 3 1 None; Dpass 2 3 1 6 (Some (-1)); Dpass 1 1 1 0 None; Dpass 1 1 9 2 (Some t)].
Definition Dend (t : Q) := passes D_arith D1 2 false 0 (smem0 D_arith D1 2 false) (Drun t).
Definition differ (m : smem D_arith D1) (t : Q) : bool :=
  match pmgq D_arith D1 2 m 1 1, middle D1 (gamma_of D1 (Drun t)) (kept D1 2 false (Drun t)) 1 1 with
  | Some a, Some b => negb (feq a b)
  | _, _ => false
  end.
Lemma run_example : map (stored D1 false) (tl (Drun 1)) = [true; true; false; true] /\ stored D1 true (Dpass 1 0 1 0 (Some (-1))) = false /\
  length (pairs D1 (Drun 1)) = 3%nat /\ length (kept D1 2 false (Drun 1)) = 2%nat /\ length (kept D1 2 true (Drun 1)) = 1%nat.
Proof. repeat split; vm_compute; reflexivity. Qed.
Lemma feq_refl_fails (a b : option (F D_arith)) : a = b -> match a, b with Some x, Some y => negb (feq x y) | _, _ => false end = true ->
  exists x : F D_arith, a = Some x /\ feq x x = false.
Proof. intros <-. destruct a as [x|]; [|discriminate]. intros H. exists x. split; [reflexivity|]. now destruct (feq x x). Qed.
Definition check (t : Q) : bool :=
  match Dend t with
  | Some m => Nat.ltb 1 (length (kept D1 2 false (Drun t))) && differ m t &&
              match pmgq D_arith D1 2 m 1 1 with Some x => feq x x | None => false end
  | None => false
  end.
(** A transport that doubles lengths. *)
Lemma transport_refuted : exists (A : arith) (G : qspace A) L restart u l m, passes A G L restart 0 (smem0 A G L u) l = Some m /\
  ~ represents G L m (gamma_of G l) (kept G L restart l).
Proof.
  exists D_arith, D1, 2%nat, false, false, (Drun 2). assert (H : check 2 = true) by (vm_compute; reflexivity).
  unfold check, Dend in H. destruct (passes _ _ _ _ _ _ _) as [m|]; [|discriminate]. exists m. split; [reflexivity|].
  apply andb_true_iff in H. destruct H as [H Hx]. apply andb_true_iff in H. destruct H as [Hl Hd]. apply Nat.ltb_lt in Hl.
  intros (_ & _ & _ & K). destruct (feq_refl_fails _ _ (K 1%nat 1%nat Hl Hl) Hd) as (x & E & F). rewrite E in Hx. congruence.
Qed.
Definition fine : bool :=
  match Dend 1 with
  | Some m => Nat.ltb 0 (slen D_arith D1 m) && match ymgs D_arith D1 2 m with Some _ => true | None => false end
  | None => false
  end.
Lemma second_run_refuted : exists (A : arith) (G : qspace A) L restart u l m, passes A G L restart 0 (smem0 A G L u) l = Some m /\
  ymgs A G L (smem0 A G L u) <> None /\ ymgs A G L m <> None /\ ymgs A G L (smem_rerun A G L m) = None.
Proof.
  exists D_arith, D1, 2%nat, false, false, (Drun 1). assert (H : fine = true) by (vm_compute; reflexivity).
  unfold fine, Dend in H. destruct (passes _ _ _ _ _ _ _) as [m|]; [|discriminate]. exists m. split; [reflexivity|].
  apply andb_true_iff in H. destruct H as [Hl Hy]. apply Nat.ltb_lt in Hl. split; [discriminate|]. split.
  - intros E. rewrite E in Hy. discriminate.
  - now apply rerun_fails.
Qed.

Lemma product_refuted : exists (A : arith) (G : qspace A) L restart u l m, passes A G L restart 0 (smem0 A G L u) l = Some m /\
  forall solve v, hv_lsr1 A G L solve m v <> None /\ hv_lsr1 A G L solve (smem_rerun A G L m) v = None.
Proof.
  destruct second_run_refuted as (A & G & L & r & u & l & m & E & _ & Hm & Hr). exists A, G, L, r, u, l, m. split; [exact E|].
  intros solve v. unfold hv_lsr1. rewrite Hr. split; [|reflexivity]. destruct (ymgs A G L m); [discriminate|congruence].
Qed.

(** ** The real line *)
Local Open Scope R_scope.
Notation AR := (R_arith 1000 (1/1000)).
Definition R1 : qspace AR :=
  Build_qspace AR R (fun a v w => a * v + w) Rmult (fun a v b w => a * v + b * w) Rmult Rmult.
Lemma R1_space : qn_space R1.
Proof. constructor; intros; cbn in *; unfold ip; cbn; try ring. nra. Qed.
(** The first pair is y = s, the second y = 3 s; both candidates are accepted, the transport changes the sign. *)
Definition Rrun : list (pass AR R1) :=
  [mkPass AR R1 (1 : R) (0 : R) (1 : R) (0 : R) (1 : R) (1 : R) (Some Ropp);
   mkPass AR R1 (1 : R) (0 : R) (3 : R) (1 : R) (1 : R) (1 : R) (Some Ropp)].
Lemma Rrun_iso : isometric R1 Rrun.
Proof. intros e T [<-|[<-|[]]] E; injection E as <-; intros v w; cbn; ring. Qed.
Lemma Rleb_t x y : x <= y -> Rleb x y = true.
Proof. intros H. unfold Rleb. destruct (Rle_dec x y); tauto. Qed.
Lemma Rleb_f x y : y < x -> Rleb x y = false.
Proof. intros H. unfold Rleb. destruct (Rle_dec x y); [lra|reflexivity]. Qed.
Lemma Rltb_t x y : x < y -> Rltb x y = true.
Proof. intros H. unfold Rltb. destruct (Rlt_dec x y); tauto. Qed.
Lemma Rltb_f x y : y <= x -> Rltb x y = false.
Proof. intros H. unfold Rltb. destruct (Rlt_dec x y); [lra|reflexivity]. Qed.
Lemma Rfirst : stored R1 true (hd (mkPass AR R1 (1 : R) (0 : R) (3 : R) (1 : R) (1 : R) (1 : R) (Some Ropp)) Rrun) = false.
Proof.
  unfold stored, quotient, pair_of, Rrun. cbn. unfold Q2R. cbn.
  rewrite (Rleb_f (1/1000)) by lra. rewrite Rltb_f by lra. cbn. now rewrite andb_false_r.
Qed.
Lemma Rsecond : stored R1 false (mkPass AR R1 (1 : R) (0 : R) (3 : R) (1 : R) (1 : R) (1 : R) (Some Ropp)) = true.
Proof.
  unfold stored, quotient, pair_of. cbn. unfold Q2R. cbn.
  rewrite Rleb_t by lra. rewrite (Rleb_t (1/1000)) by lra. reflexivity.
Qed.
Lemma Rpairs : exists s y, pairs R1 Rrun = [(s, y)] /\ s = -1 /\ y = -3.
Proof.
  unfold Rrun, pairs. cbn [fold_left]. unfold after at 2. pose proof Rfirst as E. cbn [hd Rrun] in E. rewrite E. clear E.
  cbn [pacc app map]. unfold after. rewrite Rsecond. cbn [pacc app map both pair_of fst snd peta pginv pgf1].
  eexists. eexists. split; [reflexivity|]. cbn. unfold Q2R. cbn. split; lra.
Qed.
Lemma Rgamma : gamma_of R1 Rrun = (1 : R).
Proof.
  unfold Rrun, gamma_of, scaling_from. pose proof Rfirst as E. cbn [hd Rrun] in E. rewrite E, andb_false_r.
  unfold quotient, pair_of. cbn. unfold Q2R. cbn. field.
Qed.
Definition solve1 (M : nat -> nat -> option R) (b : list R) : list R := map (fun x => x / entry M 0 0) b.
Lemma solve1_ok M : solves solve1 1 M.
Proof.
  intros [|b [|]] H; try discriminate. split; [reflexivity|]. intros NS i Hi. assert (i = 0%nat) by lia. subst i. cbn.
  assert (entry M 0 0 <> 0); [|field; assumption].
  intros E. assert (K : 1 = 0); [|lra]. apply (NS (fun _ => 1)) with (i := 0%nat); [|lia]. intros i Hi'. assert (i = 0%nat) by lia. subst i. cbn. rewrite E. ring.
Qed.
Lemma real_example : qn_space R1 /\ isometric R1 Rrun /\
  length (kept R1 2 false Rrun) = 1%nat /\ (forall m, solves solve1 (length (kept R1 2 false Rrun)) (pmgq AR R1 2 m)) /\
  sr1_defined R1 (gamma_of R1 Rrun) (rev (kept R1 2 false Rrun)).
Proof.
  destruct Rpairs as (s & y & E & Es & Ey). assert (Ek : kept R1 2 false Rrun = [(s, y)]) by (unfold kept; cbn [Nat.eqb]; rewrite E; reflexivity).
  rewrite Ek. split; [exact R1_space|]. split; [exact Rrun_iso|]. split; [reflexivity|]. split; [intros m; apply solve1_ok|].
  cbn [rev app sr1_defined]. split; [exact I|]. rewrite Rgamma, Es, Ey. unfold ip, sr1_rec. cbn. lra.
Qed.
