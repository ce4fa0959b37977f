(** Cases for the theorems about the proximal mapping on a tangent space: the problems that come with
    the library, and the unit circle. *)
From Coq Require Import List Arith Reals Lra Lia QArith Qreals Bool Floats.SpecFloat.
Import ListNotations.
From Verif Require Import Arith MatOpsModel MatOpsReal TangentModel TangentSpec TangentProofs TangentOps TangentSphere ProxModel ProxSpec ProxProofs ProxReal.
From Verif Require Import SSNModel SSNSpec SSNProofs SSNOpt SSNCG SSNMain.
Local Close Scope Q_scope.
Local Open Scope R_scope.

(** ProxW and CalJW of StieSPCA and FRankESparseApprox as they are called: the memory of the result is
    a copy of BLambda (Manifold.cpp 978) or of x (986). *)
Definition soft_prox {A : arith} (lambda : F A) (W b : list (F A)) : list (F A) :=
  match proxw lambda b W b with Some r => r | None => [] end.
Definition soft_jac {A : arith} (lambda : F A) (W x b v : list (F A)) : list (F A) :=
  match caljw lambda b v W x with Some r => r | None => [] end.

Section soft.
Variables big eps : R.
Notation A := (R_arith big eps).
Lemma prox_objectiveE lambda W (b u : list R) : length u = length b ->
  prox_objective lambda W (length b / length W) b u = lambda * norm1 u + wsq W (comb (-1) b u) / 2.
Proof.
  intros L. unfold prox_objective.
  assert (E1 : norm1 u = entry_sum (length b) (fun k => Rabs (nth k u 0))).
  { rewrite <- L. unfold norm1, entry_sum. f_equal. clear L. induction u as [|a u IH]; [reflexivity|].
    cbn [map length seq]. f_equal. rewrite IH. rewrite <- seq_shift, map_map. reflexivity. }
  rewrite E1. unfold wsq. rewrite length_comb by auto. rewrite L. unfold entry_sum at 2.
  change (entry_sum (length b) (fun k => lambda * Rabs (nth k u 0) + weight_of W (length b / length W) k / 2 * (nth k u 0 - nth k b 0) ^ 2) =
    lambda * entry_sum (length b) (fun k => Rabs (nth k u 0)) + entry_sum (length b) (fun k => entry_weight W (length b) k * nth k (comb (-1) b u) 0 ^ 2) / 2).
  rewrite es_add, es_scal. f_equal. unfold Rdiv at 2. rewrite Rmult_comm, <- es_scal. apply es_ext. intros k Hk.
  rewrite nth_comb by auto. unfold entry_weight, weight_of. field.
Qed.
Theorem soft_is_prox d lambda W : 0 <= lambda -> good_weights W d ->
  is_prox d W (fun u => lambda * norm1 u) (soft_prox (A := A) lambda W).
Proof.
  intros Hl (Hn & Hp & Hd) b <-. unfold soft_prox.
  destruct (prox_minimises big eps lambda b W b Hl Hn Hp Hd eq_refl) as (r & E & L & H). cbn [Arith.F R_arith] in *. rewrite E.
  split; [exact L|]. intros u Lu. rewrite <- !prox_objectiveE by auto.
  destruct (list_eq_dec Req_EM_T u r) as [->|Hu]; [apply Rle_refl|]. left. now apply H.
Qed.
Lemma norm1_comb t u v : 0 <= t <= 1 -> length u = length v ->
  norm1 (comb t (comb (-1) v u) v) <= t * norm1 u + (1 - t) * norm1 v.
Proof.
  intros Ht. unfold norm1. revert v. induction u as [|a u IH]; intros [|b v] L; cbn in *; try discriminate; [lra|].
  injection L as L. specialize (IH v L).
  assert (Rabs (t * (-1 * b + a) + b) <= t * Rabs a + (1 - t) * Rabs b); [|lra].
  replace (t * (-1 * b + a) + b) with (t * a + (1 - t) * b) by ring. eapply Rle_trans; [apply Rabs_triang|].
  rewrite !Rabs_mult. rewrite (Rabs_pos_eq t), (Rabs_pos_eq (1 - t)) by lra. lra.
Qed.
Lemma norm1_convex d lambda : 0 <= lambda -> convex d (fun u => lambda * norm1 u).
Proof.
  intros Hl t u v Ht Lu Lv. pose proof (norm1_comb t u v Ht ltac:(congruence)). 
  replace (t * (lambda * norm1 u) + (1 - t) * (lambda * norm1 v)) with (lambda * (t * norm1 u + (1 - t) * norm1 v)) by ring.
  now apply Rmult_le_compat_l.
Qed.
Theorem soft_diagonal lambda W (x b : list R) : good_weights W (length x) -> length b = length x ->
  diagonal (length x) (soft_jac (A := A) lambda W x b).
Proof.
  intros (Hn & Hp & Hd) Lb.
  exists (fun k => if Rlt_dec lambda (Rabs (nth k b 0) * weight_of W (length x / length W) k) then 1 else 0).
  split; [intros k; destruct (Rlt_dec _ _); lra|]. intros v Lv. unfold soft_jac.
  assert (Hd' : Nat.divide (length W) (length b)) by now rewrite Lb.
  destruct (caljw_entries big eps lambda b v W x Hn Hp Hd' ltac:(congruence) ltac:(congruence)) as (r & E & L & H).
  cbn [Arith.F R_arith] in *. rewrite E. apply vec_eq; [now rewrite map_length, seq_length, L|].
  intros k Hk. rewrite L in Hk. rewrite H by auto. rewrite (map_seq_nth (fun k => (if Rlt_dec lambda (Rabs (nth k b 0) * weight_of W (length x / length W) k) then 1 else 0) * nth k v 0)) by congruence.
  rewrite Lb. unfold jac_entry. cbn. unfold Rltb. destruct (Rlt_dec _ _); unfold Q2R; cbn; lra.
Qed.
Lemma soft_jac_length lambda W (x b v : list R) : good_weights W (length x) -> length b = length x -> length v = length x ->
  length (soft_jac (A := A) lambda W x b v : list R) = length x.
Proof. intros HW Lb Lv. destruct (soft_diagonal lambda W x b HW Lb) as (c & _ & H). now rewrite H, map_length, seq_length. Qed.
End soft.

(** The unit circle: the normal space at x is spanned by x. *)
Definition circle_intr {A : arith} (x v : list (F A)) : list (F A) := [dotp x v].
Definition circle_extr {A : arith} (x z : list (F A)) : list (F A) := scal (nth 0 z (lit 0)) x.
Definition circle_proj {A : arith} (x v : list (F A)) : list (F A) := axpy (fopp (dotp x v)) x v.
Lemma two (v : list R) : length v = 2%nat -> exists a b, v = [a; b].
Proof. destruct v as [|a [|b [|]]]; try discriminate. eauto. Qed.
Lemma one (v : list R) : length v = 1%nat -> exists a, v = [a].
Proof. destruct v as [|a [|]]; try discriminate. eauto. Qed.
Ltac lst := match goal with |- @eq _ ?a ?b => change (@eq (list R) a b) end; repeat (apply (f_equal2 (@cons R)); [ring|]); reflexivity.
Lemma circle_space (big eps a b : R) : a * a + b * b = 1 ->
  normal_space 2 1 (circle_intr (A := R_arith big eps) [a; b]) (circle_extr (A := R_arith big eps) [a; b]) (circle_proj (A := R_arith big eps) [a; b]).
Proof.
  intros H1. split.
  - reflexivity.
  - intros w Lw. unfold circle_extr. apply (length_scal_R big eps).
  - intros c u v Lu Lv. destruct (two u Lu) as (u0 & u1 & ->), (two v Lv) as (v0 & v1 & ->). unfold circle_intr. rewrite !dotpE. cbn. lst.
  - intros v w Lv Lw. destruct (two v Lv) as (v0 & v1 & ->), (one w Lw) as (w0 & ->). unfold circle_intr, circle_extr. rewrite dotpE. cbn. ring.
  - intros w Lw. destruct (one w Lw) as (w0 & ->). unfold circle_intr, circle_extr. rewrite dotpE. cbn.
    f_equal. transitivity (w0 * (a * a + b * b)); [ring|rewrite H1; ring].
  - intros v Lv. destruct (two v Lv) as (v0 & v1 & ->). unfold circle_intr, circle_extr, circle_proj. rewrite axpyE, dotpE. cbn. lst.
Qed.

(** An instance of all the hypotheses. *)
Lemma case_example : let x := [3/5; 4/5] in let W := [1] in let A := R_arith 1 1 in
  normal_space (length x) 1 (circle_intr (A := A) x) (circle_extr (A := A) x) (circle_proj (A := A) x) /\
  good_weights W (length x) /\
  is_prox (length x) W (fun u => 1/10 * norm1 u) (soft_prox (A := A) (1/10) W) /\
  convex (length x) (fun u => 1/10 * norm1 u) /\
  proximal_map (A := A) (circle_intr (A := A) x) (circle_extr (A := A) x) (circle_proj (A := A) x)
    (soft_prox (A := A) (1/10) W) (soft_jac (A := A) (1/10) W x) x [2/5; -3/10] W 0 (1/5) 1 [7/50] =
  Some (mkout (A := A) false [7/50] [-(52/125); 39/125] 0 0).
Proof.
  cbv zeta. assert (GW : good_weights [1] (length [3/5; 4/5])).
  { split; [discriminate|]. split; [intros w [<-|[]]; lra|exists 2%nat; reflexivity]. }
  split; [apply circle_space; field|]. split; [exact GW|].
  split; [apply soft_is_prox; [lra|exact GW]|]. split; [apply norm1_convex; lra|].
  unfold proximal_map, ssn_init, SMmaxiter.
  assert (EB : blambda (A := R_arith 1 1) (circle_extr (A := R_arith 1 1) [3/5; 4/5]) [3/5; 4/5] [2/5; -3/10] [1] [7/50] = [71/250; 303/250]).
  { unfold blambda, circle_extr, scale_blocks, axpy, scal. cbn. rewrite SSNOpt.q1, qm1. match goal with |- ?a = ?b => change (@eq (list R) a b) end.
    repeat (apply (f_equal2 (@cons R)); [field|]). reflexivity. }
  rewrite EB.
  assert (ES : soft_prox (A := R_arith 1 1) (1/10) [1] [71/250; 303/250] = [23/125; 139/125]).
  { unfold soft_prox. cbn. unfold prox_entry. cbn. unfold Rltb. rewrite !q0.
    repeat match goal with |- context [Rlt_dec ?a ?b] => destruct (Rlt_dec a b); try (exfalso; lra) end.
    match goal with |- ?a = ?b => change (@eq (list R) a b) end. repeat (apply (f_equal2 (@cons R)); [lra|]). reflexivity. }
  assert (EE : ew (A := R_arith 1 1) (circle_intr (A := R_arith 1 1) [3/5; 4/5]) (soft_prox (A := R_arith 1 1) (1/10) [1]) [3/5; 4/5] [71/250; 303/250] = [0]).
  { unfold ew. rewrite ES. unfold circle_intr. rewrite axpyE, dotpE, litE, qm1. cbn. match goal with |- ?a = ?b => change (@eq (list R) a b) end. f_equal. field. }
  rewrite EE. cbn [ssn_loop sF]. 
  assert (E0 : fnorm (A := R_arith 1 1) [0] = 0).
  { unfold fnorm. rewrite dotpE. cbn. replace (0 * 0 + 0) with 0 by ring. apply sqrt_0. }
  rewrite E0. cbn [flt fmul R_arith]. unfold Rltb. destruct (Rlt_dec _ _); [lra|].
  cbn [sB sz siter scg]. unfold step_of. rewrite ES. unfold circle_proj. rewrite !axpyE, dotpE, litE, qm1. cbn.
  match goal with |- Some (mkout _ _ ?a _ _) = Some (mkout _ _ ?b _ _) => assert (K : @eq (list R) a b) end.
  { repeat (apply (f_equal2 (@cons R)); [field|]). reflexivity. }
  now rewrite K.
Qed.

(** binary64: the unit circle, the 1-norm, weight 1/100. *)
Notation D := D_arith.
Definition dl (q : Q) : F D := lit (A := D) q.
Definition cx : list (F D) := [dl (6#10); dl (8#10)].
Definition run (g : list (F D)) (lambda L SMlambda : Q) (z0 : Q) : option (@outcome D) :=
  proximal_map (A := D) (circle_intr cx) (circle_extr cx) (circle_proj cx) (soft_prox (dl lambda) [dl L]) (soft_jac (dl lambda) [dl L] cx)
    cx g [dl L] (dl (1#1000000000000000000000000)) (dl SMlambda) 1 [dl z0].
Definition sum (v : list (F D)) : F D := fold_right fadd (dl 0) v.
(** <g, v> + L/2 |v|^2 + lambda |x + v|_1 *)
Definition value (g : list (F D)) (lambda L : Q) (v : list (F D)) : F D :=
  fadd (fadd (dotp g v) (fmul (fmul (dl (1#2)) (dl L)) (dotp v v))) (fmul (dl lambda) (sum (map fabs (axpy (dl 1) v cx)))).
Definition g1 : list (F D) := [dl (8#10); dl (-6#10)].
(** A run that converges. *)
Lemma converging : match run g1 (1#10) 1 (1#5) 0 with
  | Some o => negb (oearly o) && Nat.ltb 1 (oiter o) && Nat.ltb 1 (ocg o) &&
      flt (value g1 (1#10) 1 (ostep o)) (value g1 (1#10) 1 [dl 0; dl 0])
  | None => false end = true.
Proof. vm_compute. reflexivity. Qed.
(** A run that breaks off: the step is that of a rejected trial and raises the objective. *)
Lemma breaking : match run g1 1 (1#100) (1#50) 0 with
  | Some o => oearly o &&
      flt (value g1 1 (1#100) [dl 0; dl 0]) (dl 2) && flt (dl 10) (value g1 1 (1#100) (ostep o)) &&
      let s := step_of (A := D) (circle_proj cx) (soft_prox (dl 1) [dl (1#100)]) cx (blambda (circle_extr cx) cx g1 [dl (1#100)] (omult o)) in
      flt (value g1 1 (1#100) s) (dl 2)
  | None => false end = true.
Proof. vm_compute. reflexivity. Qed.
(** The tenth trial is a success, and the run breaks off all the same. *)
Definition sq (v : list (F D)) : F D := dotp v v.
Definition res_at (g : list (F D)) (lambda L : Q) (z : list (F D)) : list (F D) :=
  ew (A := D) (circle_intr cx) (soft_prox (dl lambda) [dl L]) cx (blambda (circle_extr cx) cx g [dl L] z).
Definition loop_run (n : nat) (g : list (F D)) (lambda L SMlambda : Q) (z0 : Q) : bool * @ssn D :=
  ssn_loop (A := D) (circle_intr cx) (circle_extr cx) (soft_prox (dl lambda) [dl L]) (soft_jac (dl lambda) [dl L] cx)
    cx g [dl L] (dl (1#1000000000000000000000000)) (dl SMlambda) 1 n
    (ssn_init (A := D) (circle_intr cx) (circle_extr cx) (soft_prox (dl lambda) [dl L]) cx g [dl L] 1 [dl z0]).
Definition g0 : list (F D) := [dl 0; dl 0].
Lemma tenth : let (early, s) := loop_run 100 g0 2 1 (2#1000) (-17#4) in
  early && flt (sq (ew (A := D) (circle_intr cx) (soft_prox (dl 2) [dl 1]) cx (sB s))) (fmul (dl (1#2)) (sq (res_at g0 2 1 (sz s)))) = true.
Proof. vm_compute. reflexivity. Qed.
Lemma first_pass : let (early, s) := loop_run 1 g1 1 (1#100) (1#50) (125#256) in
  negb early && flt (fmul (dl 100) (sq (res_at g1 1 (1#100) [dl (125#256)]))) (sq (res_at g1 1 (1#100) (sz s))) = true.
Proof. vm_compute. reflexivity. Qed.

Lemma breaks_off : exists o, run g1 1 (1#100) (1#50) 0 = Some o /\ oearly o = true /\
  flt (value g1 1 (1#100) [dl 0; dl 0]) (dl 2) = true /\ flt (dl 10) (value g1 1 (1#100) (ostep o)) = true /\
  flt (value g1 1 (1#100) (step_of (A := D) (circle_proj cx) (soft_prox (dl 1) [dl (1#100)]) cx (blambda (circle_extr cx) cx g1 [dl (1#100)] (omult o)))) (dl 2) = true.
Proof.
  pose proof breaking as H. destruct (run g1 1 (1#100) (1#50) 0) as [o|]; [|discriminate].
  apply andb_prop in H as [H H4]. apply andb_prop in H as [H H3]. apply andb_prop in H as [H1 H2]. exists o. auto.
Qed.
Lemma step_mismatch : ~ (forall (g : list (F D)) (lambda L SMlambda z0 : Q) o, run g lambda L SMlambda z0 = Some o ->
  ostep o = step_of (A := D) (circle_proj cx) (soft_prox (dl lambda) [dl L]) cx (blambda (circle_extr cx) cx g [dl L] (omult o))).
Proof.
  intros H. destruct breaks_off as (o & E & _ & _ & H3 & H4). rewrite <- (H _ _ _ _ _ _ E) in H4.
  (* 10 < v and v < 2 *)
  revert H3 H4. generalize (value g1 1 (1#100) (ostep o)). clear.
  assert (T : forall v : F D, flt (dl 10) v = true -> flt v (dl 2) = false).
  { intros v. unfold dl, lit. 
    match goal with |- flt ?a _ = true -> flt _ ?b = false => let a' := eval vm_compute in a in let b' := eval vm_compute in b in change a with a'; change b with b' end.
    cbn. destruct v as [s|s| |s mm e]; try destruct s; try easy.
    unfold SFltb, SFcompare. intros H. 
    destruct (Z.compare_spec (-49) e); destruct (Z.compare_spec e (-51)); try lia; try easy. }
  intros v H3 H4. rewrite (T v H3) in H4. discriminate.
Qed.
Lemma system_example : let A := R_arith 1 1 in
  normal_space (length [3/5; 4/5]) 1 (circle_intr (A := A) [3/5; 4/5]) (circle_extr (A := A) [3/5; 4/5]) (circle_proj (A := A) [3/5; 4/5]) /\
  good_weights [1] (length [3/5; 4/5]) /\ diagonal (length [3/5; 4/5]) (soft_jac (A := A) (1/10) [1] [3/5; 4/5] [2; 1/20]).
Proof.
  cbv zeta. assert (GW : good_weights [1] (length [3/5; 4/5])).
  { split; [discriminate|]. split; [intros w [<-|[]]; lra|exists 2%nat; reflexivity]. }
  split; [apply circle_space; field|]. split; [exact GW|]. now apply soft_diagonal.
Qed.
Lemma converges : exists o, run g1 (1#10) 1 (1#5) 0 = Some o /\ oearly o = false /\ (1 < oiter o)%nat /\ (1 < ocg o)%nat /\
  flt (value g1 (1#10) 1 (ostep o)) (value g1 (1#10) 1 [dl 0; dl 0]) = true.
Proof.
  pose proof converging as H. destruct (run g1 (1#10) 1 (1#5) 0) as [o|]; [|discriminate].
  apply andb_prop in H as [H H4]. apply andb_prop in H as [H H3]. apply andb_prop in H as [H1 H2]. exists o.
  apply Nat.ltb_lt in H2, H3. apply negb_true_iff in H1. auto.
Qed.
Lemma tenth_rejected : exists s, loop_run 100 g0 2 1 (2#1000) (-17#4) = (true, s) /\
  flt (sq (ew (A := D) (circle_intr cx) (soft_prox (dl 2) [dl 1]) cx (sB s))) (fmul (dl (1#2)) (sq (res_at g0 2 1 (sz s)))) = true.
Proof.
  pose proof tenth as H. destruct (loop_run 100 g0 2 1 (2#1000) (-17#4)) as [e s]. apply andb_prop in H as [H1 H2]. exists s. rewrite H1. auto.
Qed.
Lemma first_accepted : exists s, loop_run 1 g1 1 (1#100) (1#50) (125#256) = (false, s) /\
  flt (fmul (dl 100) (sq (res_at g1 1 (1#100) [dl (125#256)]))) (sq (res_at g1 1 (1#100) (sz s))) = true.
Proof.
  pose proof first_pass as H. destruct (loop_run 1 g1 1 (1#100) (1#50) (125#256)) as [e s]. apply andb_prop in H as [H1 H2].
  exists s. apply negb_true_iff in H1. rewrite H1. auto.
Qed.
