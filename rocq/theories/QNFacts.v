(** Quasi-Newton updates: statements in the form used by the property file. *)
From Coq Require Import QArith Reals Qreals List Bool Lra Lia.
From Verif Require Import Arith QuasiNewtonModel QuasiNewtonSpec QNMemProofs QNAlgebra.
Import ListNotations.
Local Open Scope R_scope.

Lemma recursion_bfgs :
  forall (big eps : R) (G : qspace (R_arith big eps)), qn_space G ->
  forall P gamma s y older, symmetric G P ->
  (forall s y r, In (s, y, r) older -> r = (/ ip G s y)%R) ->
  symmetric G (recursive G P gamma older) /\
  bfgs_of G (recursive G P gamma older) (recursive G P gamma ((s, y, (/ ip G s y)%R) :: older)) s y.
Proof.
  intros big eps G HG P gamma s y older HP Ho.
  assert (Hs := recursive_symmetric G HG P gamma older HP Ho). split; [exact Hs|]. now apply recursive_bfgs.
Qed.

Lemma lbfgs_descent :
  forall (big eps : R) (G : qspace (R_arith big eps)), qn_space G ->
  forall p P (l : list (step _ G)), Forall (good G p) l -> spd G P ->
  exists m H, lupdates _ G p (mem0 _ G p) l = Some m /\ spd G H /\ (forall v, hv _ G p P m v = Some (H v)) /\
              forall g, (0 < ip G g g)%R -> (ip G (qscal _ G (-1)%R (H g)) g < 0)%R.
Proof.
  intros big eps G HG p P l Hl HP. destruct (lbfgs_spd G HG p l P Hl HP) as (m & H & E & Hs & Hv).
  exists m, H. split; [exact E|]. split; [exact Hs|]. split; [exact Hv|].
  intros g Hg. rewrite (ip_scal _ HG). pose proof (proj2 (proj2 Hs) g Hg). lra.
Qed.

Lemma rbfgs_secant_spec :
  forall (big eps : R) (G : qspace (R_arith big eps)), qn_space G ->
  forall p T first H e, threshold G p e -> snd (rbfgs _ G p T first H e) = true ->
  let s := tr _ G e (seta _ G e) in
  let y := qcomb _ G (1 / sbeta _ G e)%R (sgf2 _ G e) (-1)%R (tr _ G e (sgf1 _ G e)) in
  (0 < ip G s y)%R /\ maps G (fst (rbfgs _ G p T first H e)) y s.
Proof.
  intros big eps G HG p T b H e Ht Hu. cbv zeta.
  pose proof (rbfgs_secant G HG p T b H e Ht Hu) as K. unfold pair_y in K.
  change (@fq (R_arith big eps)) with Q2R in K. rewrite Q2R_p1, Q2R_m1 in K. exact K.
Qed.

Lemma dense_runs :
  forall (big eps : R) (G : qspace (R_arith big eps)), qn_space G ->
  forall p (l : list ((ope _ G -> ope _ G) * step _ G)) (k : nat) H, spd G H ->
  Forall (fun Te => conjugation G (fst Te) /\ threshold G p (snd Te)) l ->
  spd G (rbfgs_run _ G p k H l) /\ spd G (rbroyden_run _ G p k H l).
Proof.
  intros big eps G HG p l k H HH Hl. split; [now apply rbfgs_run_spd|now apply rbroyden_run_spd].
Qed.

Lemma rw_run :
  forall (big eps : R) (G : qspace (R_arith big eps)), qn_space G ->
  forall p (l : list ((ope _ G -> ope _ G) * step _ G * QV _ G)) (k : nat) H, spd G H ->
  Forall (fun Te => conjugation G (fst (fst Te)) /\ threshold G p (snd (fst Te))) l ->
  spd G (rwrbfgs_run _ G p k H l).
Proof. intros big eps G HG p l k H HH Hl. now apply rwrbfgs_run_spd. Qed.

Lemma rw_secant :
  forall (big eps : R) (G : qspace (R_arith big eps)), qn_space G ->
  forall p T first H e c, threshold G p e -> snd (rwrbfgs _ G p T first H e c) = true ->
  exists H', fst (rwrbfgs _ G p T first H e c) = T H' /\
             maps G H' (qcomb _ G (-1)%R (sgf1 _ G e) 1%R c) (seta _ G e).
Proof.
  intros big eps G HG p T b H e c Ht. unfold rwrbfgs. cbv zeta.
  change (@fq (R_arith big eps)) with Q2R. rewrite Q2R_p1, Q2R_m1.
  destruct (curvature_ok _ p _ _ _ _) eqn:Ec; [|discriminate]. intros _. cbn [fst].
  eexists. split; [reflexivity|]. apply bfgs_secant; [exact HG|].
  pose proof (curvature_sy G HG p _ _ _ _ Ec Ht). now apply Rgt_not_eq.
Qed.

Local Open Scope nat_scope.
Section fresh.
Context {A : arith} (G : qspace A) (p : qparams A).
Lemma corrections_nil l : forall cs,
  fold_left (fun cs e => map (move G (tr A G e)) cs ++ (if admitted G p e then [correction G e] else [])) l cs = [] ->
  cs = [] /\ forall g, fold_left (gstep G p) l g = g.
Proof.
  induction l as [|e l IH]; intros cs H; cbn [fold_left] in *; [auto|].
  apply IH in H. destruct H as [H1 H2]. apply app_eq_nil in H1. destruct H1 as [H0 H1].
  split; [now destruct cs|]. intros g. rewrite H2. unfold gstep. destruct (correction G e) as [[s y] r].
  revert H1; destruct (admitted G p e); intros H1; [discriminate H1|reflexivity].
Qed.
Lemma rerun_fresh l m :
  lupdates A G p (mem0 A G p) l = Some m -> corrections G p l = [] ->
  mem_rerun A G p m = mem0 A G p.
Proof.
  intros E Hc. destruct (lupdates_holds G p l _ _ (mem0_holds G p)) as (m' & E' & H).
  rewrite E in E'. injection E' as <-. destruct (suffix_of G p l) as [n En].
  pose proof (lupdates_gamma G p _ _ _ E) as Eg. rewrite (proj2 (corrections_nil l [] Hc)) in Eg.
  rewrite Hc, skipn_nil in En.
  pose proof (h_len _ _ _ _ H) as Hl. rewrite En in Hl. cbn in Hl.
  assert (Hb : mbeg A G m = 0) by (destruct (h_beg _ _ _ _ H) as [?|[? ?]]; lia).
  unfold mem_rerun, mem0. rewrite Hl, Hb, Eg. reflexivity.
Qed.
End fresh.
