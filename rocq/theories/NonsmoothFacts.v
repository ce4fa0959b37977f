(** Concrete problems for the nonsmooth solvers: instances of the theorems and counterexamples. *)
From Coq Require Import QArith Qreals Reals List Bool Arith Lia Lra Psatz.
From Coq Require Import Floats.SpecFloat.
From Verif Require Import Arith NonsmoothModel NonsmoothSpec NonsmoothProofs NonsmoothSubProofs.
Import ListNotations.

(** ** Binary64, default parameters: SolversNSMPGLS.cpp 22-39 *)
Notation D := D_arith.
Definition dq (q : Q) : F D := @fq D q.

Definition dflt (maxit minit gap : nat) (ada : bool) : pgpar D :=
  {| pMax := maxit; pMin := minit; pMinstep := dq (2 # 100); pRatio := dq (1 # 2);
     pAlpha := dq (1 # 10000); pAda := ada; pGap := gap |}.
Definition acc0 : F D * F D := (dq (1 # 10000000000), dq (2 # 10)).

Lemma step6 maxit minit gap ada :
  flt (nth_step D (dflt maxit minit gap ada) 6) (pMinstep (dflt maxit minit gap ada)) = true.
Proof. vm_compute. reflexivity. Qed.
Lemma floor10 : sm_floor D (iter_n 10 (sm_shrink D) acc0) = true.
Proof. vm_compute. reflexivity. Qed.

Lemma binary64_manpg E maxit minit ada stopped x1 x2 a init fuel :
  (Nat.max maxit minit + 10 < fuel)%nat ->
  exists s', pg_run D E (dflt maxit minit 5 ada) stopped 6 fuel x1 x2 a acc0 init = Some s'
    /\ (giter s' <= Nat.max maxit minit)%nat /\ (gtime s' <= giter s' + 11)%nat.
Proof.
  intros Hf.
  destruct (pg_run_ends D E (dflt maxit minit 5 ada) 6 10 acc0 ltac:(lia) (step6 _ _ _ _) floor10
              stopped x1 x2 a init fuel Hf) as [s' [H1 [H2 H3]]].
  exists s'. split; [exact H1|]. split; [exact H2|lia].
Qed.

Lemma binary64_amanpg E maxit minit ada stopped x1 x2 a init inity fz fuel :
  (Nat.max maxit minit + 10 < fuel)%nat ->
  exists s', am_run D E (dflt maxit minit 5 ada) stopped 6 fuel x1 x2 a acc0 init inity fz = AmEnd s'
    /\ (aiter s' <= Nat.max maxit minit)%nat /\ (atime s' <= aiter s' + 11)%nat.
Proof.
  intros Hf.
  destruct (am_run_ends D E (dflt maxit minit 5 ada) 6 10 acc0 ltac:(lia) (step6 _ _ _ _) floor10
              ltac:(discriminate) stopped x1 x2 a init inity fz fuel Hf) as [s' [H1 [H2 H3]]].
  exists s'. split; [exact H1|]. split; [exact H2|lia].
Qed.

Lemma exact_manpg big eps (tol lam ratio minstep : R) :
  (0 < ratio < 1)%R -> (0 < minstep)%R ->
  exists K L : nat, forall (E : pgenv (R_arith big eps)) (P : pgpar (R_arith big eps))
    stopped x1 x2 ada init fuel,
  pRatio P = ratio -> pMinstep P = minstep ->
  (Nat.max (pMax P) (pMin P) + K < fuel)%nat ->
  (exists s', pg_run (R_arith big eps) E P stopped L fuel x1 x2 ada (tol, lam) init = Some s'
    /\ (giter s' <= Nat.max (pMax P) (pMin P))%nat
    /\ (gtime s' <= giter s' + K + 1)%nat).
Proof.
  intros Hr Hm.
  destruct (floor_reached big eps (tol, lam)) as [K HK].
  destruct (pow_below ratio minstep Hr Hm) as [L [HL1 HL]].
  exists K, L. intros E P stopped x1 x2 ada init fuel E1 E2 Hf.
  apply pg_run_ends; auto.
  apply Rltb_true. rewrite nth_step_R, E1, E2. exact HL.
Qed.

Lemma exact_amanpg big eps (tol lam ratio minstep : R) :
  (0 < ratio < 1)%R -> (0 < minstep)%R ->
  exists K L : nat, forall (E : pgenv (R_arith big eps)) (P : pgpar (R_arith big eps))
    stopped x1 x2 ada init inity fz fuel,
  pRatio P = ratio -> pMinstep P = minstep -> pGap P <> 0%nat ->
  (Nat.max (pMax P) (pMin P) + K < fuel)%nat ->
  (exists s', am_run (R_arith big eps) E P stopped L fuel x1 x2 ada (tol, lam) init inity fz = AmEnd s'
    /\ (aiter s' <= Nat.max (pMax P) (pMin P))%nat
    /\ (atime s' <= aiter s' + K + 1)%nat).
Proof.
  intros Hr Hm.
  destruct (floor_reached big eps (tol, lam)) as [K HK].
  destruct (pow_below ratio minstep Hr Hm) as [L [HL1 HL]].
  exists K, L. intros E P stopped x1 x2 ada init inity fz fuel E1 E2 E3 Hf.
  apply am_run_ends; auto.
  apply Rltb_true. rewrite nth_step_R, E1, E2. exact HL.
Qed.

(** ** f + |x| on the line in binary64: an accepted step that increases the objective.
    smooth part (1-x)/2 + 1.00004 (1-x)^2; the proximal map is soft thresholding, with the
    weight 1/2 |d|^2. *)
Local Open Scope arith_scope.
Definition smooth (x : F D) : F D :=
  (dq 1 - x) / dq 2 + dq (100004 # 100000) * ((dq 1 - x) * (dq 1 - x)).
Definition smooth' (x : F D) : F D :=
  dq (-1 # 2) - dq (200008 # 100000) * (dq 1 - x).
Definition soft (u : F D) : F D :=
  if u >? dq 1 then u - dq 1 else if u <? dq (-1) then u + dq 1 else dq 0.
Definition lasso : pgenv D :=
  Build_pgenv D (F D) (F D) unit (fun x => smooth x + fabs x) smooth'
    (fun _ v w => v * w) (fun a v => a * v) (fun x v => x + v) (fun x y => y - x)
    (fun x g _ _ _ _ => (soft (x - g) - x, tt)).
Definition never {T} (_ : nat) (_ : T) : bool := false.

Lemma lasso_increases :
  option_map (fun s => (giter s, gx1 s, flt (nf lasso (dq 1)) (gf1v s)))
    (pg_run D lasso (dflt 1 0 5 false) never 6 20 (dq 1) (dq 1) (dq 1) acc0 tt)
  = Some (1%nat, dq (1 # 2), true).
Proof. vm_compute. reflexivity. Qed.

(** From x = 3 the slope is negative and the value goes down. *)
Lemma lasso_decreases :
  option_map (fun s => (giter s, flt (gf1v s) (nf lasso (dq 3))))
    (pg_run D lasso (dflt 1 0 5 false) never 6 20 (dq 3) (dq 3) (dq 1) acc0 tt)
  = Some (1%nat, true).
Proof. vm_compute. reflexivity. Qed.

(** ** AManPG accepts a NaN: points are numbered, every step moves to the next one, the third
    point has the value NaN. SGIterGap = 2. *)
Definition walk : pgenv D :=
  Build_pgenv D nat (F D) unit
    (fun x => match x with 0 => dq 1 | 2 => S754_nan | _ => dq 0 end)%nat (fun _ => dq 1)
    (fun _ v w => v * w) (fun a v => a * v)
    (fun x v => if v =? dq 0 then x else S x) (fun _ _ => dq 1)
    (fun _ _ _ _ _ _ => (dq (-1), tt)).
Lemma walk_nan :
  match am_run D walk (dflt 3 0 2 false) never 6 20 0%nat 0%nat (dq 1) acc0 tt tt (dq 0) with
  | AmEnd s => Some (aiter s, ax1 s, af1 s, az1 s)
  | _ => None
  end = Some (3%nat, 2%nat, S754_nan, 4%nat).
Proof. vm_compute. reflexivity. Qed.
Local Close Scope arith_scope.

(** ** Extended reals: an instance of the monotonicity theorems. *)
Section xinst.
Local Open Scope R_scope.
Notation A := (X_arith 1 0).
(** f(x) = |x| on the integers, the direction is -1 while x > 0, then 0. *)
Definition xline : pgenv A :=
  Build_pgenv A nat nat unit (fun x => Fin (INR x)) (fun x => match x with O => O | _ => 1%nat end)
    (fun _ v w => Fin (- (INR v * INR w))) (fun _ v => v) (fun x v => (x - v)%nat)
    (fun x y => (x - y)%nat) (fun x _ _ _ _ _ => (match x with O => O | _ => 1%nat end, tt)).
Definition xpar (gap : nat) : pgpar A :=
  Build_pgpar A 10 0 (Fin (2 / 100)) (Fin (1 / 2)) (Fin (1 / 10000)) false gap.

Lemma xline_slope x gf (a b c : F A) d :
  xleP (nmet xline x gf (fst (nprox xline x gf a b c d))) (Fin 0).
Proof.
  cbn. destruct x; cbn [fst]; simpl.
  - rewrite Rmult_0_r. lra.
  - pose proof (pos_INR gf). lra.
Qed.

Lemma xline_value x : nf xline x <> NaN.
Proof. easy. Qed.

Lemma xline_step lf (s : pgst A xline) : (0 < gx1 s)%nat -> gf1v s = Fin (INR (gx1 s)) -> ggf1 s = 1%nat ->
  exists s', pg_pass A xline (xpar 5) never (S lf) s = Some (Again s')
    /\ gx1 s' = (gx1 s - 1)%nat /\ giter s' = S (giter s).
Proof.
  intros Hx Hf Hg. unfold pg_pass. cbn [nprox xline].
  destruct (gx1 s) as [|n] eqn:Ex; [lia|].
  unfold pg_linesearch. cbn [pg_armijo]. rewrite Hf, Hg.
  replace (flt _ _) with false.
  - eexists. split; [reflexivity|]. cbn. auto.
  - symmetry. unfold pg_trial. cbn [nretr nscal nf xline].
    change (@flt A) with xlt. change (@fsub A) with xsub. cbn [xsub xadd xopp].
    replace (S n - 1)%nat with n by lia. rewrite S_INR.
    cbn. apply Rltb_false. unfold Q2R. simpl. lra.
Qed.
End xinst.

Lemma pass_no_shrink (A : arith) (E : subenv A) (P : subpar A) stopped update lf (s : subst A E) nd :
  undir1 (sub_dir A E P s) = Some nd ->
  match sub_pass A E P stopped update lf s with
  | SubShrink _ => (fle (fabs nd) (uDel s) || fle (fabs nd) (uTol P))%bool = false -> False
  | SubIter s' => (fle (fabs nd) (uDel s) || fle (fabs nd) (uTol P))%bool = false ->
                  uiter s' = S (uiter s)
  | _ => True
  end.
Proof.
  intros Hd. pose proof (pass_iter A E P stopped update lf s) as Hp.
  pose proof (dir_same A E P s) as Hsm.
  unfold sub_pass in *. cbv zeta in *. rewrite Hd in *.
  destruct Hsm as (_ & _ & _ & _ & _ & SD & _). rewrite SD in *.
  destruct (_ || _)%bool.
  - destruct (sub_shrink _ _ _ _ _ _) as [[e d]|]; easy.
  - destruct (sub_linesearch _ _ _ _ _ _); easy.
Qed.

(** A first round of GetSearchDir that is accepted at once. *)
Lemma gsd_round (A : arith) (E : subenv A) (P : subpar A) k gfs (s : subst A E) v Png :
  shullP E (ux1 s) gfs = (v, Png) ->
  flt (fmul (uDel s) (uLamLow P)) (fsqrt Png) = true ->
  fle (fsqrt (smet E (ux1 s) v v)) (uDel s) = false ->
  let eta := sscal E (fq (-1)%Q) (uHv s v) in
  let nd := fsqrt (smet E (ux1 s) eta eta) in
  let st := fdiv (uEps s) nd in
  fle (fadd (fsub (sf E (sretr E (ux1 s) (sscal E st eta))) (uf1 s))
         (fmul (fmul (uAlpha P) st) Png)) (fq 0%Q) = true ->
  undir1 (gsd_loop A E P (S k) gfs s) = Some nd.
Proof.
  intros H1 H2 H3 eta nd st H4. cbn [gsd_loop]. rewrite H1, H2.
  change (uDel (mkSub _ _ _ _ _ _ _ _ _ _ _ _ _ _ _ _ _ _)) with (uDel s). rewrite H3.
  match goal with |- context [fle ?x (fq 0%Q)] => replace (fle x (fq 0%Q)) with true end.
  reflexivity.
Qed.

(** ** The subgradient solver that never ends: f(x) = x / 10^7 on the line, initial tolerance
    Del = 10^-8, default parameters otherwise (SolversNSMSubLS.cpp SetDefaultParams). *)
Section forever.
Local Open Scope R_scope.
Notation A := (R_arith 1 0).
Definition slope0 : R := / 10000000.
Definition lin (g : R) : subenv A :=
  Build_subenv A R R (fun x => g * x) (fun _ => g) (fun _ v w => v * w) Rmult Rplus
    (fun _ _ _ v => v) (fun _ _ _ v => v) (fun _ _ => 1)
    (fun _ l => (hd 0 l, hd 0 l * hd 0 l)) (fun _ l => (hd 0 l, hd 0 l * hd 0 l)).
Definition subdflt (maxit : nat) : subpar A :=
  Build_subpar A maxit 0 3 (/ 1000000) (/ 1000000) (1 / 100) (1 / 100)
    (1 / 10000) (999 / 1000) (/ 10000000000) 1000 (1 / 100).
Definition lin0 := lin slope0.
Definition sp := subdflt 1000.
Definition stp := nsm_stopped lin0 sp NSM_DIR_F_0.
Definition upd (s : subst A lin0) : ST lin0 -> ST lin0 := fun v => v.
Definition st0 : subst A lin0 :=
  sub_start A lin0 0 0 0 0 0 0 None 0 1 (/ 100000000) (fun v => v).

Definition stuck (s : subst A lin0) : Prop :=
  ugf1 s = slope0 /\ undir0 s = slope0 /\ ustop s = false /\ uiter s = 0%nat
  /\ ustat s = SUCCESS /\ (0 < uDel s < slope0) /\ 0 < uEps s /\ (forall v, uHv s v = v)
  /\ uf1 s = slope0 * ux1 s.

Lemma sq_slope0 : sqrt (slope0 * slope0) = slope0.
Proof. apply sqrt_square. unfold slope0. lra. Qed.

Lemma stuck_dir s : stuck s ->
  undir1 (sub_dir A lin0 sp s) = Some slope0.
Proof.
  intros (Hg & H0 & Hst & Hi & Hss & Hd & He & HH & Hf).
  unfold sub_dir. change (uLen sp - 1)%nat with 2%nat.
  assert (Hs0 : 0 < slope0) by (unfold slope0; lra).
  assert (Hq1 : Q2R (-1) = -1) by (unfold Q2R; simpl; lra).
  assert (Hn : fsqrt (smet lin0 (ux1 s) (sscal lin0 (fq (-1)%Q) (uHv s slope0))
                 (sscal lin0 (fq (-1)%Q) (uHv s slope0))) = slope0).
  { rewrite HH. change (sqrt (Q2R (-1) * slope0 * (Q2R (-1) * slope0)) = slope0).
    rewrite Hq1. replace (-1 * slope0 * (-1 * slope0)) with (slope0 * slope0) by lra.
    apply sq_slope0. }
  rewrite <- Hn at 1.
  apply (gsd_round A lin0 sp 1 [ugf1 s] s slope0 (slope0 * slope0)).
  - rewrite Hg. reflexivity.
  - apply Rltb_true. change (uDel s * (1 / 100) < sqrt (slope0 * slope0)).
    rewrite sq_slope0. lra.
  - apply Rleb_false. change (uDel s < sqrt (slope0 * slope0)). rewrite sq_slope0. lra.
  - rewrite Hn, HH, Hf. apply Rleb_true.
    change (slope0 * (ux1 s + uEps s / slope0 * (Q2R (-1) * slope0)) - slope0 * ux1 s
      + 1 / 10000 * (uEps s / slope0) * (slope0 * slope0) <= Q2R 0).
    rewrite Hq1. replace (Q2R 0) with 0 by (unfold Q2R; simpl; lra).
    replace (uEps s / slope0 * (-1 * slope0)) with (- uEps s) by (field; lra).
    replace (1 / 10000 * (uEps s / slope0) * (slope0 * slope0)) with (uEps s * slope0 / 10000)
      by (field; lra).
    nra.
Qed.

Lemma stuck_going s : stuck s -> sub_going A lin0 sp s = true.
Proof.
  intros (Hg & H0 & Hst & Hi & Hss & _). unfold sub_going. rewrite Hst, Hi, Hss. reflexivity.
Qed.

Lemma stuck_pass lf s : stuck s ->
  exists s', sub_pass A lin0 sp stp upd (S lf) s = SubShrink s' /\ stuck s'.
Proof.
  intros Hs. pose proof (stuck_dir s Hs) as Hd. pose proof (dir_same A lin0 sp s) as Hsm.
  destruct Hs as (Hg & H0 & Hst & Hi & Hss & Hdl & He & HH & Hf).
  destruct Hsm as (Sx & Sf & Sg & S0 & SE & SD & SH & Si & Sst & Sss).
  unfold sub_pass. cbv zeta.
  set (sd := sub_dir A lin0 sp s) in *. clearbody sd. rewrite Hd.
  replace (_ || _)%bool with true.
  2:{ symmetry. apply orb_true_iff. right. apply Rleb_true. cbn.
      rewrite Rabs_right; unfold slope0; lra. }
  assert (Hstop : stp sd = false).
  { unfold stp, nsm_stopped. rewrite Hd, S0, H0. apply Rltb_false. cbn.
    replace (slope0 / slope0) with 1 by (field; unfold slope0; lra). lra. }
  rewrite Hstop, SE, SD.
  assert (exists e d, sub_shrink A sp (S lf) slope0 (uEps s) (uDel s) = Some (e, d)
     /\ 0 < e /\ 0 < d < slope0) as (e & d & Hsh & He' & Hd').
  { unfold sub_shrink. set (e := if flt (uMinEps sp) (fmul (uEps s) (uThEps sp)) then fmul (uEps s) (uThEps sp) else uMinEps sp).
    assert (Hepos : 0 < (e : R)).
    { unfold e. destruct (flt _ _) eqn:El.
      - apply Rltb_true in El. cbn in El. cbn. lra.
      - cbn. lra. }
    destruct (flt (uMinEps sp) e).
    - exists e, (uDel s * (1 / 100)). split; [reflexivity|]. split; [exact Hepos|lra].
    - cbn [shrink_del]. change (@fabs A slope0) with (Rabs slope0).
      change (@flt A) with Rltb.
      replace (Rltb (Rabs slope0) (uDel s)) with false.
      + exists e, (uDel s). split; [reflexivity|]. split; [exact Hepos|lra].
      + symmetry. apply Rltb_false. rewrite Rabs_right; [lra|unfold slope0; lra]. }
  rewrite Hsh. eexists. split; [reflexivity|].
  unfold stuck. cbn [ugf1 undir0 ustop uiter ustat uDel uEps uHv uf1 ux1]. rewrite Sg, S0, Si, Sss, Sf, Sx, SH.
  exact (conj Hg (conj H0 (conj eq_refl (conj Hi (conj Hss (conj Hd' (conj He' (conj HH Hf)))))))).
Qed.

Lemma stuck_forever lf k : exists s, sub_at lin0 sp stp upd (S lf) k st0 = Some s
  /\ sub_going A lin0 sp s = true /\ uiter s = 0%nat.
Proof.
  assert (exists s, sub_at lin0 sp stp upd (S lf) k st0 = Some s /\ stuck s) as (s & H & Hs).
  { induction k as [|k (s & H & Hs)].
    - exists st0. split; [reflexivity|]. unfold stuck, st0. cbn.
      rewrite sq_slope0. repeat split; auto; try lra; unfold slope0; lra.
    - destruct (stuck_pass lf s Hs) as (s' & Hp & Hs').
      exists s'. split; [|exact Hs']. cbn [sub_at].
      rewrite H, (stuck_going s Hs), Hp. reflexivity. }
  exists s. split; [exact H|]. split; [now apply stuck_going|apply Hs].
Qed.

(** The hypotheses of the termination theorem are met by one iteration on f(x) = x. *)
Definition lin1 := lin 1.
Definition stp1 (s : subst A lin1) : bool :=
  match undir1 s with Some nd => Rleb (Rabs nd) (uTol (subdflt 1)) | None => false end.
Definition st1 : subst A lin1 :=
  sub_start A lin1 0 0 0 0 0 0 None 0 1 (1 / 2) (fun v => v).
Lemma st1_dir : undir1 (sub_dir A lin1 (subdflt 1) st1) = Some 1.
Proof.
  unfold sub_dir. change (uLen (subdflt 1) - 1)%nat with 2%nat.
  assert (Hq1 : Q2R (-1) = -1) by (unfold Q2R; simpl; lra).
  assert (H1 : sqrt (1 * 1) = 1) by (rewrite Rmult_1_l; apply sqrt_1).
  assert (Hn : fsqrt (smet lin1 (ux1 st1) (sscal lin1 (fq (-1)%Q) (uHv st1 1))
                 (sscal lin1 (fq (-1)%Q) (uHv st1 1))) = 1).
  { change (sqrt (Q2R (-1) * 1 * (Q2R (-1) * 1)) = 1).
    rewrite Hq1. replace (-1 * 1 * (-1 * 1)) with (1 * 1) by lra. apply H1. }
  etransitivity; [|exact (f_equal Some Hn)].
  apply (gsd_round A lin1 (subdflt 1) 1 [ugf1 st1] st1 1 (1 * 1)).
  - reflexivity.
  - apply Rltb_true. change (1 / 2 * (1 / 100) < sqrt (1 * 1)). rewrite H1. lra.
  - apply Rleb_false. change (1 / 2 < sqrt (1 * 1)). rewrite H1. lra.
  - rewrite Hn. apply Rleb_true.
    change (1 * (0 + 1 / 1 * (Q2R (-1) * 1)) - 1 * 0 + 1 / 10000 * (1 / 1) * (1 * 1) <= Q2R 0).
    rewrite Hq1. replace (Q2R 0) with 0 by (unfold Q2R; simpl; lra).
    replace (1 / 1) with 1 by field. lra.
Qed.
Lemma st1_next lf : match sub_pass A lin1 (subdflt 1) stp1 (fun _ v => v) lf st1 with
  | SubShrink _ => False
  | SubIter s' => sub_going A lin1 (subdflt 1) s' = false
  | _ => True
  end.
Proof.
  pose proof (pass_no_shrink A lin1 (subdflt 1) stp1 (fun _ v => v) lf st1 1 st1_dir) as Hp.
  destruct (sub_pass A lin1 (subdflt 1) stp1 (fun _ v => v) lf st1) as [| |s'|s']; auto.
  - apply Hp. apply orb_false_iff. split; apply Rleb_false.
    + change (1 / 2 < Rabs 1). rewrite Rabs_R1. lra.
    + change (/ 1000000 < Rabs 1). rewrite Rabs_R1. lra.
  - unfold sub_going. rewrite Hp; [reflexivity|].
    apply orb_false_iff. split; apply Rleb_false.
    + change (1 / 2 < Rabs 1). rewrite Rabs_R1. lra.
    + change (/ 1000000 < Rabs 1). rewrite Rabs_R1. lra.
Qed.

Lemma st1_hyp lf k s (nd : R) :
  sub_at lin1 (subdflt 1) stp1 (fun _ v => v) lf k st1 = Some s ->
  sub_going A lin1 (subdflt 1) s = true ->
  undir1 (sub_dir A lin1 (subdflt 1) s) = Some nd -> Rabs nd <> uDel s.
Proof.
  intros Hk Hg Hn.
  assert (Hall : forall n sn, sub_at lin1 (subdflt 1) stp1 (fun _ v => v) lf n st1 = Some sn ->
      sub_going A lin1 (subdflt 1) sn = true -> sn = st1).
  { induction n as [|n IH]; intros sn Hs Hgo; cbn [sub_at] in Hs; [now inversion Hs|].
    destruct (sub_at lin1 (subdflt 1) stp1 _ lf n st1) as [sm|]; [|easy].
    destruct (sub_going A lin1 (subdflt 1) sm) eqn:Em; [|easy].
    assert (sm = st1) as -> by now apply IH.
    pose proof (st1_next lf) as Hx.
    destruct (sub_pass A lin1 (subdflt 1) stp1 (fun _ v => v) lf st1); try easy.
    assert (s0 = sn) by congruence. subst s0. congruence. }
  rewrite (Hall k s Hk Hg) in *. rewrite st1_dir in Hn. inversion Hn; subst nd.
  rewrite Rabs_R1. change (1 <> 1 / 2). lra.
Qed.
End forever.

(** ** ndir1 read before it is assigned: f(x) = x / 2 in binary64, default parameters. *)
Local Open Scope arith_scope.
Definition dlin (g : F D) : subenv D :=
  Build_subenv D (F D) (F D) (fun x => g * x) (fun _ => g) (fun _ v w => v * w)
    (fun a v => a * v) (fun x v => x + v)
    (fun _ _ _ v => v) (fun _ _ _ v => v) (fun _ _ => dq 1)
    (fun _ l => (hd (dq 0) l, hd (dq 0) l * hd (dq 0) l))
    (fun _ l => (hd (dq 0) l, hd (dq 0) l * hd (dq 0) l)).
Definition dsp : subpar D :=
  Build_subpar D 1000 0 3 (dq (1 # 1000000)) (dq (1 # 1000000)) (dq (1 # 100)) (dq (1 # 100))
    (dq (1 # 10000)) (dq (999 # 1000)) (dq (1 # 10000000000)) (dq 1000) (dq (1 # 100)).
Definition dst (E : subenv D) (x : SX E) (v : ST E) : subst D E :=
  sub_start D E x x v v v v None (dq 0) (dq 1) (dq 1) (fun v => v).
Local Close Scope arith_scope.

Lemma ub_first lf fuel stopped update :
  sub_loop D (dlin (dq (1 # 2))) dsp stopped update lf (S fuel)
    (dst (dlin (dq (1 # 2))) (dq 0) (dq 0)) = EndUB.
Proof.
  cbn [sub_loop].
  replace (sub_going D (dlin (dq (1 # 2))) dsp (dst (dlin (dq (1 # 2))) (dq 0) (dq 0)))
    with true by (vm_compute; reflexivity).
  unfold sub_pass.
  replace (undir1 (sub_dir D (dlin (dq (1 # 2))) dsp (dst (dlin (dq (1 # 2))) (dq 0) (dq 0))))
    with (@None (F D)); [reflexivity|].
  assert (H : match undir1 (sub_dir D (dlin (dq (1 # 2))) dsp
                (dst (dlin (dq (1 # 2))) (dq 0) (dq 0))) with None => true | _ => false end = true)
    by (vm_compute; reflexivity).
  destruct (undir1 _); [discriminate H|reflexivity].
Qed.

(** f(x) = 2 x: the direction length is set. *)
Lemma ndir_two :
  match undir1 (sub_dir D (dlin (dq 2)) dsp (dst (dlin (dq 2)) (dq 0) (dq 0))) with
  | Some nd => feq nd (dq 2)
  | None => false
  end = true.
Proof. vm_compute. reflexivity. Qed.

(** ** A step to a NaN reported as a success: the objective is NaN for x < 0, the gradient is
    10 at positive points and 0 elsewhere. *)
Local Open Scope arith_scope.
Definition holes : subenv D :=
  Build_subenv D (F D) (F D) (fun x => if x <? dq 0 then S754_nan else dq 10 * x)
    (fun x => if x >? dq 0 then dq 10 else dq 0) (fun _ v w => v * w)
    (fun a v => a * v) (fun x v => x + v)
    (fun _ _ _ v => v) (fun _ _ _ v => v) (fun _ _ => dq 1)
    (fun _ l => (hd (dq 0) l, hd (dq 0) l * hd (dq 0) l))
    (fun _ l => (hd (dq 0) l, hd (dq 0) l * hd (dq 0) l)).
Local Close Scope arith_scope.
Definition never1 {T} (_ : T) : bool := false.
Lemma holes_nan :
  match sub_pass D holes dsp never1 (fun _ v => v) 5 (dst holes (dq 5) (dq 0)) with
  | SubIter s => Some (ustat s, uf1 s, ux1 s)
  | _ => None
  end = Some (SUCCESS, S754_nan, dq (-5)).
Proof. vm_compute. reflexivity. Qed.

(** ** A successful line search: f(x) = x^2/2 from x = 1 along -1. *)
Section wolfe1.
Local Open Scope R_scope.
Notation A := (R_arith 1 0).
Definition quad : subenv A :=
  Build_subenv A R R (fun x => x * x / 2) (fun x => x) (fun _ v w => v * w) Rmult Rplus
    (fun _ _ _ v => v) (fun _ _ _ v => v) (fun _ _ => 1)
    (fun _ l => (hd 0 l, hd 0 l * hd 0 l)) (fun _ l => (hd 0 l, hd 0 l * hd 0 l)).
Definition sq : subst A quad :=
  sub_start A quad 1 1 0 (-1) 0 1 None 0 1 1 (fun v => v).
Lemma quad_success : exists s,
  sub_linesearch A quad (subdflt 1) 1 (-1) sq = Some s /\ ustat s = SUCCESS /\ ustep s = 1.
Proof.
  unfold sub_linesearch. cbn [wolfe_lp].
  assert (Hq : Q2R 1 = 1) by (unfold Q2R; simpl; lra).
  assert (Hq0 : Q2R 0 = 0) by (unfold Q2R; simpl; lra).
  set (st := ustep _). assert (Hst : st = 1) by exact Hq.
  replace (flt _ _) with false.
  2:{ symmetry. apply Rltb_false.
      change ((1 + st * -1) * (1 + st * -1) / 2 - 1 * 1 / 2 - 1 / 10000 * -1 * st <= Q2R 0).
      rewrite Hst, Hq0. lra. }
  cbn [sub_dh].
  replace (fle (fmul (uBeta (subdflt 1)) (-1)) _) with true.
  2:{ symmetry. apply Rleb_true.
      change (999 / 1000 * -1 <= (1 + st * -1) * -1). rewrite Hst. lra. }
  set (s1 := mkSub _ _ _ _ _ _ _ _ _ _ _ _ _ _ _ _ _ _).
  change (ustep s1) with st.
  replace (fle st (uMinstep (subdflt 1))) with false.
  2:{ symmetry. apply Rleb_false. change (/ 10000000000 < st). rewrite Hst. lra. }
  change (ustep s1) with st.
  replace (fle (uMaxstep (subdflt 1)) st) with false.
  2:{ symmetry. apply Rleb_false. change (st < 1000). rewrite Hst. lra. }
  exists s1. split; [reflexivity|]. split; [reflexivity|exact Hst].
Qed.
End wolfe1.
