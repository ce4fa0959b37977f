(** Quasi-Newton updates: the algebra. *)
From Coq Require Import QArith Reals Qreals List Bool Lra Lia.
From Verif Require Import Arith QuasiNewtonModel QuasiNewtonSpec QNMemProofs.
Import ListNotations.
Local Open Scope R_scope.

Lemma Q2R_p1 : Q2R 1 = 1. Proof. unfold Q2R. simpl. lra. Qed.
Lemma Q2R_m1 : Q2R (-1) = -1. Proof. unfold Q2R. simpl. lra. Qed.
Lemma Q2R_z : Q2R 0 = 0. Proof. unfold Q2R. simpl. lra. Qed.

Section alg.
Context {big eps : R}.
Notation A := (R_arith big eps).
Context (G : qspace A) (HG : qn_space G).
Notation V := (QV A G).
Notation ip := (ip G).

Lemma sub_axpy a v w u : ip (qaxpy A G a v w) u = a * ip v u + ip w u. Proof. apply (ip_axpy _ HG). Qed.
Lemma ip_axpy_r a v w u : ip u (qaxpy A G a v w) = a * ip u v + ip u w.
Proof. rewrite (ip_sym _ HG), (ip_axpy _ HG), (ip_sym _ HG v), (ip_sym _ HG w). reflexivity. Qed.

Lemma ip_scal_r a v u : ip u (qscal A G a v) = a * ip u v.
Proof. rewrite (ip_sym _ HG), (ip_scal _ HG), (ip_sym _ HG v). reflexivity. Qed.

Lemma ip_null y : ip y y = 0 -> forall s, ip s y = 0.
Proof.
  intros Hy s. destruct (Req_dec (ip s y) 0) as [|Hn]; [assumption|exfalso].
  set (t := - (ip s s + 1) / (2 * ip s y)).
  pose proof (ip_pos _ HG (qaxpy A G t y s)) as Hp.
  rewrite (ip_axpy _ HG), !ip_axpy_r, Hy, (ip_sym _ HG y s) in Hp.
  assert (E : t * ip s y = - (ip s s + 1) / 2) by (unfold t; field; assumption). lra.
Qed.

Lemma pos_of_sy s y : ip s y <> 0 -> 0 < ip y y.
Proof.
  intros Hn. destruct (ip_pos _ HG y) as [|E]; [assumption|]. symmetry in E. exfalso. apply Hn. now apply ip_null.
Qed.

Lemma rank1_ip H a u w v z : ip (rank1 A G H a u w v) z = a * ip w v * ip u z + ip (H v) z.
Proof. unfold rank1. rewrite (ip_axpy _ HG). cbn. rewrite (ip_dot _ HG). reflexivity. Qed.

(** ** BFGS *)
Lemma bfgs_form H s y v w :
  ip (bfgs_update A G H s y (ip s y) v) w =
  ip (H v) w - / ip s y * ip (H y) v * ip s w - / ip s y * ip s v * (ip (H y) w - / ip s y * ip (H y) y * ip s w)
  + / ip s y * ip s v * ip s w.
Proof.
  unfold bfgs_update. cbv zeta. rewrite rank1_ip. rewrite rank1_ip. rewrite !rank1_ip.
  cbn. rewrite Q2R_p1, Q2R_m1. unfold Rdiv. ring.
Qed.

Lemma bfgs_secant H s y : ip s y <> 0 -> maps G (bfgs_update A G H s y (ip s y)) y s.
Proof. intros Hn u. rewrite bfgs_form. field. assumption. Qed.

Lemma bfgs_correct H s y : symmetric G H -> bfgs_of G H (bfgs_update A G H s y (ip s y)) s y.
Proof.
  intros Hs v w v' w' Hv Hw. rewrite bfgs_form.
  assert (E : ip (H v') w' = ip (H v) w - / ip s y * ip s v * ip (H y) w - / ip s y * ip s w * (ip (H y) v - / ip s y * ip s v * ip (H y) y)).
  { rewrite (ip_sym _ HG (H v')), Hw. rewrite (ip_sym _ HG w), (ip_sym _ HG y), !(Hs v'), !Hv.
    rewrite <- !(Hs v), <- !(Hs y). rewrite (ip_sym _ HG (H v) y), <- (Hs y v). unfold Rdiv. ring. }
  rewrite E. unfold Rdiv. ring.
Qed.

(** The projection used by [bfgs_of]. *)
Definition yfree (s y v : V) : V := qaxpy A G (- (ip s v / ip s y)) y v.
Lemma yfree_ip s y v u : ip (yfree s y v) u = ip v u - ip s v / ip s y * ip y u.
Proof. unfold yfree. rewrite (ip_axpy _ HG). ring. Qed.

Lemma bfgs_of_symmetric H H' s y : bfgs_of G H H' s y -> symmetric G H -> symmetric G H'.
Proof.
  intros B Hs v w. rewrite (ip_sym _ HG v).
  rewrite (B v w (yfree s y v) (yfree s y w)) by (intros; apply yfree_ip).
  rewrite (B w v (yfree s y w) (yfree s y v)) by (intros; apply yfree_ip).
  rewrite Hs, (ip_sym _ HG (yfree s y v)). unfold Rdiv. ring.
Qed.

Lemma bfgs_of_positive H H' s y : bfgs_of G H H' s y -> positive G H -> 0 < ip s y -> positive G H'.
Proof.
  intros B [P1 P2] Hy.
  assert (E : forall v, ip (H' v) v = ip (H (yfree s y v)) (yfree s y v) + ip s v * ip s v / ip s y).
  { intros v. apply B; intros; apply yfree_ip. }
  assert (Q : forall v, 0 <= ip s v * ip s v / ip s y).
  { intros v. apply Rmult_le_pos; [nra|]. left. now apply Rinv_0_lt_compat. }
  split.
  - intros v. rewrite E. specialize (P1 (yfree s y v)). specialize (Q v). lra.
  - intros v Hv. rewrite E. destruct (Req_dec (ip s v) 0) as [Z|Z].
    + assert (0 < ip (yfree s y v) (yfree s y v)).
      { rewrite yfree_ip, Z, (ip_sym _ HG v), yfree_ip, Z. unfold Rdiv. lra. }
      specialize (P2 _ H0). specialize (Q v). lra.
    + specialize (P1 (yfree s y v)).
      assert (0 < ip s v * ip s v / ip s y).
      { apply Rmult_lt_0_compat; [|now apply Rinv_0_lt_compat]. nra. }
      lra.
Qed.

Lemma bfgs_spd H s y : spd G H -> 0 < ip s y -> spd G (bfgs_update A G H s y (ip s y)).
Proof.
  intros [Hs Hp] Hy. pose proof (bfgs_correct H s y Hs) as B. split.
  - eapply bfgs_of_symmetric; eassumption.
  - eapply bfgs_of_positive; eassumption.
Qed.

Lemma conj_spd T H : conjugation G T -> spd G H -> spd G (T H).
Proof.
  intros (U & Ui & [I1 I2] & E) [Hs [P1 P2]]. split; [|split].
  - intros v w. rewrite !E, I1, Hs, (ip_sym _ HG v (U _)), I1, (ip_sym _ HG (H (Ui w))). reflexivity.
  - intros v. rewrite E, I1. apply P1.
  - intros v Hv. rewrite E, I1. apply P2. now rewrite I2.
Qed.

Lemma scaled_spd a : 0 < a -> spd G (scaled_id A G a).
Proof.
  intros Ha. unfold scaled_id. split; [|split].
  - intros v w. rewrite (ip_scal _ HG), ip_scal_r. reflexivity.
  - intros v. rewrite (ip_scal _ HG). pose proof (ip_pos _ HG v). nra.
  - intros v Hv. rewrite (ip_scal _ HG). nra.
Qed.

(** ** The curvature test *)
Lemma curvature_sy (p : qparams A) s y (a b : R) : curvature_ok A p a b (ip s y) (ip s s) = true ->
  0 < (qnu A p : R) * (qpowmu A p a : R) -> 0 < ip s y.
Proof.
  unfold curvature_ok. cbn. rewrite andb_true_iff, Rleb_true. intros [H _] Hp.
  assert (Hq : 0 < ip s y / ip s s) by lra.
  destruct (Req_dec (ip s s) 0) as [Z|Z].
  - rewrite (ip_sym _ HG), (ip_null s Z) in Hq. unfold Rdiv in Hq. lra.
  - pose proof (ip_pos _ HG s). assert (0 < ip s s) by lra.
    replace (ip s y) with (ip s y / ip s s * ip s s) by (field; assumption). nra.
Qed.

Section solver.
Context (p : qparams A).
Notation threshold := (threshold G p).
Notation good := (good G p).

Lemma first_spd (b : bool) H s y : spd G H ->
  spd G (if isconvex A p && b && @flt A (fq 0) (qmet A G s y) then scaled_id A G (fdiv (qmet A G s y) (qmet A G y y)) else H).
Proof.
  intros HH. destruct (isconvex A p && b); [|exact HH]. cbn. fold (ip s y). fold (ip y y). destruct (Rltb (Q2R 0) (ip s y)) eqn:E; [|exact HH].
  apply Rltb_true in E. rewrite Q2R_z in E. apply scaled_spd. apply Rdiv_lt_0_compat; [exact E|].
  apply pos_of_sy with s. lra.
Qed.

Lemma rbfgs_spd T b H e : spd G H -> conjugation G T -> threshold e -> spd G (fst (rbfgs A G p T b H e)).
Proof.
  intros HH HT Ht. unfold rbfgs. cbv zeta. set (s := pair_s A G e). set (y := pair_y A G e).
  pose proof (conj_spd _ _ HT (first_spd b H s y HH)) as H1.
  destruct (curvature_ok A p _ _ _ _) eqn:Ec; [|exact H1].
  apply bfgs_spd; [exact H1|]. eapply curvature_sy; [exact Ec|exact Ht].
Qed.

Lemma rbfgs_secant T b H e : threshold e -> snd (rbfgs A G p T b H e) = true ->
  0 < ip (pair_s A G e) (pair_y A G e) /\ maps G (fst (rbfgs A G p T b H e)) (pair_y A G e) (pair_s A G e).
Proof.
  intros Ht. unfold rbfgs. cbv zeta. set (s := pair_s A G e). set (y := pair_y A G e).
  destruct (curvature_ok A p _ _ _ _) eqn:Ec; [|discriminate]. intros _.
  pose proof (curvature_sy _ _ _ _ _ Ec Ht) as Hy. split; [exact Hy|]. apply bfgs_secant. apply Rgt_not_eq. exact Hy.
Qed.

Lemma rwrbfgs_spd T b H e c : spd G H -> conjugation G T -> threshold e -> spd G (fst (rwrbfgs A G p T b H e c)).
Proof.
  intros HH HT Ht. unfold rwrbfgs. cbv zeta. set (s := seta A G e). set (y := qcomb A G _ _ _ c).
  pose proof (first_spd b H s y HH) as H1.
  destruct (curvature_ok A p _ _ _ _) eqn:Ec; [|apply conj_spd; [exact HT|exact H1]].
  apply conj_spd; [exact HT|]. apply bfgs_spd; [exact H1|]. eapply curvature_sy; [exact Ec|exact Ht].
Qed.

(** ** Broyden family *)
Lemma broyden_form H s y phi v w : ip y (H y) <> 0 -> ip s y <> 0 ->
  ip (broyden_update A G H s y (ip s y) phi v) w =
  ip (H v) w - ip (H y) v * ip (H y) w / ip y (H y) + ip s v * ip s w / ip s y +
  phi * ip y (H y) * (ip s v / ip s y - ip (H y) v / ip y (H y)) * (ip s w / ip s y - ip (H y) w / ip y (H y)).
Proof.
  intros N1 N2. unfold broyden_update. cbv zeta. rewrite rank1_ip, rank1_ip, rank1_ip, !(ip_comb _ HG).
  change (qmet A G y (H y)) with (ip y (H y)). cbn. rewrite Q2R_p1, Q2R_m1. field. split; assumption.
Qed.

Lemma broyden_secant H s y phi : ip y (H y) <> 0 -> ip s y <> 0 -> maps G (broyden_update A G H s y (ip s y) phi) y s.
Proof. intros N1 N2 u. rewrite broyden_form by assumption. rewrite (ip_sym _ HG (H y) y). field. split; assumption. Qed.

Lemma broyden_one H s y : symmetric G H -> ip y (H y) <> 0 -> ip s y <> 0 ->
  bfgs_of G H (broyden_update A G H s y (ip s y) (Q2R 1)) s y.
Proof.
  intros Hs N1 N2 v w v' w' Hv Hw. rewrite broyden_form by assumption. rewrite Q2R_p1.
  assert (E : ip (H v') w' = ip (H v) w - / ip s y * ip s v * ip (H y) w - / ip s y * ip s w * (ip (H y) v - / ip s y * ip s v * ip (H y) y)).
  { rewrite (ip_sym _ HG (H v')), Hw. rewrite (ip_sym _ HG w), (ip_sym _ HG y), !(Hs v'), !Hv.
    rewrite <- !(Hs v), <- !(Hs y). rewrite (ip_sym _ HG (H v) y), <- (Hs y v). unfold Rdiv. ring. }
  rewrite E, (ip_sym _ HG (H y) y). field. split; assumption.
Qed.

Lemma rbroyden_spd T b H e : spd G H -> conjugation G T -> threshold e -> spd G (fst (rbroyden A G p T b H e)).
Proof.
  intros HH HT Ht. unfold rbroyden. cbv zeta. set (s := pair_s A G e). set (y := pair_y A G e).
  pose proof (conj_spd _ _ HT (first_spd b H s y HH)) as H1.
  destruct (curvature_ok A p _ _ _ _) eqn:Ec; [|exact H1].
  pose proof (curvature_sy _ _ _ _ _ Ec Ht) as Hy. destruct H1 as [Hs Hp].
  assert (N : ip s y <> 0) by lra. pose proof (pos_of_sy _ _ N) as Hyy.
  set (H1 := T _) in *. pose proof (proj2 Hp _ Hyy) as Hq. rewrite (ip_sym _ HG) in Hq.
  assert (N2 : ip y (H1 y) <> 0) by lra.
  pose proof (broyden_one H1 s y Hs N2 N) as B. split.
  - eapply bfgs_of_symmetric; eassumption.
  - eapply bfgs_of_positive; eassumption.
Qed.

Lemma rbroyden_secant T b H e : spd G H -> conjugation G T -> threshold e -> snd (rbroyden A G p T b H e) = true ->
  maps G (fst (rbroyden A G p T b H e)) (pair_y A G e) (pair_s A G e).
Proof.
  intros HH HT Ht. unfold rbroyden. cbv zeta. set (s := pair_s A G e). set (y := pair_y A G e).
  pose proof (conj_spd _ _ HT (first_spd b H s y HH)) as H1.
  destruct (curvature_ok A p _ _ _ _) eqn:Ec; [|discriminate]. intros _.
  pose proof (curvature_sy _ _ _ _ _ Ec Ht) as Hy. destruct H1 as [Hs Hp].
  assert (N : ip s y <> 0) by lra. pose proof (pos_of_sy _ _ N) as Hyy.
  set (H1 := T _) in *. pose proof (proj2 Hp _ Hyy) as Hq. rewrite (ip_sym _ HG) in Hq.
  assert (N2 : ip y (H1 y) <> 0) by lra. apply broyden_secant; assumption.
Qed.

(** ** Runs *)
Lemma rbfgs_run_spd l : forall k H, spd G H -> Forall (fun Te => conjugation G (fst Te) /\ threshold (snd Te)) l ->
  spd G (rbfgs_run A G p k H l).
Proof.
  induction l as [|[T e] l IH]; intros k H HH Hl; [exact HH|]. inversion Hl as [|? ? [H1 H2] Hl']; subst.
  cbn [rbfgs_run]. apply IH; [|exact Hl']. now apply rbfgs_spd.
Qed.
Lemma rwrbfgs_run_spd l : forall k H, spd G H -> Forall (fun Te => conjugation G (fst (fst Te)) /\ threshold (snd (fst Te))) l ->
  spd G (rwrbfgs_run A G p k H l).
Proof.
  induction l as [|[[T e] c] l IH]; intros k H HH Hl; [exact HH|]. inversion Hl as [|? ? [H1 H2] Hl']; subst.
  cbn [rwrbfgs_run]. apply IH; [|exact Hl']. now apply rwrbfgs_spd.
Qed.
Lemma rbroyden_run_spd l : forall k H, spd G H -> Forall (fun Te => conjugation G (fst Te) /\ threshold (snd Te)) l ->
  spd G (rbroyden_run A G p k H l).
Proof.
  induction l as [|[T e] l IH]; intros k H HH Hl; [exact HH|]. inversion Hl as [|? ? [H1 H2] Hl']; subst.
  cbn [rbroyden_run]. apply IH; [|exact Hl']. now apply rbroyden_spd.
Qed.

(** ** SR1 *)
Lemma sr1_secant (B : V -> V) Heta g e :
  (forall u, ip Heta u = ip (B (seta A G e)) u) ->
  let y := qaxpy A G (fq (-1)) (sgf1 A G e) g in let z := qaxpy A G (fq (-1)) Heta y in
  0 < eps -> 0 < ip (seta A G e) (seta A G e) -> 0 < ip z z ->
  snd (sr1 A G false B Heta g e) = true ->
  maps G (fst (sr1 A G false B Heta g e)) (seta A G e) y.
Proof.
  intros HB y z He Hs Hz. unfold sr1. cbv zeta. fold y. fold z. set (s := seta A G e) in *.
  match goal with |- context [if ?c then _ else _] => destruct c eqn:Ec end; [|discriminate]. intros _ u.
  apply andb_true_iff in Ec. destruct Ec as [Ec _]. cbn in Ec. apply Rleb_true in Ec.
  fold (ip s z) in Ec. fold (ip s s) in Ec. fold (ip z z) in Ec.
  assert (Hp : 0 < eps * ip s s * ip z z) by (repeat apply Rmult_lt_0_compat; assumption).
  assert (N : ip s z <> 0) by (intros E; rewrite E in Ec; lra).
  cbn [fst]. rewrite rank1_ip. fold (ip s z). cbn. rewrite Q2R_p1, (ip_sym _ HG z s).
  assert (Ez : ip z u = ip y u - ip Heta u).
  { unfold z. rewrite (ip_axpy _ HG). cbn. rewrite Q2R_m1. ring. }
  rewrite Ez, <- HB. field. exact N.
Qed.

(** ** The limited-memory operator *)
Lemma recursive_bfgs P gamma s y older : symmetric G (recursive G P gamma older) -> 
  bfgs_of G (recursive G P gamma older) (recursive G P gamma ((s, y, / ip s y) :: older)) s y.
Proof.
  intros Hs v w v' w' Hv Hw. cbn [recursive]. set (H := recursive G P gamma older) in *.
  change (@fmul A) with Rmult. change (@fopp A) with Ropp. change (@fsub A) with Rminus.
  change (qmet A G s v) with (ip s v).
  set (a := / ip s y * ip s v). set (v0 := qaxpy A G (- a) y v). set (z := H v0).
  change (qmet A G y z) with (ip y z). rewrite (ip_axpy _ HG).
  assert (Ev : forall u, ip v0 u = ip v' u) by (intros u; unfold v0; rewrite (ip_axpy _ HG), Hv; unfold a, Rdiv; ring).
  assert (Ez : ip (H v') w' = ip z w - ip s w / ip s y * ip y z).
  { rewrite Hs, <- Ev, <- Hs. fold z. rewrite (ip_sym _ HG), Hw, (ip_sym _ HG w). reflexivity. }
  rewrite Ez. unfold a, Rdiv. ring.
Qed.

Lemma recursive_spd P gamma cs : spd G P -> 0 < gamma ->
  (forall s y r, In (s, y, r) cs -> 0 < ip s y /\ r = / ip s y) -> spd G (recursive G P gamma cs).
Proof.
  intros HP Hg. induction cs as [|[[s y] r] cs IH]; intros Hc.
  - cbn [recursive]. destruct HP as [Ps [P1 P2]]. split; [|split].
    + intros v w. rewrite (ip_scal _ HG), ip_scal_r, Ps. reflexivity.
    + intros v. rewrite (ip_scal _ HG). specialize (P1 v). nra.
    + intros v Hv. rewrite (ip_scal _ HG). specialize (P2 v Hv). nra.
  - destruct (Hc s y r) as [Hy ->]; [now left|].
    destruct IH as [Hs Hp]; [intros; apply Hc; now right|].
    pose proof (recursive_bfgs P gamma s y cs Hs) as B. split.
    + eapply bfgs_of_symmetric; eassumption.
    + eapply bfgs_of_positive; eassumption.
Qed.

Lemma recursive_symmetric P gamma cs : symmetric G P -> 
  (forall s y r, In (s, y, r) cs -> r = / ip s y) -> symmetric G (recursive G P gamma cs).
Proof.
  intros Ps. induction cs as [|[[s y] r] cs IH]; intros Hc.
  - cbn [recursive]. intros v w. rewrite (ip_scal _ HG), ip_scal_r, Ps. reflexivity.
  - rewrite (Hc s y r) by now left.
    assert (Hs : symmetric G (recursive G P gamma cs)) by (apply IH; intros; apply (Hc s0); now right).
    eapply bfgs_of_symmetric; [apply recursive_bfgs|]; exact Hs.
Qed.

Lemma admitted_sy e : threshold e -> admitted G p e = true ->
  let '(s, y, r) := correction G e in 0 < ip s y /\ r = / ip s y.
Proof.
  intros Ht. unfold admitted, correction. intros Hc. pose proof (curvature_sy p _ _ _ _ Hc Ht) as Hy. split; [exact Hy|].
  cbn. rewrite Q2R_p1. unfold Rdiv. rewrite Rmult_1_l. reflexivity.
Qed.

Lemma corrections_ok l : Forall good l -> forall s y r, In (s, y, r) (corrections G p l) -> 0 < ip s y /\ r = / ip s y.
Proof.
  unfold corrections. intros Hl.
  assert (Gen : forall cs, (forall s y r, In (s, y, r) cs -> 0 < ip s y /\ r = / ip s y) ->
    forall s y r, In (s, y, r) (fold_left (fun cs e => map (move G (tr A G e)) cs ++ (if admitted G p e then [correction G e] else [])) l cs) -> 0 < ip s y /\ r = / ip s y).
  { induction Hl as [|e l (Iso & Ht & _) Hl IH]; intros cs Hc; [exact Hc|]. cbn [fold_left]. apply IH.
    intros s y r Hin. apply in_app_or in Hin. destruct Hin as [Hin|Hin].
    - apply in_map_iff in Hin. destruct Hin as ([[s0 y0] r0] & E & Hin). injection E as <- <- <-.
      rewrite Iso. now apply Hc.
    - destruct (admitted G p e) eqn:Ea; [|destruct Hin]. destruct Hin as [E|[]].
      pose proof (admitted_sy e Ht Ea) as K. rewrite E in K. exact K. }
  apply Gen. intros s y r [].
Qed.

Lemma scaling_pos l : Forall good l -> 0 < (scaling G p l : R).
Proof.
  intros Hl. unfold scaling.
  assert (Gen : forall g : R, 0 < g -> 0 < (fold_left (fun g e => let '(s, y, _) := correction G e in
    if admitted G p e then fdiv (qmet A G s y) (qmet A G y (sprec A G e y)) else g) l g : R)).
  { induction Hl as [|e l (Iso & Ht & _ & Pp) Hl IH]; intros g Hg; [exact Hg|]. cbn [fold_left]. apply IH.
    destruct (admitted G p e) eqn:Ea; [|now destruct (correction G e) as [[? ?] ?]].
    pose proof (admitted_sy e Ht Ea) as K. destruct (correction G e) as [[s y] r]. destruct K as [K _].
    assert (N : ip s y <> 0) by lra. pose proof (proj2 Pp _ (pos_of_sy _ _ N)) as Hq. rewrite (ip_sym _ HG) in Hq.
    apply (Rdiv_lt_0_compat (ip s y) (ip y (sprec A G e y))); assumption. }
  apply Gen. cbn. rewrite Q2R_p1. lra.
Qed.

Lemma In_skipn {X} n (l : list X) x : In x (skipn n l) -> In x l.
Proof. revert l. induction n as [|n IH]; intros [|y l] H; cbn in *; auto. Qed.

Lemma lbfgs_spd l P : Forall good l -> spd G P ->
  exists m H, lupdates A G p (mem0 A G p) l = Some m /\ spd G H /\ forall v, hv A G p P m v = Some (H v).
Proof.
  intros Hl HP. destruct (lupdates_holds G p l _ _ (mem0_holds G p)) as (m & E & Hh).
  destruct (suffix_of G p l) as [n En].
  exists m, (recursive G P (mgamma A G m) (rev (skipn n (corrections G p l)))). split; [exact E|]. split.
  - apply recursive_spd; [exact HP| |].
    + rewrite (lupdates_gamma G p _ _ _ E). apply (scaling_pos l Hl).
    + intros s y r Hin. apply in_rev in Hin. apply In_skipn in Hin. now apply (corrections_ok l Hl).
  - intros v. rewrite (hv_spec G p P _ _ v Hh), En. reflexivity.
Qed.
End solver.
End alg.
