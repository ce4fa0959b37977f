(** Proofs about the conjugate gradient directions. *)
From Coq Require Import QArith Reals List Bool Lra Lia Psatz Arith Qreals.
From Verif Require Import Arith TrustRegionModel TrustRegionSpec TCGProofs DirectionModel DirectionSpec.
Local Open Scope R_scope.

Lemma littenth : Q2R (1#10) = / 10. Proof. unfold Q2R. simpl. lra. Qed.

Section rcg.
Context {big eps : R}.
Notation A := (R_arith big eps).
Context (G : rgeo A) (m : rcgmethod) (HG : metric_laws G).

Notation neg v := (rscal G (@fq A (-1)) v).

Lemma met_neg x v w : rmet G x (neg v) w = - rmet G x v w.
Proof. rewrite (m_scal G HG). change (@fq A (-1)) with (Q2R (-1)). rewrite litm1. ringR. Qed.

Lemma not_descent_true (s : rcg A G) (v : RT G) : 0 < rngf1 s ->
  not_descent A G s v = true <-> - sqrt eps * (rngf1 s * rngf1 s) <= rmet G (rx1 s) v (rgf1 s).
Proof.
  intros Hn. unfold not_descent.
  change (fle _ _) with (Rleb (- sqrt eps) (rmet G (rx1 s) v (rgf1 s) / rngf1 s / rngf1 s)).
  rewrite Rleb_true. set (a := rmet G (rx1 s) v (rgf1 s)). set (n := rngf1 s) in *.
  assert (0 < n * n) by (apply Rmult_lt_0_compat; exact Hn).
  replace (@fdiv A (@fdiv A a n) n) with (a / (n * n)) by (change (a / (n * n) = a / n / n); field; apply Rgt_not_eq; exact Hn).
  change (a / n / n) with (Rdiv (Rdiv a n) n).
  assert (E : a / n / n = a / (n * n)) by (field; apply Rgt_not_eq; exact Hn). rewrite E.
  split; intros H0.
  - apply Rmult_le_compat_r with (r := n * n) in H0; [|lra]. unfold Rdiv in H0. rewrite Rmult_assoc, Rinv_l, Rmult_1_r in H0; [exact H0|lra].
  - apply Rmult_le_reg_r with (n * n); [lra|]. unfold Rdiv. rewrite Rmult_assoc, Rinv_l, Rmult_1_r; [exact H0|lra].
Qed.

Lemma not_descent_false (s : rcg A G) (v : RT G) : 0 < rngf1 s -> not_descent A G s v = false ->
  rmet G (rx1 s) v (rgf1 s) < - sqrt eps * (rngf1 s * rngf1 s).
Proof.
  intros Hn E. destruct (Rle_dec (- sqrt eps * (rngf1 s * rngf1 s)) (rmet G (rx1 s) v (rgf1 s))) as [H0|H0]; [|lra].
  apply not_descent_true in H0; [congruence|exact Hn].
Qed.

Lemma gsd_keeps (s : rcg A G) : rx1 (get_search_dir A G s) = rx1 s /\ rgf1 (get_search_dir A G s) = rgf1 s /\
  rngf1 (get_search_dir A G s) = rngf1 s /\ riter (get_search_dir A G s) = riter s.
Proof. unfold get_search_dir. destruct (_ || _); auto. Qed.

Definition unit_ok (s : rcg A G) := rngf1 s = sqrt (rmet G (rx1 s) (rgf1 s) (rgf1 s)).

Lemma gsd_descent (s : rcg A G) : unit_ok s -> 0 < rmet G (rx1 s) (rgf1 s) (rgf1 s) ->
  let e := reta1 (get_search_dir A G s) in
  e = neg (rgf1 s) \/
  rmet G (rx1 s) e (rgf1 s) < - sqrt eps * rmet G (rx1 s) (rgf1 s) (rgf1 s).
Proof.
  intros U Hg. unfold unit_ok in U.
  assert (Hn : 0 < rngf1 s) by (rewrite U; apply sqrt_lt_R0; exact Hg).
  assert (Sq : rngf1 s * rngf1 s = rmet G (rx1 s) (rgf1 s) (rgf1 s)) by (rewrite U; apply sqrt_sqrt; lra).
  unfold get_search_dir.
  destruct (Nat.eqb (riter s) 0 || not_descent A G s (reta1 s)) eqn:E; cbn [reta1].
  - destruct (not_descent A G s (neg (rprec G (rx1 s) (rgf1 s)))) eqn:E2; [left; reflexivity|].
    right. apply not_descent_false in E2; [|exact Hn]. rewrite Sq in E2. exact E2.
  - right. apply orb_false_iff in E. destruct E as [_ E]. apply not_descent_false in E; [|exact Hn]. rewrite Sq in E. exact E.
Qed.

Lemma at_unit ls x0 g0 e0 p0 sg k : unit_ok (rcg_at A G m ls (rcg_start A G x0 g0 e0 p0 sg) k).
Proof.
  destruct k as [|k]; [reflexivity|]. cbn [rcg_at]. unfold rcg_pass.
  destruct (ls _) as [[e2 x2] g2]. reflexivity.
Qed.

Theorem direction_descent ls x0 g0 e0 p0 sg k :
  let s := rcg_dir A G m ls (rcg_start A G x0 g0 e0 p0 sg) k in
  0 < rmet G (rx1 s) (rgf1 s) (rgf1 s) -> rmet G (rx1 s) (reta1 s) (rgf1 s) < 0.
Proof.
  intros s Hg. unfold s, rcg_dir in *. set (s1 := rcg_at _ _ _ _ _ _) in *.
  destruct (gsd_keeps s1) as (E1 & E2 & _). rewrite E1, E2 in *.
  assert (U : unit_ok s1) by apply at_unit.
  destruct (gsd_descent s1 U Hg) as [E|E].
  - rewrite E, met_neg. apply Ropp_lt_gt_0_contravar. exact Hg.
  - pose proof (sqrt_pos eps) as Hs.
    assert (0 <= sqrt eps * rmet G (rx1 s1) (rgf1 s1) (rgf1 s1)) by (apply Rmult_le_pos; [exact Hs|apply Rlt_le; exact Hg]).
    eapply Rlt_le_trans; [exact E|]. rewrite Ropp_mult_distr_l_reverse. lra.
Qed.
End rcg.

Section linear.
Context {big eps : R}.
Notation A := (R_arith big eps).
Context (G : rgeo A) (m : rcgmethod) (HE : euclidean G) (H : RT G -> RT G) (HQ : convex_quadratic G H).
Context (Heps : 0 <= eps < 1) (Hm : m <> OTHER) (x0 : RP G).
Notation inp v w := (rmet G x0 v w : R).
Let HL : metric_laws G := e_laws G HE.
Lemma flat x v w : rmet G x v w = inp v w. Proof. apply (e_flat G HE). Qed.
Lemma isym v w : inp v w = inp w v. Proof. apply (m_sym G HL). Qed.
Lemma icomb a v b w u : inp (rcomb G a v b w) u = a * inp v u + b * inp w u. Proof. apply (m_comb G HL). Qed.
Lemma iscal a v u : inp (rscal G a v) u = a * inp v u. Proof. apply (m_scal G HL). Qed.
Lemma itran x1 e x2 v u : inp (rtran G x1 e x2 v) u = inp v u. Proof. apply (e_tran G HE). Qed.
Lemma itran' x1 e x2 v u : inp u (rtran G x1 e x2 v) = inp u v. Proof. rewrite isym, itran. apply isym. Qed.
Lemma iprec x v u : inp (rprec G x v) u = inp v u. Proof. apply (e_prec G HE). Qed.
Lemma iprec' x v u : inp u (rprec G x v) = inp u v. Proof. rewrite isym, iprec. apply isym. Qed.
Lemma ineg v u : inp (rscal G (@fq A (-1)) v) u = - inp v u.
Proof. rewrite iscal. change (@fq A (-1)) with (Q2R (-1)). rewrite litm1. ringR. Qed.

(** All six rules give |g'|^2 / |g|^2 when g' is orthogonal to g and to d, and <g,d> = -|g|^2. *)
Lemma rules (s : rcg A G) x2 g2 Tg Te Pg :
  (forall u, inp Tg u = inp (rgf1 s) u) -> (forall u, inp Te u = inp (reta1 s) u) -> (forall u, inp Pg u = inp g2 u) ->
  (forall u, inp (rPgf1 s) u = inp (rgf1 s) u) ->
  0 < inp (rgf1 s) (rgf1 s) -> inp (rgf1 s) (reta1 s) = - inp (rgf1 s) (rgf1 s) ->
  inp g2 (rgf1 s) = 0 -> inp g2 (reta1 s) = 0 ->
  beta_rule A G m s x2 g2 Tg Te Pg = inp g2 g2 / inp (rgf1 s) (rgf1 s).
Proof.
  intros HT He HP HP1 Hg Hgd Hgg Hge.
  set (y := rcomb G (@fq A 1) g2 (@fq A (-1)) Tg).
  assert (Y : forall u, inp y u = inp g2 u - inp (rgf1 s) u).
  { intros u. unfold y. rewrite icomb, HT. change (@fq A (-1)) with (Q2R (-1)). change (@fq A 1) with (Q2R 1). rewrite litm1, lit1. ringR. }
  assert (HP' : forall u, inp u Pg = inp u g2) by (intros u; rewrite isym, HP; apply isym).
  assert (He' : forall u, inp u Te = inp u (reta1 s)) by (intros u; rewrite isym, He; apply isym).
  assert (HP1' : forall u, inp u (rPgf1 s) = inp u (rgf1 s)) by (intros u; rewrite isym, HP1; apply isym).
  assert (a1 : rmet G x2 g2 Pg = inp g2 g2) by (rewrite flat; apply HP').
  assert (a2 : rmet G (rx1 s) (rgf1 s) (rPgf1 s) = inp (rgf1 s) (rgf1 s)) by (rewrite flat; apply HP1').
  assert (a3 : rmet G x2 Pg y = inp g2 g2).
  { rewrite flat, isym, Y, HP', HP', (isym (rgf1 s) g2), Hgg. ringR. }
  assert (a4 : rmet G x2 y Te = inp (rgf1 s) (rgf1 s)).
  { rewrite flat, Y, !He', Hge, Hgd. ringR. }
  pose proof (m_pos G HL x0 g2) as P2. cbn in P2.
  set (b := inp g2 g2 / inp (rgf1 s) (rgf1 s)).
  assert (B : 0 <= b) by (apply Rmult_le_pos; [exact P2|apply Rlt_le, Rinv_0_lt_compat; exact Hg]).
  unfold beta_rule. fold y. rewrite a1, a2, a3, a4. destruct m; cbv zeta.
  - reflexivity.
  - change (@flt A ?a ?b) with (Rltb a b). change (@fdiv A ?a ?b) with (Rdiv a b). fold b.
    change (@fq A 0) with (Q2R 0). rewrite lit0. destruct (Rltb b 0) eqn:E; [|reflexivity]. apply Rltb_true in E. lra.
  - reflexivity.
  - change (@flt A ?a ?b) with (Rltb a b). change (@fdiv A ?a ?b) with (Rdiv a b). fold b.
    change (@fopp A b) with (- b). destruct (Rltb b (- b)) eqn:E; [apply Rltb_true in E; lra|].
    destruct (Rltb b b) eqn:E2; reflexivity.
  - reflexivity.
  - rewrite (flat x2 (rcomb _ _ _ _ _)), icomb, !HP', (isym Te g2), He', Hge, Y, (isym (rgf1 s) g2), Hgg.
    change (@fq A 1) with (Q2R 1). rewrite lit1.
    match goal with |- @fdiv _ (_ + ?c * 0) _ = _ => set (q := c) end.
    unfold b. change (@fdiv A ?a ?b) with (Rdiv a b).
    match goal with |- @eq _ ?a ?b => change (@eq R a b) end. unfold Rdiv. f_equal. ringR.
  - now elim Hm.
Qed.

Context (ls : rcg A G -> RT G * RP G * RT G) (Hls : exact_search H ls).
Context (g0 e0 p0 : RT G) (sg : R).
Notation st k := (rcg_dir A G m ls (rcg_start A G x0 g0 e0 p0 sg) k).
Notation g k := (rgf1 (st k)). Notation d k := (reta1 (st k)).

(** What one pass does in terms of gradients and directions. *)
Record CG (n : nat) : Prop := {
  c_nz : forall i, (i <= n)%nat -> 0 < inp (g i) (g i);
  c_P : forall u, inp (rPgf1 (st n)) u = inp (g n) u;
  c_0 : forall u, inp (d 0) u = - inp (g 0) u;
  c_S : forall k u, (S k <= n)%nat -> inp (d (S k)) u = - inp (g (S k)) u + inp (g (S k)) (g (S k)) / inp (g k) (g k) * inp (d k) u;
  c_gd : forall i, (i <= n)%nat -> inp (g i) (d i) = - inp (g i) (g i);
  c_step : forall i, (i < n)%nat -> exists t, 0 < t /\ forall u, inp (g (S i)) u = inp (g i) u + t * inp (H (d i)) u;
  c_gdi : forall i, (i < n)%nat -> inp (g n) (d i) = 0;
  c_ggi : forall i, (i < n)%nat -> inp (g n) (g i) = 0;
  c_conj : forall i, (i < n)%nat -> inp (d n) (H (d i)) = 0
}.

Lemma ndesc_false (s : rcg A G) (v : RT G) : unit_ok G s -> 0 < inp (rgf1 s) (rgf1 s) ->
  inp v (rgf1 s) = - inp (rgf1 s) (rgf1 s) -> not_descent A G s v = false.
Proof.
  intros U Hg E. unfold unit_ok in U. rewrite flat in U.
  assert (Hn : 0 < rngf1 s) by (rewrite U; apply sqrt_lt_R0; exact Hg).
  destruct (not_descent A G s v) eqn:D; [|reflexivity].
  apply not_descent_true in D; [|exact Hn]. rewrite flat, E, U, sqrt_sqrt in D by (apply Rlt_le; exact Hg).
  assert (L : sqrt eps < 1). { rewrite <- sqrt_1. apply sqrt_lt_1; lra. }
  assert (sqrt eps * inp (rgf1 s) (rgf1 s) < 1 * inp (rgf1 s) (rgf1 s)) by (apply Rmult_lt_compat_r; [exact Hg|exact L]).
  exfalso. rewrite Ropp_mult_distr_l_reverse in D. lra.
Qed.

Lemma CG_0 : 0 < inp (g 0) (g 0) -> CG 0.
Proof.
  intros Hg. set (s0 := rcg_start A G x0 g0 e0 p0 sg).
  assert (E : st 0 = mkRcg x0 g0 (rngf1 s0) (rscal G (@fq A (-1)) (rprec G x0 g0)) (rprec G x0 g0) 0%nat sg).
  { unfold rcg_dir. cbn [rcg_at]. fold s0. unfold get_search_dir.
    replace (riter s0) with 0%nat by reflexivity. cbn [Nat.eqb orb].
    assert (D : not_descent A G s0 (rscal G (fq (-1)) (rprec G (rx1 s0) (rgf1 s0))) = false).
    { apply ndesc_false; [reflexivity| |rewrite ineg, iprec; reflexivity]. 
      destruct (gsd_keeps G s0) as (_ & K & _). unfold rcg_dir in Hg. cbn [rcg_at] in Hg. fold s0 in Hg. rewrite K in Hg. exact Hg. }
    rewrite D. reflexivity. }
  assert (Eg : g 0 = g0) by (rewrite E; reflexivity).
  constructor.
  - intros i Hi. replace i with 0%nat by lia. exact Hg.
  - intros u. rewrite E. cbn [rPgf1 rgf1]. apply iprec.
  - intros u. rewrite E. cbn [reta1 rgf1]. rewrite ineg, iprec. reflexivity.
  - intros; lia.
  - intros i Hi. replace i with 0%nat by lia. rewrite E. cbn [reta1 rgf1]. rewrite isym, ineg, iprec. reflexivity.
  - intros; lia. - intros; lia. - intros; lia. - intros; lia.
Qed.

Lemma st_S n : st (S n) = get_search_dir A G (let '(eta2, x2, gf2) := ls (st n) in update_data A G m (st n) eta2 x2 gf2).
Proof. reflexivity. Qed.

Lemma CG_S n : CG n -> 0 < inp (g (S n)) (g (S n)) -> CG (S n).
Proof.
  intros C Hnew.
  destruct (ls (st n)) as [[eta2 x2] gf2] eqn:EL.
  destruct (Hls _ _ _ _ EL) as [[t Ht] Hex]. 
  assert (Ht' : forall u, inp gf2 u = inp (g n) u + t * inp (H (d n)) u).
  { intros u. specialize (Ht u). rewrite !(flat (rx1 (st n))) in Ht. exact Ht. }
  rewrite flat in Hex. clear Ht.
  set (s1 := update_data A G m (st n) eta2 x2 gf2).
  assert (ES : st (S n) = get_search_dir A G s1) by (rewrite st_S, EL; reflexivity).
  assert (Eg : g (S n) = gf2).
  { rewrite ES. destruct (gsd_keeps G s1) as (_ & K & _). rewrite K. reflexivity. }
  rewrite Eg in Hnew.
  pose proof (c_nz n C n (le_n n)) as Hgn.
  pose proof (c_gd n C n (le_n n)) as Hgd.
  (* t > 0 *)
  assert (Hdh : t * inp (d n) (H (d n)) = inp (g n) (g n)).
  { pose proof (Ht' (d n)) as K. rewrite Hex, Hgd in K. rewrite (isym (H (d n))) in K. lra. }
  assert (Hpos : 0 < inp (d n) (H (d n))).
  { apply (q_pos G H HQ x0). exists (g n). rewrite isym, Hgd. apply Ropp_neq_0_compat, Rgt_not_eq. exact Hgn. }
  assert (Htp : 0 < t).
  { destruct (Rle_dec t 0) as [L|L]; [|lra]. assert (t * inp (d n) (H (d n)) <= 0 * inp (d n) (H (d n))) by (apply Rmult_le_compat_r; [apply Rlt_le; exact Hpos|exact L]). lra. }
  (* orthogonality to old directions *)
  assert (Ogd : forall i, (i <= n)%nat -> inp gf2 (d i) = 0).
  { intros i Hi. destruct (Nat.eq_dec i n) as [->|Ne]; [exact Hex|].
    rewrite Ht', (c_gdi n C) by lia. rewrite (q_sym G H HQ), (c_conj n C) by lia. ringR. }
  assert (Ogg : forall i, (i <= n)%nat -> inp gf2 (g i) = 0).
  { intros i Hi. destruct i as [|i].
    - rewrite isym. pose proof (c_0 n C gf2) as K. rewrite isym, Ogd in K by lia. lra.
    - pose proof (c_S n C i gf2 Hi) as K. rewrite (isym (d (S i))), Ogd in K by lia. rewrite (isym (d i)), Ogd in K by lia.
      rewrite isym. lra. }
  set (b := inp gf2 gf2 / inp (g n) (g n)).
  assert (Bp : 0 < b) by (apply Rdiv_lt_0_compat; [exact Hnew|exact Hgn]).
  (* sigma *)
  assert (Esg : sigma_of A G m (st n) eta2 x2 gf2 = b).
  { unfold sigma_of. 
    assert (N : flt (fq (1#10)) (fdiv (fabs (rmet G x2 gf2 (rtran G (rx1 (st n)) eta2 x2 (g n)))) (rmet G (rx1 (st n)) (g n) (g n))) = false).
    { change (Rltb (Q2R (1#10)) (Rabs (rmet G x2 gf2 (rtran G (rx1 (st n)) eta2 x2 (g n))) / rmet G (rx1 (st n)) (g n) (g n)) = false).
      rewrite (flat x2), (flat (rx1 (st n))), itran', (Ogg n (le_n n)), Rabs_R0, littenth. apply Rltb_false. unfold Rdiv. rewrite Rmult_0_l. lra. }
    rewrite N. unfold b. apply rules; auto.
    - intros u. apply itran. - intros u. apply itran. - intros u. apply iprec. - apply (c_P n C). }
  assert (E1 : reta1 s1 = rcomb G (@fq A (-1)) gf2 b (rtran G (rx1 (st n)) eta2 x2 (d n))).
  { unfold s1, update_data. cbn [reta1]. rewrite Esg.
    assert (N : @feq A b (fq 0) = false) by (change (Reqb b (Q2R 0) = false); rewrite lit0; apply Reqb_false; lra).
    rewrite N. reflexivity. }
  assert (D1 : forall u, inp (reta1 s1) u = - inp gf2 u + b * inp (d n) u).
  { intros u. rewrite E1, icomb, itran. change (@fq A (-1)) with (Q2R (-1)). rewrite litm1. ringR. }
  assert (Gd1 : inp (reta1 s1) gf2 = - inp gf2 gf2).
  { rewrite D1, (isym (d n)), (Ogd n (le_n n)). ringR. }
  assert (ES2 : get_search_dir A G s1 = s1).
  { unfold get_search_dir. replace (riter s1) with (S (riter (st n))) by reflexivity. cbn [Nat.eqb orb].
    assert (D : not_descent A G s1 (reta1 s1) = false).
    { apply ndesc_false; [reflexivity| |]; replace (rgf1 s1) with gf2 by reflexivity; [exact Hnew|exact Gd1]. }
    rewrite D. reflexivity. }
  assert (ES3 : st (S n) = s1) by (rewrite ES; exact ES2).
  assert (Ed : d (S n) = reta1 s1) by (rewrite ES3; reflexivity).
  assert (HgS : forall u, inp gf2 (H u) = inp gf2 (H u)) by reflexivity.
  assert (Cj : forall i, (i <= n)%nat -> inp (reta1 s1) (H (d i)) = 0).
  { intros i Hi. rewrite D1. destruct (Nat.eq_dec i n) as [->|Ne].
    - assert (K : t * inp gf2 (H (d n)) = inp gf2 gf2).
      { pose proof (Ht' gf2) as K. rewrite (isym (g n)), (Ogg n (le_n n)), (isym (H (d n))) in K. lra. }
      apply Rmult_eq_reg_l with t; [|lra].
      replace (t * (- inp gf2 (H (d n)) + b * inp (d n) (H (d n)))) with (- (t * inp gf2 (H (d n))) + b * (t * inp (d n) (H (d n)))) by ring.
      rewrite K, Hdh. unfold b. field. apply Rgt_not_eq. exact Hgn.
    - destruct (c_step n C i ltac:(lia)) as (ti & Hti & Ei).
      rewrite (c_conj n C) by lia.
      assert (K : ti * inp gf2 (H (d i)) = 0).
      { pose proof (Ei gf2) as K. rewrite !(isym _ gf2) in K. rewrite (Ogg (S i)), (Ogg i) in K by lia. lra. }
      assert (inp gf2 (H (d i)) = 0). { apply Rmult_eq_reg_l with ti; [|lra]. rewrite K. ring. }
      lra. }
  constructor.
  - intros i Hi. destruct (Nat.eq_dec i (S n)) as [->|Ne]; [rewrite Eg; exact Hnew|apply (c_nz n C); lia].
  - intros u. rewrite Eg, ES3. unfold s1, update_data; cbn [rPgf1]. apply iprec.
  - apply (c_0 n C).
  - intros k u Hk. destruct (Nat.eq_dec k n) as [->|Ne]; [|apply (c_S n C); lia].
    rewrite Ed, Eg, D1. reflexivity.
  - intros i Hi. destruct (Nat.eq_dec i (S n)) as [->|Ne]; [|apply (c_gd n C); lia].
    rewrite Ed, Eg, isym. exact Gd1.
  - intros i Hi. destruct (Nat.eq_dec i n) as [->|Ne]; [|apply (c_step n C); lia].
    exists t. split; [exact Htp|]. intros u. rewrite Eg. apply Ht'.
  - intros i Hi. rewrite Eg. apply Ogd. lia.
  - intros i Hi. rewrite Eg. apply Ogg. lia.
  - intros i Hi. rewrite Ed. apply Cj. lia.
Qed.

Lemma CG_all n : (forall i, (i <= n)%nat -> 0 < inp (g i) (g i)) -> CG n.
Proof.
  induction n as [|n IH]; intros Hnz.
  - apply CG_0. apply Hnz. lia.
  - apply CG_S; [apply IH; intros; apply Hnz; lia|apply Hnz; lia].
Qed.

Theorem linear_cg n : (forall i, (i <= n)%nat -> 0 < inp (g i) (g i)) ->
  textbook_cg (fun v w => inp v w) (fun k => g k) (fun k => d k) n /\
  (forall i j, (i < j <= n)%nat -> inp (g j) (g i) = 0 /\ inp (d j) (H (d i)) = 0).
Proof.
  intros Hnz. split.
  - pose proof (CG_all n Hnz) as C. split; [apply (c_0 n C)|apply (c_S n C)].
  - intros i j Hij. assert (C : CG j) by (apply CG_all; intros; apply Hnz; lia).
    split; [apply (c_ggi j C); lia|apply (c_conj j C); lia].
Qed.
End linear.
