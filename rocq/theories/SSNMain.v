(** Proofs about the proximal mapping on a tangent space, exact arithmetic: the whole function. *)
From Coq Require Import List Arith Reals Lra Lia QArith Qreals Bool.
Import ListNotations.
From Verif Require Import Arith MatOpsModel MatOpsReal TangentModel TangentSpec TangentProofs TangentOps TangentSphere ProxModel ProxSpec ProxProofs ProxReal.
From Verif Require Import SSNModel SSNSpec SSNProofs SSNOpt SSNCG.
Local Close Scope Q_scope.
Local Open Scope R_scope.

Lemma cauchy_schwarz (u v : list R) : length u = length v -> inner u v <= sqrt (inner u u) * sqrt (inner v v).
Proof.
  intros L. rewrite <- sqrt_mult by apply inner_ge0.
  destruct (Rle_dec (inner u v) 0) as [?|H]; [pose proof (sqrt_pos (inner u u * inner v v)); lra|].
  rewrite <- (sqrt_square (inner u v)) by lra. apply sqrt_le_1_alt.
  pose proof (inner_ge0 (comb (- (inner u v)) u (comb (inner u u) v (zero (length v))))) as P.
  rewrite !inner_comb, !inner_combr, ?inner_zero_l, ?inner_zero_r in P by vlen. rewrite (inner_sym v u) in P.
  pose proof (inner_ge0 u). destruct (Req_dec (inner u u) 0) as [E0|E0].
  - assert (u = zero (length u)) by (apply inner_self_zero; auto; lra). rewrite H1 in H. rewrite inner_zero_l in H. lra.
  - apply Rmult_le_reg_l with (inner u u); [lra|]. nra.
Qed.

Section main.
Variables big eps : R.
Notation A := (R_arith big eps).
Variables N E proj P : list R -> list R.
Variable jac : list R -> list R -> list R.
Variable m : nat.
Variables x g W : list R.
Variables SMtol SMlambda : R.
Notation d := (length x).
Hypothesis NS : normal_space d m N E proj.
Hypothesis HW : good_weights W d.
Hypothesis Hg : length g = d.
Notation bl := (@blambda A E x g W).
Notation gld := (@gldw A N E jac x W).
Notation rmap := (@proximal_map A N E proj P jac x g W SMtol SMlambda m).
Notation trial := (@trial A N E P x g W).
Notation pass := (@ssn_pass A N E P jac x g W SMlambda m).
Notation loop := (@ssn_loop A N E P jac x g W SMtol SMlambda m).
Notation dir := (@newton_dir A N E jac x W SMlambda m).
Notation back := (@backtrack A N E P x g W).

(** Lengths. *)
Section lengths.
Hypothesis Hgl : forall (b v : list R), length b = d -> length v = m -> length (gld b v : list R) = m.
Lemma cg_length b mu tau ln n : forall k (res r p : list R), length b = d -> length res = m -> length r = m -> length p = m ->
  length (fst (@cg_loop A N E jac x W b mu tau ln n k res r p) : list R) = m.
Proof.
  induction n as [|n IH]; intros k res r p H0 H1 H2 H3; cbn [cg_loop]; [exact H1|].
  destruct (flt _ _); [|exact H1]. cbv zeta. pose proof (Hgl b p H0 H3) as HG.
  apply IH; auto; unfold cg_op; rewrite ?axpyE; rewrite ?scalE; vlen.
Qed.
Lemma dir_length (s : @ssn A) : length (sB s : list R) = d -> length (sF s : list R) = m -> length (sd s : list R) = m -> length (fst (dir s) : list R) = m.
Proof.
  intros H0 H1 H2. unfold newton_dir, cg. pose proof (Hgl (sB s) (sd s) H0 H2) as HG.
  apply cg_length; auto; unfold cg_op; rewrite ?axpyE, ?scalE; rewrite ?axpyE, ?scalE; vlen.
Qed.
Definition sized (s : @ssn A) : Prop := length (sz s : list R) = m /\ length (sF s : list R) = m /\ length (sd s : list R) = m /\ length (sB s : list R) = d.
Hypothesis HPlen : forall z : list R, length z = m -> length (ew (A := A) N P x (bl z) : list R) = m.
Lemma pass_sized s : sized s -> sized (snd (pass s)).
Proof.
  intros (H1 & H2 & H3 & H4). unfold ssn_pass. pose proof (dir_length s H4 H2 H3) as Ld. destruct (dir s) as [dd c]. cbn [fst] in Ld.
  destruct (backtrack_trial (A := A) N E P x g W maxSMbtiter 0 (sz s) dd (fnorm (sF s)) (lit 1) (trial (sz s) dd (lit 1))) as [a Ha]; [eauto|].
  destruct (back _ _ _ _ _ _ _) as [bt [[u Fu] B]]. cbn in Ha. injection Ha as -> -> ->.
  assert (Lu : length (axpy (A := A) a dd (sz s) : list R) = m) by (rewrite axpyE; vlen).
  pose proof (length_bl big eps N E proj m x g W NS HW Hg _ Lu) as Lb.
  destruct (_ && _)%bool; cbn; unfold sized; cbn; auto.
Qed.
Lemma loop_sized n : forall s, sized s -> sized (snd (loop n s)).
Proof.
  induction n as [|n IH]; intros s Hs; cbn [ssn_loop]; auto. destruct (flt _ _); auto.
  pose proof (pass_sized s Hs) as H. destruct (pass s) as [e s']. cbn in H. destruct e; auto.
Qed.
Lemma init_sized (z : list R) : length z = m -> sized (@ssn_init A N E P x g W m z).
Proof. intros L. pose proof (length_bl big eps N E proj m x g W NS HW Hg _ L) as Lb. unfold sized, ssn_init. cbn. rewrite repeat_length. auto. Qed.
Lemma mult_length (z : list R) o : length z = m -> rmap z = Some o -> length (omult o : list R) = m.
Proof.
  intros L Ho. rewrite (ran _ _ _ _ _ _ _ _ _ _ _ _ _ Ho).
  pose proof (loop_sized SMmaxiter _ (init_sized z L)) as H. destruct (loop SMmaxiter _) as [e s]. cbn. apply H.
Qed.
End lengths.

(** The matrices of the Newton steps. *)
Lemma E_comb a u v : length u = m -> length v = m -> E (comb a u v) = comb a (E u) (E v).
Proof.
  intros Lu Lv. pose proof (ns_lenE _ _ _ _ _ NS u Lu) as L1. pose proof (ns_lenE _ _ _ _ _ NS v Lv) as L2.
  pose proof (ns_lenE _ _ _ _ _ NS (comb a u v) ltac:(vlen)) as L3.
  symmetry. apply comb_minus_eq; [vlen|].
  set (w := comb (-1) (E (comb a u v)) (comb a (E u) (E v))). assert (Lw : length w = d) by (unfold w; vlen).
  rewrite length_comb, L2 by congruence. apply inner_self_zero; auto. unfold w at 2. rewrite !inner_combr by vlen.
  rewrite <- !(ns_adj _ _ _ _ _ NS) by vlen. pose proof (ns_len _ _ _ _ _ NS w Lw) as Ln. rewrite inner_combr by congruence. lra.
Qed.
Lemma len_gld (b v : list R) : (forall w, length w = d -> length (jac b w) = d) -> length v = m -> length (gld b v : list R) = m.
Proof.
  intros HJ Lv. unfold gldw. apply (ns_len _ _ _ _ _ NS). rewrite length_scale. apply HJ. now apply (ns_lenE _ _ _ _ _ NS).
Qed.
Lemma diag_len (J : list R -> list R) w : diagonal d J -> length w = d -> length (J w) = d.
Proof. intros (c & _ & HJ) Lw. now rewrite HJ, map_length, seq_length by auto. Qed.
Lemma nth_diag (c : nat -> R) (v : list R) k : (k < d)%nat -> nth k (map (fun k => c k * nth k v 0) (seq 0 d)) 0 = c k * nth k v 0.
Proof. intros Hk. now rewrite (map_seq_nth (fun k => c k * nth k v 0)). Qed.
Lemma gld_inner (b : list R) (c : nat -> R) (u v : list R) : (forall w, length w = d -> jac b w = map (fun k => c k * nth k w 0) (seq 0 d)) ->
  length u = m -> length v = m ->
  inner (gld b u) v = entry_sum d (fun k => c k / entry_weight W d k * (nth k (E u) 0 * nth k (E v) 0)).
Proof.
  intros Hc Lu Lv. pose proof (ns_lenE _ _ _ _ _ NS u Lu) as L1. pose proof (ns_lenE _ _ _ _ _ NS v Lv) as L2.
  assert (L3 : length (jac b (E u)) = d) by now rewrite Hc, map_length, seq_length by auto.
  unfold gldw. rewrite (ns_adj _ _ _ _ _ NS); auto; [|now rewrite length_scale].
  rewrite inner_es by (rewrite length_scale; congruence). rewrite length_scale, L3. apply es_ext. intros k Hk.
  rewrite (nth_scale big eps x W HW) by auto. rewrite Hc, nth_diag by auto. pose proof (weight_pos W d k HW Hk). field. lra.
Qed.
Lemma scale_comb a (u v : list R) : length u = d -> length v = d ->
  (scale_blocks (A := A) x W (comb a u v) : list R) = comb a (scale_blocks (A := A) x W u) (scale_blocks (A := A) x W v).
Proof.
  intros Lu Lv. apply vec_eq.
  - rewrite length_scale. rewrite !length_comb; rewrite ?length_scale; congruence.
  - intros k Hk. rewrite length_scale, length_comb in Hk by congruence. rewrite Lv in Hk.
    rewrite nth_comb by (rewrite !length_scale; congruence). rewrite !(nth_scale big eps x W HW) by vlen. rewrite nth_comb by congruence. ring.
Qed.
Theorem gld_psd (b : list R) : diagonal d (jac b) -> psd_map m (gld b : list R -> list R).
Proof.
  intros HJ. pose proof HJ as (c & Hc0 & Hc). split.
  - intros v Lv. apply len_gld; auto. intros w Lw. now apply diag_len.
  - intros a u v Lu Lv. pose proof (ns_lenE _ _ _ _ _ NS u Lu) as L1. pose proof (ns_lenE _ _ _ _ _ NS v Lv) as L2.
    pose proof (diag_len _ _ HJ L1) as L3. pose proof (diag_len _ _ HJ L2) as L4.
    unfold gldw. rewrite E_comb by auto.
    assert (EJ : jac b (comb a (E u) (E v)) = comb a (jac b (E u)) (jac b (E v))).
    { apply vec_eq; [rewrite diag_len by vlen; vlen|]. intros k Hk. rewrite diag_len in Hk by vlen.
      rewrite nth_comb by congruence. rewrite !Hc by vlen. rewrite !nth_diag by auto. rewrite nth_comb by congruence. ring. }
    rewrite EJ, scale_comb by auto. apply (ns_lin _ _ _ _ _ NS); now rewrite length_scale.
  - intros u v Lu Lv. rewrite (inner_sym u), !(gld_inner b c) by auto. apply es_ext. intros. ring.
  - intros v Lv. rewrite (inner_sym v), (gld_inner b c) by auto. apply es_ge0. intros k Hk.
    apply Rmult_le_pos; [|apply Rle_0_sqr]. apply Rmult_le_pos; auto. left. apply Rinv_0_lt_compat. now apply weight_pos.
Qed.

(** What a finished run returns. *)
Section outcome.
Variable h : list R -> R.
Hypothesis HP : is_prox d W h P.
Hypothesis HJ : forall b w : list R, length b = d -> length w = d -> length (jac b w) = d.
Notation obj := (objective g W h x).
Notation eta := (eta big eps E x g W P).
Lemma ew_length (z : list R) : length z = m -> length (ew (A := A) N P x (bl z) : list R) = m.
Proof.
  intros Lz. rewrite (ewE big eps N E m x g W P z Lz). apply (ns_len _ _ _ _ _ NS).
  now apply (length_eta big eps N E proj m x g W NS HW Hg h P HP).
Qed.
Lemma mlen (z : list R) o : length z = m -> rmap z = Some o -> length (omult o : list R) = m.
Proof. apply mult_length; [intros; now apply len_gld; auto|apply ew_length]. Qed.
Lemma fnorm_sq (v : list R) : fnorm (A := A) v * fnorm (A := A) v = inner v v.
Proof. unfold fnorm. rewrite dotpE. cbn. apply sqrt_sqrt. apply inner_ge0. Qed.
Theorem optimal (z : list R) o : length z = m -> rmap z = Some o -> oearly o = false ->
  exists e : list R, length e = d /\ ostep o = comb (-1) (E (N e)) e /\ N (ostep o) = zero m /\
    (forall v, length v = d -> obj e - inner (N e) (omult o) <= obj v - inner (N v) (omult o)) /\
    (convex d h -> forall v, length v = d -> v <> e -> N v = N e -> obj e < obj v) /\
    ((oiter o < 100)%nat -> inner (N e) (N e) <= SMtol).
Proof.
  intros Lz Ho Hn. pose proof (mlen z o Lz Ho) as Lo.
  destruct (loop_outcome (A := A) N E proj P jac x g W SMtol SMlambda m z o Ho) as (_ & _ & _ & H). destruct (H Hn) as [Hs Ht].
  exists (eta (omult o)). pose proof (length_eta big eps N E proj m x g W NS HW Hg h P HP _ Lo) as Le.
  assert (Es : ostep o = comb (-1) (E (N (eta (omult o)))) (eta (omult o))).
  { rewrite Hs. apply (stepE big eps N E proj m x g W NS HW Hg h P HP); auto. }
  split; [exact Le|]. split; [exact Es|]. split; [|split; [|split]].
  - rewrite Es. now apply (step_tangent big eps N E proj m x g W NS HW Hg h P HP).
  - intros v Lv. now apply (lagrange_min big eps N E proj m x g W NS HW Hg h P HP).
  - intros Hh v Lv Hne En. pose proof (lagrange_growth big eps N E proj m x g W NS HW Hg h P HP _ v Hh Lo Lv) as L.
    rewrite En in L. assert (0 < wsq W (comb (-1) (eta (omult o)) v)); [|lra].
    rewrite (wsqE' W d) by vlen. apply (ip_pos _ _ (wip_ip W d HW)); [vlen|]. intros Ez. apply Hne.
    apply comb_minus_eq; [congruence|]. now rewrite Lv.
  - intros Hi. specialize (Ht Hi). pose proof (ewE big eps N E m x g W P (omult o) Lo) as Ee.
    cbn [Arith.F R_arith] in Ee, Ht. rewrite Ee in Ht. unfold flt in Ht. cbn in Ht. unfold Rltb in Ht.
    destruct (Rlt_dec _ _) as [|Hle]; [discriminate|]. apply Rnot_lt_le in Hle. pose proof (fnorm_sq (N (eta (omult o)))) as Q.
    cbn in Q. rewrite Q in Hle. exact Hle.
Qed.
Theorem exact_solution (z : list R) o : length z = m -> rmap z = Some o -> oearly o = false ->
  SMtol <= 0 -> (oiter o < 100)%nat ->
  length (ostep o : list R) = d /\ N (ostep o) = zero m /\
  (forall v, length v = d -> N v = zero m -> obj (ostep o) <= obj v) /\
  (convex d h -> (forall v, length v = d -> N v = zero m -> v <> ostep o -> obj (ostep o) < obj v) /\
    inner g (ostep o) + h (comb 1 (ostep o) x) <= h x - wsq W (ostep o)).
Proof.
  intros Lz Ho Hn Ht Hi. pose proof (mlen z o Lz Ho) as Lo. destruct (optimal z o Lz Ho Hn) as (e & Le & Es & Et & Hm & Hc & Hr).
  specialize (Hr Hi). pose proof (ns_len _ _ _ _ _ NS e Le) as Ln.
  assert (E0 : N e = zero m) by (apply inner_self_zero; auto; lra).
  assert (Eo : ostep o = e).
  { rewrite Es, E0, (E_zero N E proj m x NS). apply vec_eq; [vlen|]. intros. rewrite nth_comb, nth_zero by vlen. ring. }
  rewrite Eo. split; [exact Le|]. split; [exact E0|].
  assert (M1 : forall v, length v = d -> N v = zero m -> obj e <= obj v).
  { intros v Lv Nv. specialize (Hm v Lv). rewrite E0, Nv, inner_zero_l in Hm. lra. }
  split; [exact M1|]. intros Hh. split.
  - intros v Lv Nv Hne. apply Hc; auto. congruence.
  - (* growth from the step to zero *)
    assert (M2 : wsq W (comb (-1) e (zero d)) / 2 + obj e <= obj (zero d)).
    { destruct (loop_outcome (A := A) N E proj P jac x g W SMtol SMlambda m z o Ho) as (_ & _ & _ & H). destruct (H Hn) as [Hs _].
      pose proof (stepE big eps N E proj m x g W NS HW Hg h P HP _ Lo) as S1. 
      pose proof (length_eta big eps N E proj m x g W NS HW Hg h P HP _ Lo) as Le'.
      pose proof (ewE big eps N E m x g W P (omult o) Lo) as Ee.
      assert (Ne : N (eta (omult o)) = zero m).
      { apply inner_self_zero; [now apply (ns_len _ _ _ _ _ NS)|].
        destruct (H Hn) as [_ Ht2]. specialize (Ht2 Hi). cbn [Arith.F R_arith] in Ee, Ht2. rewrite Ee in Ht2. cbn in Ht2. unfold Rltb in Ht2.
        destruct (Rlt_dec _ _) as [|Hle]; [discriminate|]. apply Rnot_lt_le in Hle. pose proof (fnorm_sq (N (eta (omult o)))) as Q. cbn in Q. rewrite Q in Hle. lra. }
      assert (ee : e = eta (omult o)).
      { rewrite <- Eo. rewrite Hs. rewrite S1, Ne, (E_zero N E proj m x NS). apply vec_eq; [vlen|]. intros. rewrite nth_comb, nth_zero by vlen. ring. }
      pose proof (lagrange_growth big eps N E proj m x g W NS HW Hg h P HP _ (zero d) Hh Lo (length_zero d)) as L.
      rewrite <- ee in L. rewrite E0, (N_zero N E proj m x NS), inner_zero_l in L. lra. }
    assert (Ez : comb 1 (zero d) x = x) by (apply vec_eq; [vlen|]; intros; rewrite nth_comb, nth_zero by vlen; ring).
    unfold objective in M2. rewrite Ez, inner_zero_r in M2.
    assert (W1 : wsq W (zero d) = 0) by (rewrite (wsqE' W d) by apply length_zero; apply es_0; intros; rewrite nth_zero; ring).
    assert (W2 : wsq W (comb (-1) e (zero d)) = wsq W e).
    { rewrite !(wsqE' W d) by vlen. apply es_ext. intros. rewrite nth_comb, nth_zero by vlen. ring. }
    rewrite W1, W2 in M2. lra.
Qed.
(** How far the step is from the solution. *)
Theorem distance (z : list R) o (s zs : list R) : convex d h -> length z = m -> rmap z = Some o -> oearly o = false -> (oiter o < 100)%nat ->
  length s = d -> N s = zero m -> length zs = m -> (forall v, length v = d -> obj s <= obj v - inner (N v) zs) ->
  exists e : list R, length e = d /\ inner (comb (-1) (ostep o) e) (comb (-1) (ostep o) e) <= SMtol /\
    wsq W (comb (-1) s e) <= sqrt SMtol * sqrt (inner (comb (-1) zs (omult o)) (comb (-1) zs (omult o))).
Proof.
  intros Hh Lz Ho Hn Hi Ls Ns Lzs Hs. pose proof (mlen z o Lz Ho) as Lo. exists (eta (omult o)).
  destruct (loop_outcome (A := A) N E proj P jac x g W SMtol SMlambda m z o Ho) as (_ & _ & _ & H). destruct (H Hn) as [Hst Ht]. specialize (Ht Hi).
  pose proof (length_eta big eps N E proj m x g W NS HW Hg h P HP _ Lo) as Le.
  pose proof (length_eta big eps N E proj m x g W NS HW Hg h P HP _ Lzs) as Les.
  pose proof (ewE big eps N E m x g W P (omult o) Lo) as Ee.
  pose proof (ns_len _ _ _ _ _ NS _ Le) as Ln. pose proof (ns_lenE _ _ _ _ _ NS _ Ln) as LE.
  assert (Hr : inner (N (eta (omult o))) (N (eta (omult o))) <= SMtol).
  { cbn [Arith.F R_arith] in Ee, Ht. rewrite Ee in Ht. cbn in Ht. unfold Rltb in Ht.
    destruct (Rlt_dec _ _) as [|Hle]; [discriminate|]. apply Rnot_lt_le in Hle. pose proof (fnorm_sq (N (eta (omult o)))) as Q. cbn in Q. rewrite Q in Hle. exact Hle. }
  split; [exact Le|]. split.
  - pose proof (stepE big eps N E proj m x g W NS HW Hg h P HP _ Lo) as S1. rewrite Hst. cbn [Arith.F R_arith] in S1. rewrite S1.
    match goal with |- inner ?a ?a <= _ => assert (Ea : a = E (N (eta (omult o)))) end.
    { apply vec_eq; [vlen|]. intros. repeat rewrite nth_comb by vlen. ring. }
    rewrite Ea. rewrite <- (ns_adj _ _ _ _ _ NS) by auto. rewrite (ns_unit _ _ _ _ _ NS) by auto. exact Hr.
  - assert (Es : s = eta zs).
    { pose proof (lagrange_growth big eps N E proj m x g W NS HW Hg h P HP zs s Hh Lzs Ls) as L1. specialize (Hs (eta zs) Les).
      rewrite Ns, inner_zero_l in L1. destruct (list_eq_dec Req_EM_T (comb (-1) (eta zs) s) (zero d)) as [E0|E0].
      - apply comb_minus_eq; [congruence|]. now rewrite Ls.
      - assert (0 < wsq W (comb (-1) (eta zs) s)) by (rewrite (wsqE' W d) by vlen; apply (ip_pos _ _ (wip_ip W d HW)); [vlen|exact E0]). lra. }
    pose proof (lagrange_growth big eps N E proj m x g W NS HW Hg h P HP (omult o) s Hh Lo Ls) as L1.
    pose proof (lagrange_growth big eps N E proj m x g W NS HW Hg h P HP zs (eta (omult o)) Hh Lzs Le) as L2.
    rewrite <- Es in L2. rewrite Ns, inner_zero_l in L1, L2.
    assert (Ew : wsq W (comb (-1) (eta (omult o)) s) = wsq W (comb (-1) s (eta (omult o)))).
    { rewrite !(wsqE' W d) by vlen. apply es_ext. intros. rewrite !nth_comb by vlen. ring. }
    rewrite Ew in L1. cbn [Arith.F R_arith] in *. set (r := N (eta (omult o))) in *.
    assert (C : inner r (comb (-1) zs (omult o)) = inner r (omult o) - inner r zs) by (rewrite inner_combr by congruence; ring).
    pose proof (cauchy_schwarz r (comb (-1) zs (omult o)) ltac:(vlen)) as CS.
    assert (sqrt (inner r r) <= sqrt SMtol) by now apply sqrt_le_1_alt.
    pose proof (sqrt_pos (inner (comb (-1) zs (omult o)) (comb (-1) zs (omult o)))).
    assert (sqrt (inner r r) * sqrt (inner (comb (-1) zs (omult o)) (comb (-1) zs (omult o))) <= sqrt SMtol * sqrt (inner (comb (-1) zs (omult o)) (comb (-1) zs (omult o)))) by (apply Rmult_le_compat_r; auto).
    lra.
Qed.
End outcome.

(** The residual. *)
Section residual.
Notation res2 z := (inner (ew (A := A) N P x (bl z)) (ew (A := A) N P x (bl z))).
Definition tsq (t : list R * list R * list R) : R := inner (snd (fst t)) (snd (fst t)).
Lemma fnorm_sq' (v : list R) : fnorm (A := A) v * fnorm (A := A) v = inner v v.
Proof. unfold fnorm. rewrite dotpE. cbn. apply sqrt_sqrt. apply inner_ge0. Qed.
Lemma back_accept n : forall bt (z dd : list R) (nFz alpha : R) t, 0 <= alpha ->
  let (bt', t') := back n bt z dd nFz alpha t in
  (bt <= bt' <= bt + n)%nat /\ ((bt' < bt + n)%nat -> tsq t' <= nFz * nFz) /\
  (bt' = (bt + n)%nat -> t = trial z dd alpha -> t' = trial z dd (alpha / 2 ^ n)).
Proof.
  clear NS HW Hg. induction n as [|n IH]; intros bt z dd nFz alpha t Ha; cbn [backtrack].
  - split; [lia|]. split; [lia|]. intros _ ->. f_equal. cbn. field.
  - destruct (flt _ _) eqn:Ef.
    + assert (Eh : (@fmul A alpha (lit (A := A) (1 # 2)) : R) = alpha / 2) by (cbn; rewrite qhalf; field).
      cbv zeta. cbn [Arith.F R_arith] in *. rewrite Eh.
      specialize (IH (S bt) z dd nFz (alpha / 2) (trial z dd (alpha / 2)) ltac:(lra)).
      destruct (back n _ _ _ _ _ _) as [bt' t'].
      destruct IH as (I1 & I2 & I3). split; [lia|]. split; [intros; apply I2; lia|]. intros Hb _.
      rewrite I3; [|lia|reflexivity]. f_equal. cbn [pow]. field. apply pow_nonzero. lra.
    + split; [lia|]. split; [|intros; lia]. intros _. cbn in Ef. unfold Rltb in Ef. destruct (Rlt_dec _ _) as [|Hl]; [discriminate|].
      apply Rnot_lt_le in Hl. pose proof (fnorm_sq' (snd (fst t))) as Q. cbn in Q. rewrite Q in Hl. unfold tsq.
      assert (Q1 : Q2R 1 = 1) by apply q1. assert (Q3 : Q2R (1 # 1000) = / 1000) by (unfold Q2R; cbn; lra).
      cbn in Hl. rewrite Q1, Q3 in Hl. assert (Hq : 0 <= nFz * nFz) by (apply Rle_0_sqr). pose proof (Rmult_le_pos _ _ Hq Ha) as Hqa.
      eapply Rle_trans; [exact Hl|]. lra.
Qed.
Lemma pass_residual s : sF s = ew (A := A) N P x (bl (sz s)) -> let (e, s') := pass s in
  res2 (sz s') <= res2 (sz s) \/ (siter s = O /\ sz s' = axpy (A := A) (/ 1024) (fst (dir s)) (sz s)).
Proof.
  clear NS HW Hg. intros HF. unfold ssn_pass. destruct (dir s) as [dd c] eqn:Ed. cbn [fst].
  pose proof (back_accept maxSMbtiter 0 (sz s) dd (fnorm (A := A) (sF s)) 1 (trial (sz s) dd 1) ltac:(lra)) as H.
  destruct (backtrack_trial (A := A) N E P x g W maxSMbtiter 0 (sz s) dd (fnorm (sF s)) (lit 1) (trial (sz s) dd (lit 1))) as [a Ha]; [eauto|].
  assert (L1 : lit (A := A) 1 = 1) by apply q1. rewrite L1 in *.
  destruct (back _ _ _ _ _ _ _) as [bt [[u Fu] B]]. cbn in Ha. injection Ha as -> -> ->.
  destruct H as (H1 & H2 & H3). cbn [Nat.add] in *.
  pose proof (fnorm_sq' (sF s)) as Q. cbn [Arith.F R_arith] in *. rewrite Q in H2.
  destruct (Nat.eqb_spec bt maxSMbtiter) as [Eb|Eb]; cbn [andb].
  - destruct (Nat.eqb_spec (siter s) 0) as [E0|E0]; cbn [negb sz]; [|left; lra]. right. split; auto.
    specialize (H3 Eb eq_refl). injection H3 as H3 _ _. rewrite H3. f_equal. unfold maxSMbtiter. cbn. field.
  - cbn [sz]. left. rewrite <- HF. unfold tsq in H2. cbn [fst snd] in H2. apply H2. lia.
Qed.
Lemma loop_residual n : forall s, sF s = ew (A := A) N P x (bl (sz s)) /\ sB s = bl (sz s) -> siter s <> O ->
  res2 (sz (snd (loop n s))) <= res2 (sz s).
Proof.
  clear NS HW Hg. induction n as [|n IH]; intros s Hs Hi; cbn [ssn_loop]; [apply Rle_refl|]. destruct (flt _ _); [|apply Rle_refl].
  pose proof (pass_residual s (proj1 Hs)) as H. pose proof (pass_facts (A := A) N E P jac x g W SMlambda m s Hs) as F.
  destruct (pass s) as [e s']. destruct F as (_ & _ & F). destruct H as [H|[H _]]; [|easy].
  destruct e; [exact H|]. destruct F as [F1 F2]. eapply Rle_trans; [|exact H]. apply IH; auto. rewrite F1. lia.
Qed.
Theorem residual (z : list R) o : rmap z = Some o ->
  res2 (omult o) <= res2 z \/
  res2 (omult o) <= res2 (axpy (A := A) (/ 1024) (fst (dir (ssn_init (A := A) N E P x g W m z))) z).
Proof.
  clear NS HW Hg. intros Ho. rewrite (ran _ _ _ _ _ _ _ _ _ _ _ _ _ Ho). clear Ho o.
  set (s0 := ssn_init (A := A) N E P x g W m z).
  assert (C0 : sF s0 = ew (A := A) N P x (bl (sz s0)) /\ sB s0 = bl (sz s0)) by (split; reflexivity).
  destruct (loop SMmaxiter s0) as [e s] eqn:El. cbn [omult].
  unfold SMmaxiter in El. cbn [ssn_loop] in El. destruct (flt _ _) in El; [|injection El as <- <-; left; apply Rle_refl].
  pose proof (pass_residual s0 (proj1 C0)) as H. pose proof (pass_facts (A := A) N E P jac x g W SMlambda m s0 C0) as F.
  destruct (pass s0) as [e1 s1]. destruct F as (_ & _ & F). destruct e1.
  - destruct F as (_ & F & _). now elim F.
  - destruct F as [F1 F2]. pose proof (loop_residual 99 s1 F2 ltac:(rewrite F1; discriminate)) as L.
    cbn [ssn_loop] in L. rewrite El in L. cbn [snd] in L. destruct H as [H|[_ H]].
    + left. eapply Rle_trans; [exact L|exact H].
    + right. change (axpy (A := A) (/ 1024) (fst (dir s0)) z) with (axpy (A := A) (/ 1024) (fst (dir s0)) (sz s0)).
      cbn [Arith.F R_arith] in *. rewrite <- H. exact L.
Qed.
End residual.
End main.

(** The Newton system. *)
Section system.
Variables big eps : R.
Notation A := (R_arith big eps).
Variables N E proj : list R -> list R.
Variable jac : list R -> list R -> list R.
Variable m : nat.
Variables x W B nb init : list R.
Variables mu tau ln : R.
Theorem newton_system maxiter : normal_space (length x) m N E proj -> good_weights W (length x) -> diagonal (length x) (jac B) ->
  0 < mu -> 0 <= tau -> 0 <= ln -> length nb = m -> length init = m ->
  let Q v := comb mu v (gldw (A := A) N E jac x W B v) in
  let q v := inner v (Q v) / 2 + inner nb v in
  exists (dd : list R) k, cg (A := A) N E jac x W B mu tau ln nb maxiter init = (dd, k) /\ length dd = m /\ (k <= maxiter)%nat /\
    let r := comb 1 nb (Q dd) in
    ((k < maxiter)%nat \/ (m <= maxiter)%nat -> sqrt (inner r r) <= tau * Rmin (ln * sqrt (inner dd dd)) 1) /\
    ((m <= k)%nat -> r = zero m) /\ q dd <= q init /\ ((0 < k)%nat -> q dd < q init).
Proof.
  intros NS HW HJ Hmu Htau Hln Lnb Linit Q q.
  pose proof (gld_psd big eps N E proj jac m x W NS HW B HJ) as HH.
  pose proof (cg_result big eps N E jac x W B nb m mu tau ln HH Hmu Htau Hln Lnb maxiter init Linit) as C.
  destruct (cg (A := A) N E jac x W B mu tau ln nb maxiter init) as [dd k] eqn:Ec. exists dd, k.
  destruct C as (C1 & C2 & C3 & C4 & C5 & C6). split; [reflexivity|]. split; [exact C1|]. split; [exact C2|].
  intros r. pose proof (lenM big eps N E jac x W B m mu HH dd C1) as LM.
  assert (Er : inner (resid big eps N E jac x W B nb m mu dd) (resid big eps N E jac x W B nb m mu dd) = inner r r).
  { unfold resid, r. change (Q dd) with (M big eps N E jac x W B mu dd).
    set (y := M big eps N E jac x W B mu dd) in *. clearbody y. clear - LM Lnb.
    repeat first [rewrite inner_comb by vlen | rewrite inner_combr by vlen]. rewrite ?inner_zero_l, ?inner_zero_r. ring. }
  assert (T : cg_tol (A := A) tau ln dd = tau * Rmin (ln * sqrt (inner dd dd)) 1).
  { unfold cg_tol, fnorm. rewrite dotpE, litE, SSNOpt.q1. cbn. unfold Rltb, Rmin.
    destruct (Rlt_dec _ _), (Rle_dec _ _); try reflexivity; match goal with |- _ = tau * ?b => change (tau * 1 = tau * b) || idtac end; try (f_equal; lra); exfalso; lra. }
  assert (Fn : fnorm (A := A) (resid big eps N E jac x W B nb m mu dd) = sqrt (inner r r)) by (unfold fnorm; rewrite dotpE, Er; reflexivity).
  assert (T0 : 0 <= tau * Rmin (ln * sqrt (inner dd dd)) 1).
  { rewrite <- T. apply (tol_ge0 big eps tau ln Htau Hln dd). }
  assert (Rz : (m <= k)%nat -> inner r r = 0).
  { intros Hk. pose proof (inner_ge0 r). destruct (Req_dec (inner r r) 0); [easy|]. rewrite Er in C6. assert (k < m)%nat by (apply C6; lra). lia. }
  split; [|split; [|split]].
  - intros Hk. destruct (le_lt_dec m k) as [Hm|Hm].
    + rewrite (Rz Hm), sqrt_0. exact T0.
    + rewrite <- T, <- Fn. apply C3. lia.
  - intros Hk. assert (Lr : length r = m).
    { unfold r. change (Q dd) with (M big eps N E jac x W B mu dd). cbn [Arith.F R_arith] in *. rewrite length_comb; congruence. }
    apply inner_self_zero; [exact Lr|]. rewrite (Rz Hk). apply Rle_refl.
  - exact C4.
  - exact C5.
Qed.
End system.
Section direction.
Variables big eps : R.
Notation A := (R_arith big eps).
Variables N E proj : list R -> list R.
Variable jac : list R -> list R -> list R.
Variable m : nat.
Variables x W : list R.
Variable SMlambda : R.
Theorem newton_direction (s : @ssn A) : normal_space (length x) m N E proj -> good_weights W (length x) -> diagonal (length x) (jac (sB s)) ->
  0 < SMlambda -> length (sF s : list R) = m -> length (sd s : list R) = m ->
  let n := sqrt (inner (sF s) (sF s)) in
  let mu := SMlambda * Rmax (1 / 10 ^ 11) (Rmin n (1 / 10)) in
  exists (dd : list R) k, newton_dir (A := A) N E jac x W SMlambda m s = (dd, k) /\ length dd = m /\ (k <= m)%nat /\ (k <= 30)%nat /\
    let r := comb 1 (sF s) (comb mu dd (gldw (A := A) N E jac x W (sB s) dd)) in
    ((k < m)%nat /\ (k < 30)%nat \/ (m <= 30)%nat -> sqrt (inner r r) <= 1 / 10 * Rmin (SMlambda * n * sqrt (inner dd dd)) 1).
Proof.
  intros NS HW HJ Hl LF Ld n mu.
  assert (Fn : fnorm (A := A) (sF s) = n) by (unfold fnorm; rewrite dotpE; reflexivity).
  assert (Em : mu_of (A := A) SMlambda n = mu).
  { unfold mu_of, mu. cbn. replace (Q2R (1 # 10)) with (1 / 10) by (unfold Q2R; cbn; lra).
    replace (Q2R (1 # 100000000000)) with (1 / 10 ^ 11) by (unfold Q2R; cbn; lra). f_equal. unfold Rltb, Rmax, Rmin.
    destruct (Rlt_dec n (1 / 10)), (Rle_dec n (1 / 10)); try (exfalso; lra);
    repeat match goal with |- context [Rlt_dec ?a ?b] => destruct (Rlt_dec a b) | |- context [Rle_dec ?a ?b] => destruct (Rle_dec a b) end; lra. }
  assert (Et : (lit (A := A) (1 # 10) : R) = 1 / 10) by (cbn; unfold Q2R; cbn; lra).
  assert (Hn : 0 <= n) by apply sqrt_pos.
  assert (Hmu : 0 < mu). { apply Rmult_lt_0_compat; auto. eapply Rlt_le_trans; [|apply Rmax_l]. apply Rdiv_lt_0_compat; [lra|apply pow_lt; lra]. }
  assert (Hln : 0 <= SMlambda * n) by (apply Rmult_le_pos; lra).
  pose (mi := if Nat.ltb m 30 then m else 30%nat).
  destruct (newton_system big eps N E proj jac m x W (sB s) (sF s) (sd s) mu (1/10) (SMlambda * n) mi NS HW HJ Hmu ltac:(lra) Hln LF Ld)
    as (dd & k & Ec & L & Hk & Ht & _).
  exists dd, k. assert (Hmi : (k <= m)%nat /\ (k <= 30)%nat /\ ((k < m)%nat /\ (k < 30)%nat \/ (m <= 30)%nat -> (k < mi)%nat \/ (m <= mi)%nat)).
  { unfold mi in *. destruct (Nat.ltb_spec m 30); lia. }
  destruct Hmi as (M1 & M2 & M3). split; [|repeat split; auto].
  unfold newton_dir. cbn [Arith.F R_arith] in *. rewrite Fn. rewrite Em, Et. exact Ec.
Qed.
End direction.
