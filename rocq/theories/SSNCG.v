(** Proofs about the conjugate gradient method of the semismooth Newton method, exact arithmetic. *)
From Coq Require Import List Arith Reals Lra Lia QArith Qreals Bool.
Import ListNotations.
From Verif Require Import Arith MatOpsModel MatOpsReal TangentModel TangentSpec TangentProofs TangentOps TangentSphere ProxModel ProxProofs ProxReal.
From Verif Require Import SSNModel SSNSpec SSNProofs SSNOpt.
Local Close Scope Q_scope.
Local Open Scope R_scope.

(** At most m vectors of length m are different from zero and pairwise orthogonal. *)
Fixpoint orthos (l : list (list R)) : Prop :=
  match l with [] => True | q :: l => 0 < inner q q /\ Forall (fun u => inner q u = 0) l /\ orthos l end.
Definition shares (v : list R) (l : list (list R)) : R := fold_right Rplus 0 (map (fun q => inner q v ^ 2 / inner q q) l).
Lemma bessel m l : forall v, orthos l -> Forall (fun q => length q = m) l -> length v = m -> shares v l <= inner v v.
Proof.
  induction l as [|q l IH]; intros v Ho Hl Hv; [apply inner_ge0|].
  destruct Ho as (Hq & Hf & Ho). inversion Hl as [|? ? Lq Ll]; subst.
  set (v' := comb (- (inner q v / inner q q)) q v). assert (Lv : length v' = length v) by (unfold v'; vlen).
  specialize (IH v' Ho Ll Lv).
  assert (Es : shares v' l = shares v l).
  { unfold shares. f_equal. apply map_ext_in. intros u Hu. rewrite Forall_forall in Hf. specialize (Hf u Hu).
    unfold v'. rewrite inner_combr by auto. rewrite (inner_sym u q), Hf. f_equal. ring. }
  assert (Ev : inner v' v' = inner v v - inner q v ^ 2 / inner q q).
  { unfold v'. rewrite inner_comb, !inner_combr by auto. rewrite (inner_sym v q). field. lra. }
  rewrite Es, Ev in IH. unfold shares in *. cbn [map fold_right]. lra.
Qed.
Definition unit_k (m i : nat) : list R := map (fun k => if Nat.eqb k i then 1 else 0) (seq 0 m).
Lemma es_single n f i : (i < n)%nat -> entry_sum n (fun k => f k * (if Nat.eqb k i then 1 else 0)) = f i.
Proof.
  induction n as [|n IH]; [lia|]. intros H. rewrite es_S. destruct (Nat.eq_dec i n) as [->|Hn].
  - rewrite Nat.eqb_refl, es_0; [lra|]. intros k Hk. destruct (Nat.eqb_spec k n); [lia|ring].
  - destruct (Nat.eqb_spec n i); [lia|]. rewrite IH by lia. ring.
Qed.
Lemma unit_norm m i : (i < m)%nat -> inner (unit_k m i) (unit_k m i) = 1.
Proof.
  intros H. rewrite inner_es by auto. unfold unit_k at 1. rewrite map_length, seq_length.
  rewrite (es_ext m _ (fun k => 1 * (if Nat.eqb k i then 1 else 0))).
  - apply (es_single m (fun _ => 1)); auto.
  - intros k Hk. unfold unit_k. rewrite !map_seq_nth by auto. destruct (Nat.eqb k i); ring.
Qed.
Lemma unit_inner m q i : length q = m -> (i < m)%nat -> inner q (unit_k m i) = nth i q 0.
Proof.
  intros Hq H. rewrite inner_es by (unfold unit_k; rewrite map_length, seq_length; auto). rewrite Hq.
  rewrite <- (es_single m (fun k => nth k q 0) i H). apply es_ext. intros k Hk. unfold unit_k. now rewrite map_seq_nth.
Qed.
Lemma es_const n c : entry_sum n (fun _ => c) = INR n * c.
Proof. induction n; [cbn; ring|]. rewrite es_S, IHn, S_INR. ring. Qed.
Lemma shares_total m l : orthos l -> Forall (fun q => length q = m) l ->
  entry_sum m (fun i => shares (unit_k m i) l) = INR (length l).
Proof.
  induction l as [|q l IH]; intros Ho Hl; [apply es_0; reflexivity|]. destruct Ho as (Hq & _ & Ho). inversion Hl as [|? ? Lq Ll]; subst.
  unfold shares in *. cbn [map fold_right]. rewrite es_add, IH by auto. cbn [length]. rewrite S_INR.
  assert (E : entry_sum (length q) (fun i => inner q (unit_k (length q) i) ^ 2 / inner q q) = 1); [|lra].
  rewrite (es_ext _ _ (fun i => / inner q q * (nth i q 0 * nth i q 0))).
  - rewrite es_scal, <- inner_es by auto. field. lra.
  - intros i Hi. rewrite unit_inner by auto. field. lra.
Qed.
Lemma orthos_le m l : orthos l -> Forall (fun q => length q = m) l -> (length l <= m)%nat.
Proof.
  intros Ho Hl. apply INR_le. rewrite <- (shares_total m l Ho Hl).
  replace (INR m) with (entry_sum m (fun _ => 1)) by (rewrite es_const; ring).
  assert (H : 0 <= entry_sum m (fun i => 1 + -1 * shares (unit_k m i) l)).
  { apply es_ge0. intros i Hi. pose proof (bessel m l (unit_k m i) Ho Hl) as B. rewrite unit_norm in B by auto.
    assert (length (unit_k m i) = m) by (unfold unit_k; now rewrite map_length, seq_length). specialize (B H). lra. }
  rewrite es_add, es_scal in H. lra.
Qed.

Section cg.
Variables big eps : R.
Notation A := (R_arith big eps).
Variables (N E : list R -> list R) (jac : list R -> list R -> list R) (x W B nb : list R).
Variable m : nat.
Variables mu tau ln : R.
Notation GL := (gldw (A := A) N E jac x W B).
Hypothesis HH : psd_map m GL.
Hypothesis Hmu : 0 < mu.
Hypothesis Htau : 0 <= tau.
Hypothesis Hln : 0 <= ln.
Hypothesis Hnb : length nb = m.
Definition M (v : list R) : list R := comb mu v (GL v).
Notation lm v := (length v = m).
Lemma lenM (v : list R) : lm v -> lm (M v).
Proof. intros L. unfold M. pose proof (pm_len _ _ HH v L). vlen. Qed.
Lemma M_comb a (u v : list R) : lm u -> lm v -> M (comb a u v) = comb a (M u) (M v).
Proof.
  intros Lu Lv. pose proof (pm_len _ _ HH u Lu) as L1. pose proof (pm_len _ _ HH v Lv) as L2. unfold M. rewrite (pm_lin _ _ HH) by auto.
  cbn [Arith.F R_arith] in *. apply vec_eq; [vlen|]. intros i _. repeat rewrite nth_comb by vlen. ring.
Qed.
Lemma M_sym (u v : list R) : lm u -> lm v -> inner (M u) v = inner u (M v).
Proof.
  intros Lu Lv. pose proof (pm_len _ _ HH u Lu) as L1. pose proof (pm_len _ _ HH v Lv) as L2. unfold M.
  cbn [Arith.F R_arith] in *. rewrite inner_comb, inner_combr by congruence. rewrite (pm_sym _ _ HH) by auto. ring.
Qed.
Lemma M_pos (v : list R) : lm v -> 0 < inner v v -> 0 < inner v (M v).
Proof.
  intros L P. pose proof (pm_len _ _ HH v L) as L1. unfold M. cbn [Arith.F R_arith] in *. rewrite inner_combr by congruence.
  pose proof (pm_pos _ _ HH v L). assert (0 < mu * inner v v) by (now apply Rmult_lt_0_compat).
  cbn [Arith.F R_arith] in *. lra.
Qed.
Definition resid (v : list R) : list R := comb (-1) nb (comb (-1) (M v) (zero m)).
Definition energy (v : list R) : R := inner v (M v) / 2 + inner nb v.
Definition grow (S : list R -> Prop) (p v : list R) : Prop := exists s c, S s /\ v = comb c p s.
Record Inv (S : list R -> Prop) (Rs : list (list R)) (res r p : list R) : Prop := {
  i_lr : lm res; i_lp : lm p; i_r : r = resid res;
  i_len : forall v, S v -> lm v; i_zero : S (zero m); i_comb : forall a u v, S u -> S v -> S (comb a u v);
  i_orth : forall v, S v -> inner r v = 0;
  i_conj : forall v, S v -> inner p (M v) = 0;
  i_split : exists s, S s /\ r = comb 1 p s;
  i_kry : forall v, S v -> exists s c, S s /\ M v = comb c p s;
  i_old : Forall S Rs; i_ort : orthos Rs }.
Lemma len_resid (v : list R) : lm v -> lm (resid v).
Proof. intros L. unfold resid. pose proof (lenM v L). vlen. Qed.
Lemma GL_zero (v : list R) : lm v -> GL (zero m) = zero m.
Proof.
  intros L. pose proof (pm_lin _ _ HH (-1) v v L L) as H. rewrite (comb_m1 v m L) in H. rewrite H. apply comb_m1. now apply (pm_len _ _ HH).
Qed.
Lemma inv_init (init : list R) : lm init -> Inv (fun v => v = zero m) [] init (resid init) (resid init).
Proof.
  intros L. pose proof (len_resid _ L). split; auto.
  - intros v ->. apply length_zero.
  - intros a u v -> ->. apply vec_eq; [vlen|]. intros. rewrite nth_comb, nth_zero by auto. ring.
  - intros v ->. apply inner_zero_r.
  - intros v ->. rewrite <- M_sym by auto using length_zero.
    rewrite M_sym by auto using length_zero. unfold M.
    pose proof (GL_zero init L) as HZ.
    rewrite HZ. rewrite inner_combr by auto. rewrite inner_zero_r. ring.
  - exists (zero m). split; auto. apply vec_eq; [vlen|]. intros. rewrite nth_comb, nth_zero by vlen. ring.
  - intros v ->. exists (zero m), 0. split; auto.
    pose proof (GL_zero init L) as HZ.
    unfold M. rewrite HZ. apply vec_eq; [vlen|]. intros. rewrite !nth_comb, nth_zero by vlen. ring.
  - exact I.
Qed.
Lemma rp S Rs res r p : Inv S Rs res r p -> inner r p = inner r r.
Proof.
  intros I. destruct (i_split _ _ _ _ _ I) as (s & Hs & Er). pose proof (i_orth _ _ _ _ _ I s Hs) as O.
  pose proof (i_len _ _ _ _ _ I s Hs). pose proof (i_lp _ _ _ _ _ I).
  rewrite Er at 3. rewrite inner_combr by congruence. rewrite O. ring.
Qed.
Lemma p_nonzero S Rs res r p : Inv S Rs res r p -> 0 < inner r r -> 0 < inner p p.
Proof.
  intros I Hr. pose proof (i_lp _ _ _ _ _ I) as Lp. destruct (list_eq_dec Req_EM_T p (zero m)) as [->|Hn].
  - pose proof (rp _ _ _ _ _ I) as E0. rewrite inner_zero_r in E0. lra.
  - apply inner_pos. now rewrite Lp.
Qed.
Lemma inv_step S Rs res r p : Inv S Rs res r p -> 0 < inner r r ->
  let alpha := inner r r / inner p (M p) in
  let res' := comb alpha p res in
  let r' := comb (- alpha) (M p) r in
  let beta := inner r' r' / inner r r in
  let p' := comb 1 r' (comb beta p (zero m)) in
  Inv (grow S p) (r :: Rs) res' r' p' /\ energy res' < energy res.
Proof.
  intros I Hr alpha res' r' beta p'. pose proof (i_lp _ _ _ _ _ I) as Lp. pose proof (i_lr _ _ _ _ _ I) as Lres.
  pose proof (lenM p Lp) as LMp. assert (Lr : lm r) by (rewrite (i_r _ _ _ _ _ I); now apply len_resid).
  pose proof (p_nonzero _ _ _ _ _ I Hr) as Pp. pose proof (M_pos p Lp Pp) as Pk. pose proof (rp _ _ _ _ _ I) as Erp.
  assert (La : 0 < alpha) by (now apply Rdiv_lt_0_compat).
  assert (Ak : alpha * inner p (M p) = inner r r) by (unfold alpha; field; lra).
  assert (Lr' : lm r') by (unfold r'; vlen). assert (Lp' : lm p') by (unfold p'; vlen).
  assert (LS := i_len _ _ _ _ _ I).
  destruct (i_split _ _ _ _ _ I) as (s0 & Hs0 & Er).
  assert (Lg : forall v, grow S p v -> lm v) by (intros v (s & c & Hs & ->); specialize (LS s Hs); vlen).
  assert (Og : forall v, grow S p v -> inner r' v = 0).
  { intros v (s & c & Hs & ->). pose proof (LS s Hs) as Ls. unfold r'. rewrite inner_comb by congruence. rewrite !inner_combr by congruence.
    rewrite Erp, (i_orth _ _ _ _ _ I s Hs), (M_sym p s), (i_conj _ _ _ _ _ I s Hs) by auto. rewrite (inner_sym (M p) p).
    replace (- alpha * (c * inner p (M p) + 0)) with (- c * (alpha * inner p (M p))) by ring. rewrite Ak. ring. }
  assert (Sg : forall v, S v -> grow S p v).
  { intros v Hv. exists v, 0. split; auto. pose proof (LS v Hv). apply vec_eq; [vlen|]. intros. rewrite nth_comb by congruence. ring. }
  assert (Pg : grow S p p).
  { exists (zero m), 1. split; [apply (i_zero _ _ _ _ _ I)|]. apply vec_eq; [vlen|]. intros. rewrite nth_comb, nth_zero by vlen. ring. }
  assert (Cg : forall a u v, grow S p u -> grow S p v -> grow S p (comb a u v)).
  { intros a u v (s & c & Hs & ->) (t & e & Ht & ->). pose proof (LS s Hs) as Ls. pose proof (LS t Ht) as Lt.
    exists (comb a s t), (a * c + e). split; [now apply (i_comb _ _ _ _ _ I)|].
    apply vec_eq; [vlen|]. intros. repeat rewrite nth_comb by vlen. ring. }
  assert (Rg : grow S p r). { rewrite Er. exists s0, 1. split; auto. }
  (* M p is a combination of r and r' *)
  assert (Mp : M p = comb (- / alpha) r' (comb (/ alpha) r (zero m))).
  { unfold r'. apply vec_eq; [vlen|]. intros. repeat rewrite nth_comb by vlen. rewrite nth_zero. field. lra. }
  assert (Lz := length_zero m).
  split.
  - split; auto.
    + unfold res'; vlen.
    + unfold r', res'. rewrite (i_r _ _ _ _ _ I). unfold resid. rewrite M_comb by auto. pose proof (lenM res Lres).
      apply vec_eq; [vlen|]. intros. repeat rewrite nth_comb by vlen. rewrite nth_zero. ring.
    + apply Sg. apply (i_zero _ _ _ _ _ I).
    + intros v (s & c & Hs & ->). pose proof (LS s Hs) as Ls. rewrite M_comb by auto. pose proof (lenM s Ls) as LMs.
      unfold p'. rewrite inner_combr by congruence. rewrite !inner_comb by vlen. rewrite !inner_zero_l.
      rewrite (i_conj _ _ _ _ _ I s Hs).
      assert (K1 : inner r' (M s) = 0).
      { destruct (i_kry _ _ _ _ _ I s Hs) as (t & e & Ht & ->). apply Og. exists t, e. split; auto. }
      assert (K2 : inner r' (M p) = - / alpha * inner r' r').
      { rewrite Mp. rewrite !inner_combr by vlen. rewrite inner_zero_r. rewrite (Og r Rg). ring. }
      rewrite K1, K2. unfold beta, alpha. field. split; lra.
    + exists (comb (- beta) p (zero m)). split.
      * exists (zero m), (- beta). split; auto. apply (i_zero _ _ _ _ _ I).
      * unfold p'. apply vec_eq; [vlen|]. intros. repeat rewrite nth_comb by vlen. rewrite nth_zero. ring.
    + intros v (s & c & Hs & ->). pose proof (LS s Hs) as Ls. destruct (i_kry _ _ _ _ _ I s Hs) as (t & e & Ht & Es).
      rewrite M_comb by auto. rewrite Es, Mp.
      (* r' = p' - beta p *)
      assert (Er' : r' = comb (- beta) p p').
      { unfold p'. apply vec_eq; [vlen|]. intros. repeat rewrite nth_comb by vlen. rewrite nth_zero. ring. }
      exists (comb (c * / alpha) r (comb (c * / alpha * beta) p (comb e p t))), (- (c * / alpha)). split.
      * apply Cg; auto.
      * pose proof (LS t Ht). rewrite Er' at 1. apply vec_eq; [vlen|]. intros. repeat rewrite nth_comb by vlen. rewrite nth_zero. ring.
    + constructor; auto. eapply Forall_impl; [|apply (i_old _ _ _ _ _ I)]. auto.
    + cbn. split; auto. split; [|apply (i_ort _ _ _ _ _ I)]. eapply Forall_impl; [|apply (i_old _ _ _ _ _ I)].
      intros v Hv. cbn beta. now apply (i_orth _ _ _ _ _ I).
  - unfold energy, res'. rewrite M_comb by auto. pose proof (lenM res Lres) as LMr.
    rewrite inner_comb, !inner_combr by congruence. rewrite <- (M_sym p res) by auto. rewrite (inner_sym (M p) res).
    assert (E1 : inner r p = - inner nb p - inner res (M p)).
    { rewrite (i_r _ _ _ _ _ I). unfold resid. rewrite !inner_comb by vlen. rewrite inner_zero_l. rewrite M_sym by auto. ring. }
    rewrite Erp in E1.
    assert (E2 : alpha * inner nb p = - alpha * inner r r - alpha * inner res (M p)) by (replace (inner nb p) with (- inner r r - inner res (M p)) by lra; ring).
    assert (E3 : alpha * (alpha * inner p (M p)) = alpha * inner r r) by (rewrite Ak; ring).
    assert (E4 : 0 < alpha * inner r r) by (now apply Rmult_lt_0_compat).
    replace (inner p (M res)) with (inner res (M p)) by (rewrite <- M_sym by auto; apply inner_sym).
    nra.
Qed.

Notation cg_loop := (cg_loop (A := A) N E jac x W B mu tau ln).
Notation cg_op := (cg_op (A := A) N E jac x W B mu).
Notation cg := (cg (A := A) N E jac x W B mu tau ln).
Lemma opE (v : list R) : (cg_op v : list R) = M v.
Proof. unfold cg_op. now rewrite axpyE. Qed.
Lemma tol_ge0 (v : list R) : 0 <= cg_tol (A := A) tau ln v.
Proof.
  unfold cg_tol. rewrite litE, q1. unfold fnorm. cbn. apply Rmult_le_pos; auto. unfold Rltb.
  destruct (Rlt_dec _ _); [|lra]. apply Rmult_le_pos; auto. apply sqrt_pos.
Qed.
Lemma loop_inv n : forall k S Rs (res r p : list R), Inv S Rs res r p -> length Rs = k ->
  let (d, k') := (cg_loop n k res r p : list R * nat) in
  lm d /\ (k <= k' <= k + n)%nat /\
  ((k' < k + n)%nat -> fnorm (A := A) (resid d) <= cg_tol (A := A) tau ln d) /\
  energy d <= energy res /\ ((k < k')%nat -> energy d < energy res) /\
  (0 < inner (resid d) (resid d) -> (k' < m)%nat).
Proof.
  induction n as [|n IH]; intros k S Rs res r p I Hk; cbn [SSNModel.cg_loop].
  - split; [apply (i_lr _ _ _ _ _ I)|]. split; [lia|]. split; [lia|]. split; [lra|]. split; [lia|]. intros Hpos.
    rewrite <- (i_r _ _ _ _ _ I) in Hpos. rewrite <- Hk. apply (orthos_le m (r :: Rs)).
    + cbn. split; auto. split; [|apply (i_ort _ _ _ _ _ I)]. eapply Forall_impl; [|apply (i_old _ _ _ _ _ I)]. intros v Hv. now apply (i_orth _ _ _ _ _ I).
    + constructor; [|eapply Forall_impl; [|apply (i_old _ _ _ _ _ I)]; apply (i_len _ _ _ _ _ I)].
      rewrite (i_r _ _ _ _ _ I). apply len_resid. apply (i_lr _ _ _ _ _ I).
  - destruct (flt (cg_tol (A := A) tau ln res) (fnorm (A := A) r)) eqn:Et.
    + cbn in Et. unfold Rltb in Et. destruct (Rlt_dec _ _) as [Hl|]; [|discriminate].
      assert (Hr : 0 < inner r r).
      { pose proof (tol_ge0 res) as T0. cbn [Arith.F R_arith] in T0. assert (Hs : 0 < fnorm (A := A) r) by (eapply Rle_lt_trans; [exact T0|exact Hl]).
        unfold fnorm in Hs. rewrite dotpE in Hs. cbn in Hs. destruct (Rle_lt_dec (inner r r) 0) as [Hle|]; [|easy].
        rewrite (sqrt_neg_0 _ Hle) in Hs. lra. }
      destruct (inv_step _ _ _ _ _ I Hr) as [I' En].
      rewrite !opE, !axpyE, !scalE, !dotpE, litE, q1. pose proof (i_lp _ _ _ _ _ I) as Lp.
      cbn [Arith.F R_arith] in *. rewrite Lp.
      specialize (IH (Datatypes.S k) _ _ _ _ _ I' ltac:(cbn; congruence)).
      cbn [Arith.fdiv Arith.fopp R_arith] in *.
      match goal with |- context [SSNModel.cg_loop _ _ _ _ _ _ _ _ _ ?n ?k ?a ?b ?c] => destruct (SSNModel.cg_loop (A := A) N E jac x W B mu tau ln n k a b c) as [d k'] eqn:Ed end.
      destruct IH as (J1 & J2 & J3 & J4 & J5 & J6).
      split; [exact J1|]. split; [lia|]. split; [intros; apply J3; lia|]. split; [lra|]. split; [intros; lra|exact J6].
    + cbn in Et. unfold Rltb in Et. destruct (Rlt_dec _ _) as [|Hl]; [discriminate|].
      split; [apply (i_lr _ _ _ _ _ I)|]. split; [lia|]. rewrite <- (i_r _ _ _ _ _ I). split; [intros _; apply Rnot_lt_le; exact Hl|]. split; [lra|]. split; [lia|]. intros Hpos.
      rewrite <- Hk. apply (orthos_le m (r :: Rs)).
      * cbn. split; auto. split; [|apply (i_ort _ _ _ _ _ I)]. eapply Forall_impl; [|apply (i_old _ _ _ _ _ I)]. intros v Hv. now apply (i_orth _ _ _ _ _ I).
      * constructor; [|eapply Forall_impl; [|apply (i_old _ _ _ _ _ I)]; apply (i_len _ _ _ _ _ I)].
        rewrite (i_r _ _ _ _ _ I). apply len_resid. apply (i_lr _ _ _ _ _ I).
Qed.
Theorem cg_result maxiter (init : list R) : lm init ->
  let (d, k) := (cg nb maxiter init : list R * nat) in
  lm d /\ (k <= maxiter)%nat /\
  ((k < maxiter)%nat -> fnorm (A := A) (resid d) <= cg_tol (A := A) tau ln d) /\
  energy d <= energy init /\ ((0 < k)%nat -> energy d < energy init) /\
  (0 < inner (resid d) (resid d) -> (k < m)%nat).
Proof.
  intros L. unfold cg. rewrite opE, axpyE, scalE, litE, qm1.
  pose proof (loop_inv maxiter 0 _ _ _ _ _ (inv_init init L) eq_refl) as J. pose proof (lenM init L) as LM.
  cbn [Arith.F R_arith] in *. rewrite LM. unfold resid in J at 1 2.
  match goal with |- context [SSNModel.cg_loop _ _ _ _ _ _ _ _ _ ?n ?k ?a ?b ?c] => destruct (SSNModel.cg_loop (A := A) N E jac x W B mu tau ln n k a b c) as [d k'] eqn:Ed end.
  destruct J as (J1 & J2 & J3 & J4 & J5 & J6). cbn [plus] in *. split; auto. split; [lia|]. split; auto.
Qed.
End cg.
