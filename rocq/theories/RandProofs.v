(** Proofs about the random number generator. *)
From Coq Require Import Reals ZArith Lia Lra Machin Ratan.
From Verif Require Import RandModel RandSpec.
Local Open Scope R_scope.

Lemma tau_2pi : Rabs (tau - 2 * PI) <= / 10 ^ 20.
Proof.
  pose proof (PI_2_3_7_ineq 10) as [A B].
  cbn [Nat.mul Nat.add] in A, B.
  unfold tg_alt, PI_2_3_7_tg, Ratan_seq in A, B.
  cbn [sum_f_R0 Nat.mul Nat.add pow INR] in A, B.
  unfold tau; apply Rabs_le; cbn [pow]; lra.
Qed.
Lemma cos_lip a b : Rabs (cos b - cos a) <= Rabs (b - a).
Proof.
  destruct (MVT_abs cos (fun x => - sin x) a b) as [c [E _]]; [intros; apply derivable_pt_lim_cos|].
  rewrite E, Rabs_Ropp; assert (S1 : Rabs (sin c) <= 1) by (apply Rabs_le; apply SIN_bound).
  pose proof (Rabs_pos (b - a)); pose proof (Rabs_pos (sin c)); nra.
Qed.

Section rand.
Variables (rand : nat -> Z) (rmax : Z).
Hypothesis H : library_rand rand rmax.
Lemma rmax_pos : 0 < IZR rmax.
Proof. destruct H as [Hm _]; apply IZR_lt; lia. Qed.
Lemma fact_uniform pos : 0 <= fst (genrandreal rand rmax pos) <= 1 /\ snd (genrandreal rand rmax pos) = S pos /\
  fst (genrandreal rand rmax pos) = fraction rand rmax pos.
Proof.
  pose proof rmax_pos as P; destruct H as [Hm Hr]; specialize (Hr pos).
  assert (A : 0 <= IZR (rand pos)) by (apply IZR_le; lia).
  assert (B : IZR (rand pos) <= IZR rmax) by (apply IZR_le; lia).
  unfold genrandreal, fraction; cbn [fst snd]; repeat split.
  - apply Rmult_le_pos; [exact A | left; apply Rinv_0_lt_compat; exact P].
  - apply (Rmult_le_reg_r (IZR rmax)); [exact P|]; field_simplify; lra.
Qed.
Lemma frac_one j : fraction rand rmax j = 1 <-> rand j = rmax.
Proof.
  pose proof rmax_pos as P; unfold fraction; split; intro E.
  - apply eq_IZR; apply (Rmult_eq_reg_r (/ IZR rmax)); [|apply Rinv_neq_0_compat; lra].
    unfold Rdiv in E; rewrite E, Rinv_r; lra.
  - rewrite E; field; lra.
Qed.
Lemma below j : rand j <> rmax -> / IZR rmax <= 1 - fraction rand rmax j <= 1.
Proof.
  pose proof rmax_pos as P; intro N; destruct H as [Hm Hr]; specialize (Hr j).
  assert (A : 0 <= IZR (rand j)) by (apply IZR_le; lia).
  assert (B : IZR (rand j) + 1 <= IZR rmax) by (rewrite <- plus_IZR; apply IZR_le; lia).
  unfold fraction; split; apply (Rmult_le_reg_r (IZR rmax)); try exact P.
  - rewrite Rinv_l by lra; replace ((1 - IZR (rand j) / IZR rmax) * IZR rmax) with (IZR rmax - IZR (rand j)) by (field; lra); lra.
  - replace ((1 - IZR (rand j) / IZR rmax) * IZR rmax) with (IZR rmax - IZR (rand j)) by (field; lra); lra.
Qed.
Lemma loop_run k : rand k <> rmax -> forall n pos fuel, (pos + n = k)%nat -> (forall j, (pos <= j < k)%nat -> rand j = rmax) -> (n <= fuel)%nat ->
  normal_loop rand rmax fuel (fraction rand rmax pos) (S pos) =
  Returns (box_muller tau (fraction rand rmax k) (fraction rand rmax (S k))) (S (S k)).
Proof.
  intros N; induction n as [|n IH]; intros pos fuel E A F.
  - assert (pos = k) by lia; subst pos.
    destruct fuel as [|fuel]; cbn [normal_loop]; destruct (Req_EM_T _ _) as [E1|E1];
      try (apply frac_one in E1; contradiction);
      unfold normal_from; destruct (Rlt_dec _ _) as [L|L]; try reflexivity; exfalso; apply L;
      pose proof (below k N); pose proof (Rinv_0_lt_compat _ rmax_pos); lra.
  - destruct fuel as [|fuel]; [lia|]; cbn [normal_loop]; destruct (Req_EM_T _ _) as [E1|E1].
    + change (normal_loop rand rmax fuel (fraction rand rmax (S pos)) (S (S pos)) = Returns (box_muller tau (fraction rand rmax k) (fraction rand rmax (S k))) (S (S k))).
      apply IH; [lia| |lia]; intros j Hj; apply A; lia.
    + exfalso; apply E1; apply frac_one; apply A; lia.
Qed.
Lemma bounded k u : rand k <> rmax -> (box_muller tau (fraction rand rmax k) u) ^ 2 <= 2 * ln (IZR rmax).
Proof.
  intro N; pose proof (below k N) as [B1 B2]; pose proof rmax_pos as P; pose proof (Rinv_0_lt_compat _ P) as PI'.
  unfold box_muller; rewrite Rpow_mult_distr.
  assert (L1 : - ln (IZR rmax) <= ln (1 - fraction rand rmax k)).
  { rewrite <- ln_Rinv by exact P; destruct (Rle_lt_or_eq_dec _ _ B1) as [L|E]; [left; apply ln_increasing; lra|rewrite E; right; reflexivity]. }
  assert (L2 : ln (1 - fraction rand rmax k) <= 0).
  { rewrite <- ln_1; destruct (Rle_lt_or_eq_dec _ _ B2) as [L|E]; [left; apply ln_increasing; lra|rewrite E; right; reflexivity]. }
  rewrite pow2_sqrt by lra.
  pose proof (COS_bound ((1 - u) * tau)) as [C1 C2].
  assert (C : 0 <= cos ((1 - u) * tau) ^ 2 <= 1) by (split; nra).
  nra.
Qed.
Lemma close k u : rand k <> rmax -> 0 <= u <= 1 ->
  Rabs (box_muller tau (fraction rand rmax k) u - box_muller (2 * PI) (fraction rand rmax k) u) <= sqrt (2 * ln (IZR rmax)) * / 10 ^ 20.
Proof.
  intros N U; pose proof (below k N) as [B1 B2]; pose proof rmax_pos as P.
  assert (L1 : - ln (IZR rmax) <= ln (1 - fraction rand rmax k)).
  { pose proof (Rinv_0_lt_compat _ P); rewrite <- ln_Rinv by exact P; destruct (Rle_lt_or_eq_dec _ _ B1) as [L|E]; [left; apply ln_increasing; lra|rewrite E; right; reflexivity]. }
  unfold box_muller; rewrite <- Rmult_minus_distr_l, Rabs_mult, (Rabs_pos_eq (sqrt _)) by apply sqrt_pos.
  apply Rmult_le_compat; [apply sqrt_pos|apply Rabs_pos|apply sqrt_le_1_alt; lra|].
  eapply Rle_trans; [apply cos_lip|]; rewrite <- Rmult_minus_distr_l, Rabs_mult, (Rabs_pos_eq (1 - u)) by lra.
  pose proof tau_2pi; pose proof (Rabs_pos (tau - 2 * PI)); nra.
Qed.
Lemma fact_normal pos k : first_below rand rmax pos k ->
  0 < 1 - fraction rand rmax k <= 1 /\
  exists v, (forall fuel, (k - pos <= fuel)%nat -> genrandnormal rand rmax fuel pos = Returns v (S (S k))) /\
    v ^ 2 <= 2 * ln (IZR rmax) /\
    Rabs (v - box_muller (2 * PI) (fraction rand rmax k) (fraction rand rmax (S k))) <= sqrt (2 * ln (IZR rmax)) * / 10 ^ 20.
Proof.
  intros [L [N A]]; split.
  { pose proof (below k N); pose proof (Rinv_0_lt_compat _ rmax_pos); lra. }
  exists (box_muller tau (fraction rand rmax k) (fraction rand rmax (S k))); split; [|split].
  - intros fuel F; apply (loop_run k N (k - pos)); [lia|exact A|exact F].
  - apply bounded; exact N.
  - apply close; [exact N|]; destruct (fact_uniform (S k)) as [F [_ E]]; rewrite E in F; exact F.
Qed.
Lemma loop_stuck fuel pos : (forall j, (pos <= j)%nat -> rand j = rmax) ->
  normal_loop rand rmax fuel (fraction rand rmax pos) (S pos) = Running.
Proof.
  revert pos; induction fuel as [|fuel IH]; intros pos A; cbn [normal_loop]; destruct (Req_EM_T _ _) as [E1|E1];
    try (exfalso; apply E1; apply frac_one; apply A; lia); [reflexivity|].
  change (normal_loop rand rmax fuel (fraction rand rmax (S pos)) (S (S pos)) = Running); apply IH; intros j Hj; apply A; lia.
Qed.
Lemma fact_stuck pos : (forall j, (pos <= j)%nat -> rand j = rmax) -> forall fuel, genrandnormal rand rmax fuel pos = Running.
Proof. intros A fuel; exact (loop_stuck fuel pos A). Qed.
End rand.
(** A concrete generator: the largest number twice, then small ones. *)
Definition wrand (j : nat) : Z := match j with O | 1%nat => 32767%Z | _ => Z.of_nat (Nat.modulo j 100) end.
Lemma wrand_ok : library_rand wrand 32767 /\ first_below wrand 32767 0 2.
Proof.
  assert (A : forall j, (0 <= wrand j <= 32767)%Z).
  { intros [|[|j]]; unfold wrand; try lia. pose proof (Nat.mod_upper_bound (S (S j)) 100); lia. }
  split; [split; [lia|exact A]|]. repeat split; [lia|vm_compute; discriminate|].
  intros [|[|j]] Hj; try reflexivity; lia.
Qed.
Lemma wstuck_ok : library_rand (fun _ => 32767%Z) 32767 /\ forall j, (0 <= j)%nat -> (fun _ : nat => 32767%Z) j = 32767%Z.
Proof. repeat split; lia. Qed.
