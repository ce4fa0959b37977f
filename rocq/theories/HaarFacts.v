(** Exact arithmetic: the levels are orthogonal. *)
From Coq Require Import QArith Qreals Reals List Bool Arith Lia Lra.
From Verif Require Import Arith SplineModel SplineProofs HaarModel HaarSpec HaarProofs HaarLevels.
Local Close Scope Q_scope.
Local Open Scope nat_scope.

Section real.
Context (big eps : R).
Notation A := (R_arith big eps).
Notation C := (F A * F A)%type.

Lemma s2 : (r2 A * r2 A = 2)%R.
Proof.
  unfold r2. cbn. replace (Q2R 2) with 2%R by (unfold Q2R; cbn; lra). apply sqrt_sqrt. lra.
Qed.
Lemma s2_nz : (r2 A <> 0)%R.
Proof. intros E. pose proof s2 as H. rewrite E in H. lra. Qed.

Lemma halves (a b : R) s : (s * s = 2 -> s <> 0 -> ((a + b) / s + (a - b) / s) / s = a /\ ((a + b) / s - (a - b) / s) / s = b)%R.
Proof.
  intros H Hn. split.
  - replace (((a + b) / s + (a - b) / s) / s)%R with (2 * a / (s * s))%R by (field; exact Hn). rewrite H. field.
  - replace (((a + b) / s - (a - b) / s) / s)%R with (2 * b / (s * s))%R by (field; exact Hn). rewrite H. field.
Qed.
Lemma back (a b : C) : avg A (avg A a b) (dif A a b) = a /\ dif A (avg A a b) (dif A a b) = b.
Proof.
  destruct a as [a1 a2], b as [b1 b2]. unfold avg, dif. cbn [fst snd].
  destruct (halves a1 b1 _ s2 s2_nz) as [X1 Y1]. destruct (halves a2 b2 _ s2 s2_nz) as [X2 Y2].
  split; f_equal; assumption.
Qed.

Lemma bwd_fwd k (z : nat -> C) i : bwd k (fwd k z) i = z i.
Proof.
  destruct (lt_dec i (2 * k)) as [L|L].
  - destruct (Nat.Even_or_Odd i) as [[h ->]|[h ->]].
    + rewrite bwd_even by lia. replace (h + k) with (k + h) by lia. rewrite fwd_hi, fwd_lo by lia. apply back.
    + rewrite bwd_odd by lia. replace (h + k) with (k + h) by lia. rewrite fwd_hi, fwd_lo by lia. apply back.
  - rewrite bwd_out, fwd_out by lia. reflexivity.
Qed.
Lemma fwd_bwd k (z : nat -> C) i : fwd k (bwd k z) i = z i.
Proof.
  destruct (lt_dec i k) as [L|L]; [|destruct (lt_dec i (2 * k)) as [L2|L2]].
  - rewrite fwd_lo, bwd_even, bwd_odd by lia. apply back.
  - replace i with (k + (i - k)) by lia. rewrite fwd_hi, bwd_even, bwd_odd by lia.
    replace (i - k + k) with (k + (i - k)) by lia. apply back.
  - rewrite fwd_out, bwd_out by lia. reflexivity.
Qed.
Lemma bwd_ext k (z w : nat -> C) : (forall i, z i = w i) -> forall i, bwd k z i = bwd k w i.
Proof. intros H i. unfold bwd. now rewrite !H. Qed.
Lemma U_ext m : forall (z w : nat -> C), (forall i, z i = w i) -> forall i, U bwd m z i = U bwd m w i.
Proof. induction m as [|m IH]; intros z w H i; cbn [U]; [apply H|]. apply bwd_ext. now apply IH. Qed.

Lemma U_D m : forall (z : nat -> C) i, U bwd m (D fwd m z) i = z i.
Proof.
  induction m as [|m IH]; intros z i; cbn [U D]; [reflexivity|].
  rewrite (bwd_ext _ _ (fwd (2 ^ m) z)); [apply bwd_fwd|]. apply IH.
Qed.
Lemma D_U m : forall (z : nat -> C) i, D fwd m (U bwd m z) i = z i.
Proof.
  induction m as [|m IH]; intros z i; cbn [U D]; [reflexivity|].
  rewrite (D_ext m _ (U bwd m z)); [apply IH|]. apply fwd_bwd.
Qed.
Lemma U_bwdr m : forall (Z : nat -> nat -> C) i j, U bwdr m Z i j = U bwd m (fun i' => Z i' j) i.
Proof. induction m as [|m IH]; intros Z i j; cbn [U]; [reflexivity|]. unfold bwdr at 1. apply bwd_ext. intros i'. apply IH. Qed.
Lemma U_bwdc m : forall (Z : nat -> nat -> C) i j, U bwdc m Z i j = U bwd m (fun j' => Z i j') j.
Proof. induction m as [|m IH]; intros Z i j; cbn [U]; [reflexivity|]. unfold bwdc at 1. apply bwd_ext. intros j'. apply IH. Qed.

Lemma U_D2 m1 m2 (Z : nat -> nat -> C) i j : U bwdr m1 (U bwdc m2 (D fwdc m2 (D fwdr m1 Z))) i j = Z i j.
Proof.
  rewrite U_bwdr. rewrite (U_ext m1 _ (D fwd m1 (fun i' => Z i' j))); [apply (U_D m1 (fun i' => Z i' j))|].
  intros i'. rewrite U_bwdc. rewrite (U_ext m2 _ (D fwd m2 (fun j' => D fwdr m1 Z i' j'))).
  - rewrite (U_D m2 (fun j' => D fwdr m1 Z i' j')). apply D_fwdr.
  - intros j'. apply D_fwdc.
Qed.
Lemma D_U2 m1 m2 (Z : nat -> nat -> C) i j : D fwdc m2 (D fwdr m1 (U bwdr m1 (U bwdc m2 Z))) i j = Z i j.
Proof.
  rewrite D_fwdc. rewrite (D_ext m2 _ (U bwd m2 (fun j' => Z i j'))); [apply (D_U m2 (fun j' => Z i j'))|].
  intros j'. rewrite D_fwdr. rewrite (D_ext m1 _ (U bwd m1 (fun i' => U bwdc m2 Z i' j'))).
  - rewrite (D_U m1 (fun i' => U bwdc m2 Z i' j')). apply U_bwdc.
  - intros i'. apply U_bwdr.
Qed.

(** ** Energy *)
Local Open Scope R_scope.
Lemma sum_ext n f g : (forall i, (i < n)%nat -> f i = g i) -> sum n f = sum n g.
Proof. induction n as [|n IH]; intros H; cbn [sum]; [reflexivity|]. rewrite IH, H; auto. Qed.
Lemma sum_plus n f g : sum n (fun i => f i + g i) = sum n f + sum n g.
Proof. induction n as [|n IH]; cbn [sum]; [lra|]. rewrite IH. lra. Qed.
Lemma sum_app m k f : sum (m + k) f = sum m f + sum k (fun i => f (m + i)%nat).
Proof.
  induction k as [|k IH]; [rewrite Nat.add_0_r; cbn [sum]; lra|].
  replace (m + S k)%nat with (S (m + k)) by lia. cbn [sum]. rewrite IH. lra.
Qed.
Lemma sum_pairs k f : sum (2 * k) f = sum k (fun i => f (2 * i)%nat + f (2 * i + 1)%nat).
Proof.
  induction k as [|k IH]; [reflexivity|]. replace (2 * S k)%nat with (S (S (2 * k))) by lia.
  cbn [sum]. rewrite IH. replace (2 * k + 1)%nat with (S (2 * k)) by lia. lra.
Qed.
Lemma sum_swap n m f : sum n (fun i => sum m (fun j => f i j)) = sum m (fun j => sum n (fun i => f i j)).
Proof.
  induction n as [|n IH]; cbn [sum].
  - clear. induction m as [|m IHm]; cbn [sum] in *; [reflexivity|]. rewrite <- IHm. lra.
  - rewrite IH. now rewrite <- sum_plus.
Qed.

Lemma norm_pair (a b : C) : norm2 (avg A a b) + norm2 (dif A a b) = norm2 a + norm2 b.
Proof.
  destruct a as [a1 a2], b as [b1 b2]. unfold avg, dif, norm2. cbn [fst snd].
  assert (Q : forall x y : R, (@fdiv A (@fadd A x y) (r2 A)) ^ 2 + (@fdiv A (@fsub A x y) (r2 A)) ^ 2 = x ^ 2 + y ^ 2).
  { intros x y. pose proof s2 as H. pose proof s2_nz as Hn. revert H Hn. generalize (r2 A). cbn. intros s H Hn.
    replace (((x + y) / s * ((x + y) / s * 1) + (x - y) / s * ((x - y) / s * 1)))%R with (2 * (x * x + y * y) / (s * s)) by (field; exact Hn).
    rewrite H. field. }
  pose proof (Q a1 b1). pose proof (Q a2 b2). cbn in *. lra.
Qed.

Lemma fwd_energy n k (z : nat -> C) : (2 * k <= n)%nat -> sum n (fun i => norm2 (fwd k z i)) = sum n (fun i => norm2 (z i)).
Proof.
  intros Hk. replace n with (2 * k + (n - 2 * k))%nat by lia. rewrite !(sum_app (2 * k)). f_equal.
  - rewrite (sum_pairs k (fun i => norm2 (z i))). replace (2 * k)%nat with (k + k)%nat by lia. rewrite sum_app, <- sum_plus.
    apply sum_ext. intros i Hi. rewrite fwd_lo, fwd_hi by lia. apply norm_pair.
  - apply sum_ext. intros i Hi. rewrite fwd_out by lia. reflexivity.
Qed.
Lemma D_energy n m : (m <= Nat.log2 n)%nat -> forall (z : nat -> C), sum n (fun i => norm2 (D fwd m z i)) = sum n (fun i => norm2 (z i)).
Proof.
  induction m as [|m IH]; intros Hm z; cbn [D]; [reflexivity|].
  rewrite IH by lia. apply fwd_energy.
  apply Nat.le_trans with (2 ^ Nat.log2 n)%nat; [|apply pow_log2_le; lia].
  change (2 ^ S m <= 2 ^ Nat.log2 n)%nat. apply Nat.pow_le_mono_r; lia.
Qed.

Lemma haar_energy n (z : nat -> C) : sum n (fun i => norm2 (haar n z i)) = sum n (fun i => norm2 (z i)).
Proof. rewrite <- (D_energy n (Nat.log2 n) (le_n _) z). apply sum_ext. intros i _. rewrite (D_haar (A := A) n z i). reflexivity. Qed.
Lemma haar2d_energy n1 n2 (Z : nat -> nat -> C) :
  sum n1 (fun i => sum n2 (fun j => norm2 (haar2d n1 n2 Z i j))) = sum n1 (fun i => sum n2 (fun j => norm2 (Z i j))).
Proof.
  unfold haar2d.
  rewrite (sum_ext n1 _ (fun i => sum n2 (fun j => norm2 (haar n1 (fun i' => Z i' j) i)))).
  - rewrite (sum_swap n1 n2 (fun i j => norm2 (haar n1 (fun i' => Z i' j) i))), (sum_swap n1 n2 (fun i j => norm2 (Z i j))). apply sum_ext. intros j _. apply haar_energy.
  - intros i _. apply (haar_energy n2 (fun j' => haar n1 (fun i' => Z i' j') i)).
Qed.
Local Close Scope R_scope.

(** ** Round trips *)
Lemma round1 fuel n (z : nat -> C) v : n < fuel -> holds v n z ->
  exists v1 v2, haar1 A fuel n v = Some v1 /\ ihaar1 A fuel n v1 = Some v2 /\ holds v2 n z.
Proof.
  intros Hf H. destruct (haar1_D fuel n z v Hf H) as (v1 & E1 & H1).
  destruct (ihaar1_U fuel n _ v1 Hf H1) as (v2 & E2 & H2). exists v1, v2. repeat split; auto.
  eapply holds_ext; [|exact H2]. apply U_D.
Qed.
Lemma round1' fuel n (z : nat -> C) v : n < fuel -> holds v n z ->
  exists v1 v2, ihaar1 A fuel n v = Some v1 /\ haar1 A fuel n v1 = Some v2 /\ holds v2 n z.
Proof.
  intros Hf H. destruct (ihaar1_U fuel n z v Hf H) as (v1 & E1 & H1).
  destruct (haar1_D fuel n _ v1 Hf H1) as (v2 & E2 & H2). exists v1, v2. repeat split; auto.
  eapply holds_ext; [|exact H2]. apply D_U.
Qed.
Lemma round2 fuel n1 n2 (Z : nat -> nat -> C) v : n1 < fuel -> n2 < fuel -> holds2 v n1 n2 Z ->
  exists v1 v2, haar2 A fuel n1 n2 v = Some v1 /\ ihaar2 A fuel n1 n2 v1 = Some v2 /\ holds2 v2 n1 n2 Z.
Proof.
  intros Hf1 Hf2 H. destruct (haar2_D fuel n1 n2 Z v Hf1 Hf2 H) as (v1 & E1 & H1).
  destruct (ihaar2_U fuel n1 n2 _ v1 Hf1 Hf2 H1) as (v2 & E2 & H2). exists v1, v2. repeat split; auto.
  eapply holds2_ext; [|exact H2]. apply U_D2.
Qed.
Lemma round2' fuel n1 n2 (Z : nat -> nat -> C) v : n1 < fuel -> n2 < fuel -> holds2 v n1 n2 Z ->
  exists v1 v2, ihaar2 A fuel n1 n2 v = Some v1 /\ haar2 A fuel n1 n2 v1 = Some v2 /\ holds2 v2 n1 n2 Z.
Proof.
  intros Hf1 Hf2 H. destruct (ihaar2_U fuel n1 n2 Z v Hf1 Hf2 H) as (v1 & E1 & H1).
  destruct (haar2_D fuel n1 n2 _ v1 Hf1 Hf2 H1) as (v2 & E2 & H2). exists v1, v2. repeat split; auto.
  eapply holds2_ext; [|exact H2]. apply D_U2.
Qed.
End real.

Lemma ihaar1_defined (A : arith) fuel n (z : nat -> F A * F A) (v : mem A) : n < fuel -> holds v n z ->
  exists v1, ihaar1 A fuel n v = Some v1 /\ exists z1, holds v1 n z1.
Proof. intros Hf H. destruct (ihaar1_U fuel n z v Hf H) as (v1 & E & H1). eauto. Qed.
Lemma ihaar2_defined (A : arith) fuel n1 n2 (Z : nat -> nat -> F A * F A) (v : mem A) :
  n1 < fuel -> n2 < fuel -> holds2 v n1 n2 Z ->
  exists v1, ihaar2 A fuel n1 n2 v = Some v1 /\ exists Z1, holds2 v1 n1 n2 Z1.
Proof. intros Hf1 Hf2 H. destruct (ihaar2_U fuel n1 n2 Z v Hf1 Hf2 H) as (v1 & E & H1). eauto. Qed.

Section final.
Context (big eps : R).
Notation A := (R_arith big eps).
Notation holds := (@holds A).
Notation holds2 := (@holds2 A).
Lemma round_trip fuel n (z : nat -> R * R) (v : mem A) : n < fuel -> holds v n z ->
  (exists v1 v2, haar1 A fuel n v = Some v1 /\ ihaar1 A fuel n v1 = Some v2 /\ holds v2 n z)
  /\ (exists v1 v2, ihaar1 A fuel n v = Some v1 /\ haar1 A fuel n v1 = Some v2 /\ holds v2 n z).
Proof. split; [now apply round1|now apply round1']. Qed.
Lemma round_trip_2d fuel n1 n2 (Z : nat -> nat -> R * R) (v : mem A) : n1 < fuel -> n2 < fuel -> holds2 v n1 n2 Z ->
  (exists v1 v2, haar2 A fuel n1 n2 v = Some v1 /\ ihaar2 A fuel n1 n2 v1 = Some v2 /\ holds2 v2 n1 n2 Z)
  /\ (exists v1 v2, ihaar2 A fuel n1 n2 v = Some v1 /\ haar2 A fuel n1 n2 v1 = Some v2 /\ holds2 v2 n1 n2 Z).
Proof. split; [now apply round2|now apply round2']. Qed.
Lemma energy1 fuel n (z z1 : nat -> R * R) (v v1 : mem A) : n < fuel -> holds v n z ->
  haar1 A fuel n v = Some v1 -> holds v1 n z1 ->
  sum n (fun i => norm2 (z1 i)) = sum n (fun i => norm2 (z i)).
Proof.
  intros Hf H E H1. destruct (@haar1_is A fuel n z v Hf H) as (w & E' & Hw). rewrite E in E'. inversion E'; subst w.
  rewrite <- (haar_energy big eps n z). apply sum_ext. intros i Hi.
  pose proof (H1 i Hi) as X. rewrite (Hw i Hi) in X. inversion X as [X1]. reflexivity.
Qed.
Lemma energy2 fuel n1 n2 (Z Z1 : nat -> nat -> R * R) (v v1 : mem A) : n1 < fuel -> n2 < fuel -> holds2 v n1 n2 Z ->
  haar2 A fuel n1 n2 v = Some v1 -> holds2 v1 n1 n2 Z1 ->
  sum n1 (fun i => sum n2 (fun j => norm2 (Z1 i j))) = sum n1 (fun i => sum n2 (fun j => norm2 (Z i j))).
Proof.
  intros Hf1 Hf2 H E H1. destruct (@haar2_is A fuel n1 n2 Z v Hf1 Hf2 H) as (w & E' & Hw). rewrite E in E'. inversion E'; subst w.
  rewrite <- (haar2d_energy big eps n1 n2 Z). apply sum_ext. intros i Hi. apply sum_ext. intros j Hj.
  pose proof (H1 i j Hi Hj) as X. rewrite (Hw i j Hi Hj) in X. inversion X as [X1]. reflexivity.
Qed.
Import ListNotations.
Lemma example1 : holds (fun c => nth_error [1; 0; 2; -1; 3; 5; 4; 0; 5; 7]%R c) 5
    (fun i => nth i [(1, 0); (2, -1); (3, 5); (4, 0); (5, 7)]%R (0, 0)%R).
Proof. intros i Hi. do 5 (destruct i as [|i]; [reflexivity|]). lia. Qed.
Lemma example2 : holds2 (fun c => nth_error [1; 0; 2; -1; 3; 5; 4; 0; 5; 7; 6; 8]%R c) 3 2
    (fun i j => nth i (nth j [[(1, 0); (2, -1); (3, 5)]; [(4, 0); (5, 7); (6, 8)]]%R []) (0, 0)%R).
Proof.
  intros i j Hi Hj. destruct j as [|[|j]]; [| |lia]; (do 3 (destruct i as [|i]; [reflexivity|])); lia.
Qed.
End final.
