(** Composition of the levels, in any arithmetic. *)
From Coq Require Import QArith List Bool Arith Lia.
From Verif Require Import Arith SplineModel SplineProofs HaarModel HaarSpec HaarProofs.
Import ListNotations.
Local Open Scope nat_scope.

Lemma decode n1 i j : i < n1 -> (i + j * n1) mod n1 = i /\ (i + j * n1) / n1 = j.
Proof. intros H. rewrite Nat.mod_add, Nat.div_add by lia. rewrite Nat.mod_small, Nat.div_small by lia. auto. Qed.

Section any.
Context {A : arith}.
Notation F := (F A).
Notation mem := (mem A).

(** ** One dimension *)
Lemma level1_ok n k z (st : mem * mem) : 2 * k <= n -> holds (fst st) n z ->
  exists st', level1 A n k st = Some st' /\ holds (fst st') n (fwd k z).
Proof.
  intros Hk H. destruct st as [v tmp]. cbn [fst] in H. unfold level1. cbn [fst snd].
  destruct (write_loop n k (fun i => i) (fun i => i + k) (fwd k z) (fun i tmp =>
     bind (cget A v (2 * i)) (fun a => bind (cget A v (2 * i + 1)) (fun b =>
     bind (cput A n tmp i (avg A a b)) (fun tmp => cput A n tmp (i + k) (dif A a b)))))) with (m0 := tmp)
    as (t1 & E1 & G1 & _); try (intros; lia).
  { intros i m Hi. rewrite (H (2 * i)) by lia. cbn [bind]. rewrite (H (2 * i + 1)) by lia. cbn [bind].
    rewrite fwd_lo by lia. replace (i + k) with (k + i) by lia. now rewrite fwd_hi by lia. }
  rewrite E1. cbn [bind].
  assert (Ht : forall i, i < 2 * k -> cget A t1 i = Some (fwd k z i)).
  { intros i Hi. destruct (lt_dec i k) as [L|L].
    - apply (G1 i L).
    - destruct (G1 (i - k) ltac:(lia)) as [_ X]. now replace (i - k + k) with i in X by lia. }
  destruct (copy_loop n (2 * k) (fun i => i) (fwd k z) (fun i v => bind (cget A t1 i) (fun a => cput A n v i a)))
    with (m0 := v) as (v1 & E2 & G2 & O2); try (intros; lia).
  { intros i m Hi. now rewrite Ht. }
  rewrite E2. cbn [bind]. eexists; split; [reflexivity|]. cbn [fst]. intros i Hi.
  destruct (lt_dec i (2 * k)) as [L|L]; [now apply G2|].
  rewrite O2 by (intros; lia). rewrite fwd_out by lia. now apply H.
Qed.

Lemma ilevel1_ok n k z (st : mem * mem) : 2 * k <= n -> holds (fst st) n z ->
  exists st', ilevel1 A n k st = Some st' /\ holds (fst st') n (bwd k z).
Proof.
  intros Hk H. destruct st as [v tmp]. cbn [fst] in H. unfold ilevel1. cbn [fst snd].
  destruct (write_loop n k (fun i => 2 * i) (fun i => 2 * i + 1) (bwd k z) (fun i tmp =>
     bind (cget A v i) (fun a => bind (cget A v (i + k)) (fun b =>
     bind (cput A n tmp (2 * i) (avg A a b)) (fun tmp => cput A n tmp (2 * i + 1) (dif A a b)))))) with (m0 := tmp)
    as (t1 & E1 & G1 & _); try (intros; lia).
  { intros i m Hi. rewrite (H i) by lia. cbn [bind]. rewrite (H (i + k)) by lia. cbn [bind].
    rewrite bwd_even by lia. now rewrite bwd_odd by lia. }
  rewrite E1. cbn [bind].
  assert (Ht : forall i, i < k * 2 -> cget A t1 i = Some (bwd k z i)).
  { intros i Hi. destruct (Nat.Even_or_Odd i) as [[h ->]|[h ->]]; apply (G1 h); lia. }
  destruct (copy_loop n (k * 2) (fun i => i) (bwd k z) (fun i v => bind (cget A t1 i) (fun a => cput A n v i a)))
    with (m0 := v) as (v1 & E2 & G2 & O2); try (intros; lia).
  { intros i m Hi. now rewrite Ht. }
  rewrite E2. cbn [bind]. eexists; split; [reflexivity|]. cbn [fst]. intros i Hi.
  destruct (lt_dec i (k * 2)) as [L|L]; [now apply G2|].
  rewrite O2 by (intros; lia). rewrite bwd_out by lia. now apply H.
Qed.

(** ** Two dimensions *)
Definition fwdr k (Z : nat -> nat -> F * F) i j := fwd k (fun i' => Z i' j) i.
Definition fwdc k (Z : nat -> nat -> F * F) i j := fwd k (fun j' => Z i j') j.
Definition bwdr k (Z : nat -> nat -> F * F) i j := bwd k (fun i' => Z i' j) i.
Definition bwdc k (Z : nat -> nat -> F * F) i j := bwd k (fun j' => Z i j') j.
(** A matrix as a function of the flat index. *)
Definition flat n1 (Z : nat -> nat -> F * F) c := Z (c mod n1) (c / n1).
Lemma flat_at n1 Z i j : i < n1 -> flat n1 Z (i + j * n1) = Z i j.
Proof. intros H. unfold flat. now destruct (decode n1 i j H) as [-> ->]. Qed.

(** Copying back the columns j < kb, rows i < ka. *)
Lemma copy_back n1 n2 kb ka (t vv : mem) Z Z' : ka <= n1 -> kb <= n2 ->
  (forall i j, i < ka -> j < kb -> cget A t (i + j * n1) = Some (Z' i j)) ->
  holds2 vv n1 n2 Z -> (forall i j, i < n1 -> j < n2 -> ~ (i < ka /\ j < kb) -> Z' i j = Z i j) ->
  exists vv', for_ kb 0 (fun j => for_ ka 0 (fun i vv => bind (cget A t (i + j * n1)) (fun a => cput A (n1 * n2) vv (i + j * n1) a))) vv = Some vv'
    /\ holds2 vv' n1 n2 Z'.
Proof.
  intros Ha Hb Ht H Hout.
  destruct (copy_nest (n1 * n2) kb ka (fun j i => i + j * n1) (flat n1 Z')
    (fun j i vv => bind (cget A t (i + j * n1)) (fun a => cput A (n1 * n2) vv (i + j * n1) a))) with (m0 := vv)
    as (vv' & E & G & O).
  - intros j i Hj Hi. apply idx_bound; lia.
  - intros j i j' i' Hj Hi Hj' Hi' Q. apply idx_inj in Q; lia.
  - intros j i m Hj Hi. rewrite Ht by assumption. cbn [bind]. now rewrite flat_at by lia.
  - exists vv'. split; [exact E|]. intros i j Hi Hj.
    destruct (lt_dec i ka) as [Li|Li]; [destruct (lt_dec j kb) as [Lj|Lj]|].
    + rewrite (G j i Lj Li). now rewrite flat_at.
    + rewrite O; [|intros j' i' Hj' Hi' Q; apply idx_inj in Q; lia]. rewrite H by assumption. rewrite Hout; auto. lia.
    + rewrite O; [|intros j' i' Hj' Hi' Q; apply idx_inj in Q; lia]. rewrite H by assumption. rewrite Hout; auto. lia.
Qed.

Ltac idx := let Q := fresh in intro Q; apply idx_inj in Q; lia.

Lemma row_level_ok n1 n2 k Z (st : mem * mem) : 2 * k <= n1 -> holds2 (fst st) n1 n2 Z ->
  exists st', row_level A n1 n2 k st = Some st' /\ holds2 (fst st') n1 n2 (fwdr k Z).
Proof.
  intros Hk H. destruct st as [v tmp]. cbn [fst] in H. unfold row_level. cbn [fst snd].
  destruct (write_nest (n1 * n2) n2 k (fun j i => i + j * n1) (fun j i => k + i + j * n1) (flat n1 (fwdr k Z)) (fun j i tmp =>
     bind (cget A v (2 * i + j * n1)) (fun a => bind (cget A v (2 * i + 1 + j * n1)) (fun b =>
     bind (cput A (n1 * n2) tmp (i + j * n1) (avg A a b)) (fun tmp => cput A (n1 * n2) tmp (k + i + j * n1) (dif A a b)))))) with (m0 := tmp)
    as (t1 & E1 & G1 & _).
  - intros j i Hj Hi. split; apply idx_bound; lia.
  - intros j i j' i' Hj Hi Hj' Hi' Q. apply idx_inj in Q; lia.
  - intros j i j' i' Hj Hi Hj' Hi' Q. apply idx_inj in Q; lia.
  - intros j i j' i' Hj Hi Hj' Hi'. idx.
  - intros j i m Hj Hi. rewrite (H (2 * i) j) by lia. cbn [bind]. rewrite (H (2 * i + 1) j) by lia. cbn [bind].
    rewrite !flat_at by lia. unfold fwdr. now rewrite fwd_lo, fwd_hi by lia.
  - rewrite E1. cbn [bind].
    destruct (copy_back n1 n2 n2 (2 * k) t1 v Z (fwdr k Z)) as (vv' & E2 & G2); auto.
    + intros i j Hi Hj. destruct (lt_dec i k) as [L|L].
      * destruct (G1 j i Hj L) as [X _]. now rewrite flat_at in X by lia.
      * destruct (G1 j (i - k) Hj ltac:(lia)) as [_ X]. rewrite flat_at in X by lia. now replace (k + (i - k)) with i in X by lia.
    + intros i j Hi Hj Hn. unfold fwdr. rewrite fwd_out by lia. reflexivity.
    + rewrite E2. cbn [bind]. eauto.
Qed.

Lemma col_level_ok n1 n2 k Z (st : mem * mem) : 2 * k <= n2 -> holds2 (fst st) n1 n2 Z ->
  exists st', col_level A n1 n2 k st = Some st' /\ holds2 (fst st') n1 n2 (fwdc k Z).
Proof.
  intros Hk H. destruct st as [v tmp]. cbn [fst] in H. unfold col_level. cbn [fst snd].
  destruct (write_nest (n1 * n2) k n1 (fun j i => i + j * n1) (fun j i => i + (k + j) * n1) (flat n1 (fwdc k Z)) (fun j i tmp =>
     bind (cget A v (i + 2 * j * n1)) (fun a => bind (cget A v (i + (2 * j + 1) * n1)) (fun b =>
     bind (cput A (n1 * n2) tmp (i + j * n1) (avg A a b)) (fun tmp => cput A (n1 * n2) tmp (i + (k + j) * n1) (dif A a b)))))) with (m0 := tmp)
    as (t1 & E1 & G1 & _).
  - intros j i Hj Hi. split; apply idx_bound; lia.
  - intros j i j' i' Hj Hi Hj' Hi' Q. apply idx_inj in Q; lia.
  - intros j i j' i' Hj Hi Hj' Hi' Q. apply idx_inj in Q; lia.
  - intros j i j' i' Hj Hi Hj' Hi'. idx.
  - intros j i m Hj Hi. rewrite (H i (2 * j)) by lia. cbn [bind]. rewrite (H i (2 * j + 1)) by lia. cbn [bind].
    rewrite !flat_at by lia. unfold fwdc. now rewrite fwd_lo, fwd_hi by lia.
  - rewrite E1. cbn [bind].
    destruct (copy_back n1 n2 (2 * k) n1 t1 v Z (fwdc k Z)) as (vv' & E2 & G2); auto.
    + intros i j Hi Hj. destruct (lt_dec j k) as [L|L].
      * destruct (G1 j i L Hi) as [X _]. now rewrite flat_at in X by lia.
      * destruct (G1 (j - k) i ltac:(lia) Hi) as [_ X]. rewrite flat_at in X by lia. now replace (k + (j - k)) with j in X by lia.
    + intros i j Hi Hj Hn. unfold fwdc. rewrite fwd_out by lia. reflexivity.
    + rewrite E2. cbn [bind]. eauto.
Qed.

Lemma irow_level_ok n1 n2 k Z (st : mem * mem) : 2 * k <= n1 -> holds2 (fst st) n1 n2 Z ->
  exists st', irow_level A n1 n2 k st = Some st' /\ holds2 (fst st') n1 n2 (bwdr k Z).
Proof.
  intros Hk H. destruct st as [v tmp]. cbn [fst] in H. unfold irow_level. cbn [fst snd].
  destruct (write_nest (n1 * n2) n2 k (fun j i => 2 * i + j * n1) (fun j i => 2 * i + 1 + j * n1) (flat n1 (bwdr k Z)) (fun j i tmp =>
     bind (cget A v (i + j * n1)) (fun a => bind (cget A v (k + i + j * n1)) (fun b =>
     bind (cput A (n1 * n2) tmp (2 * i + j * n1) (avg A a b)) (fun tmp => cput A (n1 * n2) tmp (2 * i + 1 + j * n1) (dif A a b)))))) with (m0 := tmp)
    as (t1 & E1 & G1 & _).
  - intros j i Hj Hi. split; apply idx_bound; lia.
  - intros j i j' i' Hj Hi Hj' Hi' Q. apply idx_inj in Q; lia.
  - intros j i j' i' Hj Hi Hj' Hi' Q. apply idx_inj in Q; lia.
  - intros j i j' i' Hj Hi Hj' Hi'. idx.
  - intros j i m Hj Hi. rewrite (H i j) by lia. cbn [bind]. rewrite (H (k + i) j) by lia. cbn [bind].
    rewrite !flat_at by lia. unfold bwdr. rewrite bwd_even, bwd_odd by lia. now replace (i + k) with (k + i) by lia.
  - rewrite E1. cbn [bind].
    destruct (copy_back n1 n2 n2 (2 * k) t1 v Z (bwdr k Z)) as (vv' & E2 & G2); auto.
    + intros i j Hi Hj. destruct (Nat.Even_or_Odd i) as [[h ->]|[h ->]].
      * destruct (G1 j h Hj ltac:(lia)) as [X _]. now rewrite flat_at in X by lia.
      * destruct (G1 j h Hj ltac:(lia)) as [_ X]. now rewrite flat_at in X by lia.
    + intros i j Hi Hj Hn. unfold bwdr. rewrite bwd_out by lia. reflexivity.
    + rewrite E2. cbn [bind]. eauto.
Qed.

Lemma icol_level_ok n1 n2 k Z (st : mem * mem) : 2 * k <= n2 -> holds2 (fst st) n1 n2 Z ->
  exists st', icol_level A n1 n2 k st = Some st' /\ holds2 (fst st') n1 n2 (bwdc k Z).
Proof.
  intros Hk H. destruct st as [v tmp]. cbn [fst] in H. unfold icol_level. cbn [fst snd].
  destruct (write_nest (n1 * n2) k n1 (fun j i => i + (2 * j) * n1) (fun j i => i + (2 * j + 1) * n1) (flat n1 (bwdc k Z)) (fun j i tmp =>
     bind (cget A v (i + j * n1)) (fun a => bind (cget A v (i + (k + j) * n1)) (fun b =>
     bind (cput A (n1 * n2) tmp (i + (2 * j) * n1) (avg A a b)) (fun tmp => cput A (n1 * n2) tmp (i + (2 * j + 1) * n1) (dif A a b)))))) with (m0 := tmp)
    as (t1 & E1 & G1 & _).
  - intros j i Hj Hi. split; apply idx_bound; lia.
  - intros j i j' i' Hj Hi Hj' Hi' Q. apply idx_inj in Q; lia.
  - intros j i j' i' Hj Hi Hj' Hi' Q. apply idx_inj in Q; lia.
  - intros j i j' i' Hj Hi Hj' Hi'. idx.
  - intros j i m Hj Hi. rewrite (H i j) by lia. cbn [bind]. rewrite (H i (k + j)) by lia. cbn [bind].
    rewrite !flat_at by lia. unfold bwdc. rewrite bwd_even, bwd_odd by lia. now replace (j + k) with (k + j) by lia.
  - rewrite E1. cbn [bind].
    destruct (copy_back n1 n2 (2 * k) n1 t1 v Z (bwdc k Z)) as (vv' & E2 & G2); auto.
    + intros i j Hi Hj. destruct (Nat.Even_or_Odd j) as [[h ->]|[h ->]].
      * destruct (G1 h i ltac:(lia) Hi) as [X _]. now rewrite flat_at in X by lia.
      * destruct (G1 h i ltac:(lia) Hi) as [_ X]. now rewrite flat_at in X by lia.
    + intros i j Hi Hj Hn. unfold bwdc. rewrite bwd_out by lia. reflexivity.
    + rewrite E2. cbn [bind]. eauto.
Qed.

Lemma copy_all_ok n (vv : mem) z : holds vv n z -> exists t, copy_all A n vv = Some t.
Proof.
  intros H. unfold copy_all.
  destruct (copy_loop n n (fun i => i) z (fun i t => bind (cget A vv i) (fun a => cput A n t i a))) with (m0 := fresh A)
    as (t & E & _); auto.
  { intros i m Hi. now rewrite H. }
  eauto.
Qed.

(** ** The number of levels *)
Lemma pow_log2_le n : 0 < Nat.log2 n -> 2 ^ Nat.log2 n <= n.
Proof. intros H. apply Nat.log2_spec. destruct n; [cbn in H; lia|lia]. Qed.
Lemma lt_pow_log2 n : n < 2 ^ (Nat.log2 n + 1).
Proof. destruct n; [cbn; lia|]. replace (Nat.log2 (S n) + 1) with (S (Nat.log2 (S n))) by lia. apply Nat.log2_spec. lia. Qed.
Lemma log2_le n : Nat.log2 n <= n.
Proof. destruct n; [cbn; lia|]. pose proof (Nat.log2_lt_lin (S n)). lia. Qed.

Lemma double_ok n d : forall a fuel, a + d = Nat.log2 n -> d < fuel -> double fuel n (2 ^ a) = Some (2 ^ Nat.log2 n).
Proof.
  induction d as [|d IH]; intros a fuel E Hf; (destruct fuel as [|fuel]; [lia|]); cbn [double].
  - rewrite Nat.add_0_r in E. subst a. pose proof (lt_pow_log2 n). rewrite Nat.pow_add_r in H. cbn [Nat.pow] in H.
    rewrite (proj2 (Nat.leb_gt _ _)) by lia. reflexivity.
  - assert (L : 2 ^ a * 2 <= n).
    { apply Nat.le_trans with (2 ^ Nat.log2 n); [|apply pow_log2_le; lia].
      replace (2 ^ a * 2) with (2 ^ S a) by (cbn [Nat.pow]; lia). apply Nat.pow_le_mono_r; lia. }
    rewrite (proj2 (Nat.leb_le _ _) L). replace (2 ^ a * 2) with (2 ^ S a) by (cbn [Nat.pow]; lia).
    apply IH; lia.
Qed.

Section compose.
Context {X : Type} (H : X -> mem -> Prop) (n : nat).
Fixpoint D (op : nat -> X -> X) (m : nat) (x : X) : X := match m with O => x | S m => D op m (op (2 ^ m) x) end.
Fixpoint U (op : nat -> X -> X) (m : nat) (x : X) : X := match m with O => x | S m => op (2 ^ m) (U op m x) end.

Lemma half_pow m : 2 ^ S m / 2 = 2 ^ m.
Proof. rewrite Nat.pow_succ_r', Nat.mul_comm. apply Nat.div_mul. lia. Qed.

Lemma down_ok op level :
  (forall k x st, 2 * k <= n -> H x (fst st) -> exists st', level k st = Some st' /\ H (op k x) (fst st')) ->
  forall m fuel x st, m <= Nat.log2 n -> m < fuel -> H x (fst st) ->
  exists st', down A level fuel (2 ^ m) st = Some st' /\ H (D op m x) (fst st').
Proof.
  intros Hl. induction m as [|m IH]; intros fuel x st Hm Hf Hx; (destruct fuel as [|fuel]; [lia|]); cbn [down D].
  - cbn [Nat.pow]. replace (1 <? 1) with false by reflexivity. eauto.
  - assert (1 < 2 ^ S m) by (cbn [Nat.pow]; pose proof (Nat.pow_nonzero 2 m); lia).
    rewrite (proj2 (Nat.ltb_lt _ _)) by assumption. rewrite half_pow.
    destruct (Hl (2 ^ m) x st) as (st1 & E1 & H1); [|exact Hx|].
    + apply Nat.le_trans with (2 ^ Nat.log2 n); [|apply pow_log2_le; lia].
      change (2 ^ S m <= 2 ^ Nat.log2 n). apply Nat.pow_le_mono_r; lia.
    + rewrite E1. cbn [bind]. apply IH; auto; lia.
Qed.

Lemma up_ok op level :
  (forall k x st, 2 * k <= n -> H x (fst st) -> exists st', level k st = Some st' /\ H (op k x) (fst st')) ->
  forall d a fuel x st, a + d = Nat.log2 n -> d < fuel -> H (U op a x) (fst st) ->
  exists st', up A level fuel n (2 ^ a) st = Some st' /\ H (U op (Nat.log2 n) x) (fst st').
Proof.
  intros Hl. induction d as [|d IH]; intros a fuel x st E Hf Hx; (destruct fuel as [|fuel]; [lia|]); cbn [up].
  - rewrite Nat.add_0_r in E. subst a. pose proof (lt_pow_log2 n) as L. rewrite Nat.pow_add_r in L. cbn [Nat.pow] in L.
    rewrite (proj2 (Nat.leb_gt _ _)) by lia. eauto.
  - assert (L : 2 ^ a * 2 <= n).
    { apply Nat.le_trans with (2 ^ Nat.log2 n); [|apply pow_log2_le; lia].
      replace (2 ^ a * 2) with (2 ^ S a) by (cbn [Nat.pow]; lia). apply Nat.pow_le_mono_r; lia. }
    rewrite (proj2 (Nat.leb_le _ _) L).
    destruct (Hl (2 ^ a) (U op a x) st ltac:(lia) Hx) as (st1 & E1 & H1). rewrite E1. cbn [bind].
    replace (2 ^ a * 2) with (2 ^ S a) by (cbn [Nat.pow]; lia). apply IH; auto; lia.
Qed.
End compose.

Lemma haar1_D fuel n z (v : mem) : n < fuel -> holds v n z ->
  exists v1, haar1 A fuel n v = Some v1 /\ holds v1 n (D fwd (Nat.log2 n) z).
Proof.
  intros Hf H. pose proof (log2_le n). unfold haar1. change 1 with (2 ^ 0) at 1. rewrite (double_ok n (Nat.log2 n)) by lia. cbn [bind].
  destruct (down_ok (fun z m => holds m n z) n fwd (level1 A n)) with (m := Nat.log2 n) (fuel := fuel) (x := z) (st := (v, zeros A n))
    as (st' & E & H'); auto; try lia.
  - intros k x st. apply level1_ok.
  - rewrite E. cbn [bind]. eauto.
Qed.
Lemma ihaar1_U fuel n z (v : mem) : n < fuel -> holds v n z ->
  exists v1, ihaar1 A fuel n v = Some v1 /\ holds v1 n (U bwd (Nat.log2 n) z).
Proof.
  intros Hf H. pose proof (log2_le n). unfold ihaar1. change 1 with (2 ^ 0) at 1.
  destruct (up_ok (fun z m => holds m n z) n bwd (ilevel1 A n)) with (d := Nat.log2 n) (a := 0) (fuel := fuel) (x := z) (st := (v, zeros A n))
    as (st' & E & H'); auto; try lia.
  - intros k x st. apply ilevel1_ok.
  - rewrite E. cbn [bind]. eauto.
Qed.

Lemma holds2_flat (v : mem) n1 n2 Z : holds2 v n1 n2 Z -> holds v (n1 * n2) (flat n1 Z).
Proof.
  intros H c Hc. assert (n1 <> 0) by nia. pose proof (Nat.div_mod c n1 ltac:(assumption)) as E.
  pose proof (Nat.mod_upper_bound c n1 ltac:(assumption)).
  assert (c / n1 < n2) by (apply Nat.div_lt_upper_bound; lia).
  unfold flat. rewrite <- H by assumption. f_equal. lia.
Qed.

Lemma haar2_D fuel n1 n2 Z (v : mem) : n1 < fuel -> n2 < fuel -> holds2 v n1 n2 Z ->
  exists v1, haar2 A fuel n1 n2 v = Some v1 /\ holds2 v1 n1 n2 (D fwdc (Nat.log2 n2) (D fwdr (Nat.log2 n1) Z)).
Proof.
  intros Hf1 Hf2 H. pose proof (log2_le n1). pose proof (log2_le n2). unfold haar2.
  destruct (copy_all_ok (n1 * n2) v (flat n1 Z)) as (t & Et); [now apply holds2_flat|]. rewrite Et. cbn [bind].
  change 1 with (2 ^ 0). rewrite (double_ok n1 (Nat.log2 n1)) by lia. cbn [bind].
  destruct (down_ok (fun z m => holds2 m n1 n2 z) n1 fwdr (row_level A n1 n2)) with (m := Nat.log2 n1) (fuel := fuel) (x := Z) (st := (v, t))
    as (st' & E & H'); auto; try lia.
  { intros k x st. apply row_level_ok. }
  rewrite E. cbn [bind]. rewrite (double_ok n2 (Nat.log2 n2)) by lia. cbn [bind].
  destruct (down_ok (fun z m => holds2 m n1 n2 z) n2 fwdc (col_level A n1 n2)) with (m := Nat.log2 n2) (fuel := fuel) (x := D fwdr (Nat.log2 n1) Z) (st := st')
    as (st2 & E2 & H2); auto; try lia.
  { intros k x st. apply col_level_ok. }
  rewrite E2. cbn [bind]. eauto.
Qed.
Lemma ihaar2_U fuel n1 n2 Z (v : mem) : n1 < fuel -> n2 < fuel -> holds2 v n1 n2 Z ->
  exists v1, ihaar2 A fuel n1 n2 v = Some v1 /\ holds2 v1 n1 n2 (U bwdr (Nat.log2 n1) (U bwdc (Nat.log2 n2) Z)).
Proof.
  intros Hf1 Hf2 H. pose proof (log2_le n1). pose proof (log2_le n2). unfold ihaar2.
  destruct (copy_all_ok (n1 * n2) v (flat n1 Z)) as (t & Et); [now apply holds2_flat|]. rewrite Et. cbn [bind].
  change 1 with (2 ^ 0).
  destruct (up_ok (fun z m => holds2 m n1 n2 z) n2 bwdc (icol_level A n1 n2)) with (d := Nat.log2 n2) (a := 0) (fuel := fuel) (x := Z) (st := (v, t))
    as (st' & E & H'); auto; try lia.
  { intros k x st. apply icol_level_ok. }
  rewrite E. cbn [bind].
  destruct (up_ok (fun z m => holds2 m n1 n2 z) n1 bwdr (irow_level A n1 n2)) with (d := Nat.log2 n1) (a := 0) (fuel := fuel) (x := U bwdc (Nat.log2 n2) Z) (st := st')
    as (st2 & E2 & H2); auto; try lia.
  { intros k x st. apply irow_level_ok. }
  rewrite E2. cbn [bind]. eauto.
Qed.

(** ** The levels compose to the textbook transform *)
Lemma fwd_approx k (z : nat -> F * F) i : i < k -> fwd k z i = approx 1 z i.
Proof. intros H. now rewrite fwd_lo. Qed.
Lemma approx_ext l : forall (z w : nat -> F * F) c, (forall i, i < 2 ^ l * (c + 1) -> z i = w i) -> approx l z c = approx l w c.
Proof.
  induction l as [|l IH]; intros z w c H; cbn [approx].
  - apply H. cbn [Nat.pow]. lia.
  - rewrite (IH z w (2 * c)), (IH z w (2 * c + 1)); [reflexivity| |]; intros i Hi; apply H; cbn [Nat.pow]; nia.
Qed.
Lemma approx_shift l (z : nat -> F * F) c : approx l (approx 1 z) c = approx (S l) z c.
Proof. revert c. induction l as [|l IH]; intros c; [reflexivity|].
  change (half (fsqrt (fq 2%Q)) (approx l (approx 1 z) (2 * c)) (approx l (approx 1 z) (2 * c + 1)) fadd = approx (S (S l)) z c).
  now rewrite !IH.
Qed.

Lemma D_fwd m : forall (z : nat -> F * F) i, D fwd m z i =
  if i =? 0 then approx m z 0
  else if i <? 2 ^ m then detail (m - Nat.log2 i) z (i - 2 ^ Nat.log2 i) else z i.
Proof.
  induction m as [|m IH]; intros z i; cbn [D].
  - cbn [Nat.pow approx]. destruct (Nat.eqb_spec i 0) as [->|Hi]; [reflexivity|].
    rewrite (proj2 (Nat.ltb_ge _ _)) by lia. reflexivity.
  - rewrite IH. assert (P : 2 ^ S m = 2 * 2 ^ m) by reflexivity.
    assert (E : forall l c, 2 ^ l * (c + 1) <= 2 ^ m -> approx l (fwd (2 ^ m) z) c = approx (S l) z c).
    { intros l c Hc. rewrite (approx_ext l _ (approx 1 z)); [apply approx_shift|]. intros j Hj. apply fwd_approx. lia. }
    destruct (Nat.eqb_spec i 0) as [->|Hi]; [apply E; lia|].
    destruct (Nat.ltb_spec i (2 ^ m)) as [L|L].
    + rewrite (proj2 (Nat.ltb_lt i (2 ^ S m))) by lia.
      pose proof (Nat.log2_spec i ltac:(lia)) as [B1 B2].
      assert (Lb : Nat.log2 i < m) by (apply (Nat.pow_lt_mono_r_iff 2); lia).
      set (b := Nat.log2 i) in *. unfold detail.
      replace (S m - b - 1) with (S (m - b - 1)) by lia.
      cbn [Nat.pow] in B2.
      assert (Q : 2 ^ (m - b - 1) * (2 * 2 ^ b) = 2 ^ m).
      { replace (2 * 2 ^ b) with (2 ^ S b) by reflexivity. rewrite <- Nat.pow_add_r. f_equal. lia. }
      rewrite !E; [reflexivity| |]; rewrite <- Q; apply Nat.mul_le_mono_l; lia.
    + destruct (Nat.ltb_spec i (2 ^ S m)) as [L2|L2].
      * replace (Nat.log2 i) with m by (symmetry; apply Nat.log2_unique; lia).
        replace (S m - m) with 1 by lia. unfold detail. cbn [Nat.sub approx].
        replace i with (2 ^ m + (i - 2 ^ m)) at 1 by lia. rewrite fwd_hi by lia. reflexivity.
      * apply fwd_out. lia.
Qed.
Lemma D_haar n (z : nat -> F * F) i : D fwd (Nat.log2 n) z i = haar n z i.
Proof. apply D_fwd. Qed.

Lemma D_fwdr m : forall (Z : nat -> nat -> F * F) i j, D fwdr m Z i j = D fwd m (fun i' => Z i' j) i.
Proof. induction m as [|m IH]; intros Z i j; cbn [D]; [reflexivity|]. rewrite IH. reflexivity. Qed.
Lemma D_fwdc m : forall (Z : nat -> nat -> F * F) i j, D fwdc m Z i j = D fwd m (fun j' => Z i j') j.
Proof. induction m as [|m IH]; intros Z i j; cbn [D]; [reflexivity|]. rewrite IH. reflexivity. Qed.
Lemma fwd_ext k (z w : nat -> F * F) : (forall i, z i = w i) -> forall i, fwd k z i = fwd k w i.
Proof. intros H i. unfold fwd. now rewrite !H. Qed.
Lemma D_ext m : forall (z w : nat -> F * F), (forall i, z i = w i) -> forall i, D fwd m z i = D fwd m w i.
Proof. induction m as [|m IH]; intros z w H i; cbn [D]; [apply H|]. apply IH. now apply fwd_ext. Qed.
Lemma D_haar2d n1 n2 (Z : nat -> nat -> F * F) i j : D fwdc (Nat.log2 n2) (D fwdr (Nat.log2 n1) Z) i j = haar2d n1 n2 Z i j.
Proof.
  rewrite D_fwdc. unfold haar2d. rewrite <- D_haar. apply D_ext. intros j'. rewrite D_fwdr. apply D_haar.
Qed.

Lemma holds_ext (m : mem) n z w : (forall i, z i = w i) -> holds m n z -> holds m n w.
Proof. intros E H i Hi. rewrite <- E. now apply H. Qed.
Lemma holds2_ext (m : mem) n1 n2 Z W : (forall i j, Z i j = W i j) -> holds2 m n1 n2 Z -> holds2 m n1 n2 W.
Proof. intros E H i j Hi Hj. rewrite <- E. now apply H. Qed.

Lemma haar1_is fuel n z (v : mem) : n < fuel -> holds v n z ->
  exists v1, haar1 A fuel n v = Some v1 /\ holds v1 n (haar n z).
Proof.
  intros Hf H. destruct (haar1_D fuel n z v Hf H) as (v1 & E & H1). exists v1. split; [exact E|].
  eapply holds_ext; [|exact H1]. apply D_haar.
Qed.
Lemma haar2_is fuel n1 n2 Z (v : mem) : n1 < fuel -> n2 < fuel -> holds2 v n1 n2 Z ->
  exists v1, haar2 A fuel n1 n2 v = Some v1 /\ holds2 v1 n1 n2 (haar2d n1 n2 Z).
Proof.
  intros Hf1 Hf2 H. destruct (haar2_D fuel n1 n2 Z v Hf1 Hf2 H) as (v1 & E & H1). exists v1. split; [exact E|].
  eapply holds2_ext; [|exact H1]. apply D_haar2d.
Qed.
End any.
