(** The Haar loops compute [fwd]/[bwd] levels in any arithmetic. *)
From Coq Require Import QArith List Bool Arith Lia.
From Verif Require Import Arith SplineModel SplineProofs HaarModel HaarSpec.
Import ListNotations.
Local Open Scope nat_scope.

Lemma idx_bound n1 n2 i j : i < n1 -> j < n2 -> i + j * n1 < n1 * n2.
Proof. intros. nia. Qed.
Lemma idx_inj n1 i j i' j' : i < n1 -> i' < n1 -> i + j * n1 = i' + j' * n1 -> i = i' /\ j = j'.
Proof.
  intros H H' E. assert (Hj : j = j').
  { destruct (Nat.lt_trichotomy j j') as [L|[L|L]]; [exfalso|exact L|exfalso]; nia. }
  subst j'. split; lia.
Qed.

Section any.
Context {A : arith}.
Notation F := (F A).
Notation mem := (mem A).

Lemma cput_ok n (m : mem) i z : i < n -> exists m', cput A n m i z = Some m' /\ cget A m' i = Some z
  /\ forall k, k <> i -> cget A m' k = cget A m k.
Proof.
  intros H. unfold cput. rewrite wr_ok by lia. cbn [bind]. rewrite wr_ok by lia.
  eexists; split; [reflexivity|]. split.
  - unfold cget. rewrite upd_other by lia. rewrite upd_same. cbn [bind]. rewrite upd_same. now destruct z.
  - intros k Hk. unfold cget. rewrite !upd_other by lia. reflexivity.
Qed.

(** One level. *)
Definition fwd (k : nat) (z : nat -> F * F) (i : nat) : F * F :=
  if i <? k then avg A (z (2 * i)) (z (2 * i + 1))
  else if i <? 2 * k then dif A (z (2 * (i - k))) (z (2 * (i - k) + 1)) else z i.
Definition bwd (k : nat) (z : nat -> F * F) (i : nat) : F * F :=
  if i <? 2 * k then
    if Nat.even i then avg A (z (Nat.div2 i)) (z (Nat.div2 i + k)) else dif A (z (Nat.div2 i)) (z (Nat.div2 i + k))
  else z i.

Lemma fwd_lo k z i : i < k -> fwd k z i = avg A (z (2 * i)) (z (2 * i + 1)).
Proof. intros H. unfold fwd. now rewrite (proj2 (Nat.ltb_lt _ _) H). Qed.
Lemma fwd_hi k z i : i < k -> fwd k z (k + i) = dif A (z (2 * i)) (z (2 * i + 1)).
Proof.
  intros H. unfold fwd. rewrite (proj2 (Nat.ltb_ge _ _)) by lia. rewrite (proj2 (Nat.ltb_lt _ _)) by lia.
  now replace (k + i - k) with i by lia.
Qed.
Lemma fwd_out k z i : 2 * k <= i -> fwd k z i = z i.
Proof. intros H. unfold fwd. rewrite !(proj2 (Nat.ltb_ge _ _)) by lia. reflexivity. Qed.
Lemma bwd_even k z i : i < k -> bwd k z (2 * i) = avg A (z i) (z (i + k)).
Proof.
  intros H. unfold bwd. rewrite (proj2 (Nat.ltb_lt _ _)) by lia.
  rewrite Nat.even_mul. cbn [Nat.even orb]. now rewrite Nat.div2_double.
Qed.
Lemma bwd_odd k z i : i < k -> bwd k z (2 * i + 1) = dif A (z i) (z (i + k)).
Proof.
  intros H. unfold bwd. rewrite (proj2 (Nat.ltb_lt _ _)) by lia.
  replace (2 * i + 1) with (S (2 * i)) by lia. rewrite Nat.div2_succ_double.
  rewrite Nat.even_succ, <- Nat.negb_even, Nat.even_mul. reflexivity.
Qed.
Lemma bwd_out k z i : 2 * k <= i -> bwd k z i = z i.
Proof. intros H. unfold bwd. rewrite !(proj2 (Nat.ltb_ge _ _)) by lia. reflexivity. Qed.

(** A double loop that writes two cells per step: the pattern of every level. *)
Definition sets2 (N : nat) (p q : nat -> nat) (x y : nat -> F * F) (i : nat) (m : mem) : option mem :=
  bind (cput A N m (p i) (x i)) (fun m => cput A N m (q i) (y i)).

(** Loop over i < k writing T at p i and q i, where all indices involved are distinct. *)
Lemma write_loop N k (p q : nat -> nat) (T : nat -> F * F) body :
  (forall i, i < k -> p i < N /\ q i < N) ->
  (forall i i', i < k -> i' < k -> p i = p i' -> i = i') -> (forall i i', i < k -> i' < k -> q i = q i' -> i = i') ->
  (forall i i', i < k -> i' < k -> p i <> q i') ->
  (forall i m, i < k -> body i m = bind (cput A N m (p i) (T (p i))) (fun m => cput A N m (q i) (T (q i)))) ->
  forall m0, exists m', for_ k 0 body m0 = Some m'
    /\ (forall i, i < k -> cget A m' (p i) = Some (T (p i)) /\ cget A m' (q i) = Some (T (q i)))
    /\ (forall c, (forall i, i < k -> c <> p i /\ c <> q i) -> cget A m' c = cget A m0 c).
Proof.
  intros Hb Hp Hq Hpq Hbody m0.
  destruct (for_inv (fun j m => (forall i, i < j -> cget A m (p i) = Some (T (p i)) /\ cget A m (q i) = Some (T (q i)))
    /\ (forall c, (forall i, i < j -> c <> p i /\ c <> q i) -> cget A m c = cget A m0 c)) body k 0 m0)
    as (m' & E & H1 & H2).
  - split; [intros i Hi; lia | reflexivity].
  - intros j m _ Hj (I1 & I2). cbn [Nat.add] in Hj. rewrite (Hbody j m Hj).
    destruct (Hb j Hj) as [Bp Bq].
    destruct (cput_ok N m (p j) (T (p j)) Bp) as (m1 & E1 & G1 & O1). rewrite E1. cbn [bind].
    destruct (cput_ok N m1 (q j) (T (q j)) Bq) as (m2 & E2 & G2 & O2). rewrite E2.
    exists m2. split; [reflexivity|]. split.
    + intros i Hi. destruct (Nat.eq_dec i j) as [->|Hne].
      * split; [rewrite O2; auto|exact G2].
      * assert (Hi' : i < j) by lia. destruct (I1 i Hi') as [X Y].
        split.
        -- rewrite O2, O1; [exact X| |]; [intros Q; apply Hne, Hp; auto; lia|apply Hpq; lia].
        -- rewrite O2, O1; [exact Y| |]; [apply not_eq_sym, Hpq; lia|intros Q; apply Hne, Hq; auto; lia].
    + intros c Hc. rewrite O2, O1; [apply I2; intros i Hi; apply Hc; lia| |]; apply (Hc j); lia.
  - exists m'. cbn [Nat.add] in *. auto.
Qed.

(** Copying k cells from tmp. *)
Lemma copy_loop N k (p : nat -> nat) (T : nat -> F * F) body :
  (forall i, i < k -> p i < N) -> (forall i i', i < k -> i' < k -> p i = p i' -> i = i') ->
  (forall i m, i < k -> body i m = cput A N m (p i) (T (p i))) ->
  forall m0, exists m', for_ k 0 body m0 = Some m'
    /\ (forall i, i < k -> cget A m' (p i) = Some (T (p i)))
    /\ (forall c, (forall i, i < k -> c <> p i) -> cget A m' c = cget A m0 c).
Proof.
  intros Hb Hp Hbody m0.
  destruct (for_inv (fun j m => (forall i, i < j -> cget A m (p i) = Some (T (p i)))
    /\ (forall c, (forall i, i < j -> c <> p i) -> cget A m c = cget A m0 c)) body k 0 m0)
    as (m' & E & H1 & H2).
  - split; [intros i Hi; lia | reflexivity].
  - intros j m _ Hj (I1 & I2). cbn [Nat.add] in Hj. rewrite (Hbody j m Hj).
    destruct (cput_ok N m (p j) (T (p j)) (Hb j Hj)) as (m1 & E1 & G1 & O1). rewrite E1.
    exists m1. split; [reflexivity|]. split.
    + intros i Hi. destruct (Nat.eq_dec i j) as [->|Hne]; [exact G1|].
      rewrite O1; [apply I1; lia|]. intros Q. apply Hne, Hp; auto; lia.
    + intros c Hc. rewrite O1; [apply I2; intros i Hi; apply Hc; lia|]. apply Hc; lia.
  - exists m'. cbn [Nat.add] in *. auto.
Qed.

(** *** Doubly nested versions: a loop over [b < kb] around a loop over [a < ka]. *)
Lemma write_nest N kb ka (p q : nat -> nat -> nat) (T : nat -> F * F) body :
  (forall b a, b < kb -> a < ka -> p b a < N /\ q b a < N) ->
  (forall b a b' a', b < kb -> a < ka -> b' < kb -> a' < ka -> p b a = p b' a' -> b = b' /\ a = a') ->
  (forall b a b' a', b < kb -> a < ka -> b' < kb -> a' < ka -> q b a = q b' a' -> b = b' /\ a = a') ->
  (forall b a b' a', b < kb -> a < ka -> b' < kb -> a' < ka -> p b a <> q b' a') ->
  (forall b a m, b < kb -> a < ka -> body b a m =
     bind (cput A N m (p b a) (T (p b a))) (fun m => cput A N m (q b a) (T (q b a)))) ->
  forall m0, exists m', for_ kb 0 (fun b => for_ ka 0 (body b)) m0 = Some m'
    /\ (forall b a, b < kb -> a < ka -> cget A m' (p b a) = Some (T (p b a)) /\ cget A m' (q b a) = Some (T (q b a)))
    /\ (forall c, (forall b a, b < kb -> a < ka -> c <> p b a /\ c <> q b a) -> cget A m' c = cget A m0 c).
Proof.
  intros Hb Hp Hq Hpq Hbody m0.
  destruct (for_inv (fun j m => (forall b a, b < j -> a < ka -> cget A m (p b a) = Some (T (p b a)) /\ cget A m (q b a) = Some (T (q b a)))
    /\ (forall c, (forall b a, b < j -> a < ka -> c <> p b a /\ c <> q b a) -> cget A m c = cget A m0 c))
    (fun b => for_ ka 0 (body b)) kb 0 m0) as (m' & E & H1 & H2).
  - split; [intros b a Hi; lia | reflexivity].
  - intros j m _ Hj (I1 & I2). cbn [Nat.add] in Hj.
    destruct (write_loop N ka (p j) (q j) T (body j)) with (m0 := m) as (m1 & E1 & G1 & O1).
    + intros a Ha. now apply Hb.
    + intros a a' Ha Ha' Q. now apply (Hp j a j a').
    + intros a a' Ha Ha' Q. now apply (Hq j a j a').
    + intros a a' Ha Ha'. now apply Hpq.
    + intros a m1 Ha. now apply Hbody.
    + exists m1. split; [exact E1|]. split.
      * intros b a Hbj Ha. destruct (Nat.eq_dec b j) as [->|Hne]; [now apply G1|].
        assert (Hbj' : b < j) by lia. destruct (I1 b a Hbj' Ha) as [X Y].
        split.
        -- rewrite O1; [exact X|]. intros a' Ha'. split; [|apply Hpq; lia].
           intros Q. apply Hne. now apply (Hp b a j a'); try lia.
        -- rewrite O1; [exact Y|]. intros a' Ha'. split; [apply not_eq_sym, Hpq; lia|].
           intros Q. apply Hne. now apply (Hq b a j a'); try lia.
      * intros c Hc. rewrite O1; [apply I2; intros b a Hb' Ha; apply Hc; lia|]. intros a Ha. apply Hc; lia.
  - exists m'. cbn [Nat.add] in *. auto.
Qed.

Lemma copy_nest N kb ka (p : nat -> nat -> nat) (T : nat -> F * F) body :
  (forall b a, b < kb -> a < ka -> p b a < N) ->
  (forall b a b' a', b < kb -> a < ka -> b' < kb -> a' < ka -> p b a = p b' a' -> b = b' /\ a = a') ->
  (forall b a m, b < kb -> a < ka -> body b a m = cput A N m (p b a) (T (p b a))) ->
  forall m0, exists m', for_ kb 0 (fun b => for_ ka 0 (body b)) m0 = Some m'
    /\ (forall b a, b < kb -> a < ka -> cget A m' (p b a) = Some (T (p b a)))
    /\ (forall c, (forall b a, b < kb -> a < ka -> c <> p b a) -> cget A m' c = cget A m0 c).
Proof.
  intros Hb Hp Hbody m0.
  destruct (for_inv (fun j m => (forall b a, b < j -> a < ka -> cget A m (p b a) = Some (T (p b a)))
    /\ (forall c, (forall b a, b < j -> a < ka -> c <> p b a) -> cget A m c = cget A m0 c))
    (fun b => for_ ka 0 (body b)) kb 0 m0) as (m' & E & H1 & H2).
  - split; [intros b a Hi; lia | reflexivity].
  - intros j m _ Hj (I1 & I2). cbn [Nat.add] in Hj.
    destruct (copy_loop N ka (p j) T (body j)) with (m0 := m) as (m1 & E1 & G1 & O1).
    + intros a Ha. now apply Hb.
    + intros a a' Ha Ha' Q. now apply (Hp j a j a').
    + intros a m1 Ha. now apply Hbody.
    + exists m1. split; [exact E1|]. split.
      * intros b a Hbj Ha. destruct (Nat.eq_dec b j) as [->|Hne]; [now apply G1|].
        rewrite O1; [apply I1; lia|]. intros a' Ha' Q. apply Hne. now apply (Hp b a j a'); try lia.
      * intros c Hc. rewrite O1; [apply I2; intros b a Hb' Ha; apply Hc; lia|]. intros a Ha. apply Hc; lia.
  - exists m'. cbn [Nat.add] in *. auto.
Qed.
End any.
