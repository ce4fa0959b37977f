(** Splines: memory behaviour of the routines, for any arithmetic. *)
From Coq Require Import QArith ZArith List Bool Arith Lia.
From Verif Require Import Arith SplineModel SplineSpec.
Import ListNotations.
Local Open Scope nat_scope.

Lemma for_inv {S} (P : nat -> S -> Prop) body k : forall i m, P i m ->
  (forall j m, i <= j -> j < i + k -> P j m -> exists m', body j m = Some m' /\ P (Datatypes.S j) m') ->
  exists m', for_ k i body m = Some m' /\ P (i + k) m'.
Proof.
  induction k as [|k IH]; intros i m H0 Hb.
  - exists m. rewrite Nat.add_0_r. auto.
  - destruct (Hb i m (le_n _) ltac:(lia) H0) as (m1 & E1 & H1).
    destruct (IH (Datatypes.S i) m1 H1) as (m2 & E2 & H2).
    { intros j m' Hj1 Hj2 Hp. apply Hb; [lia|lia|assumption]. }
    exists m2. cbn [for_]. rewrite E1. cbn [bind]. split; [exact E2|]. now replace (i + Datatypes.S k) with (Datatypes.S i + k) by lia.
Qed.

Section gen.
Context {A : arith}.
Notation F := (F A).
Notation mem := (mem A).
Notation arr := (@holds_array A).
Notation upd := (upd A).
Implicit Types (m : mem).

Lemma upd_same m i v : upd m i v i = Some v.
Proof. unfold SplineModel.upd. now rewrite Nat.eqb_refl. Qed.
Lemma upd_other m i j v : j <> i -> upd m i v j = m j.
Proof. unfold SplineModel.upd. intros H. apply Nat.eqb_neq in H. now rewrite H. Qed.
Lemma wr_ok size m i v : i < size -> wr A size m i v = Some (upd m i v).
Proof. unfold wr. intros H. apply Nat.ltb_lt in H. now rewrite H. Qed.
Lemma incr_ok size m i x v : m i = Some x -> i < size -> incr A size m i v = Some (upd m i (fadd x v)).
Proof. unfold incr. intros E H. rewrite E. cbn [bind]. now apply wr_ok. Qed.

Lemma arr_out m off k f j v : (forall i, i < k -> off + i <> j) -> arr m off k f -> arr (upd m j v) off k f.
Proof. intros H Ha i Hi. rewrite upd_other; auto. Qed.
Lemma arr_in m off k f i v : arr m off k f -> arr (upd m (off + i) v) off k (fun j => if Nat.eqb j i then v else f j).
Proof.
  intros Ha j Hj. unfold SplineModel.upd. destruct (Nat.eqb_spec j i) as [->|Hn].
  - now rewrite Nat.eqb_refl.
  - destruct (Nat.eqb_spec (off + j) (off + i)); [lia|]. now apply Ha.
Qed.
Lemma arr_ext m off k f g : (forall i, i < k -> f i = g i) -> arr m off k f -> arr m off k g.
Proof. intros H Ha i Hi. rewrite (Ha i Hi). now rewrite H. Qed.

(** ** The tridiagonal solver *)
Section tri.
Context (size d ud ld vec s n1 : nat).
Notation n := (S n1).
Context (D U L V : nat -> F).
Context (B1 : d + n <= size) (B2 : ud + n1 <= size) (B3 : ld + n1 <= size) (B4 : vec + n <= size) (B5 : s + n <= size).
Context (S1 : disjoint d n ud n1) (S2 : disjoint d n ld n1) (S3 : disjoint d n vec n) (S4 : disjoint d n s n).
Context (S5 : disjoint ud n1 ld n1) (S6 : disjoint ud n1 vec n) (S7 : disjoint ud n1 s n).
Context (S8 : disjoint ld n1 vec n) (S9 : disjoint vec n s n).

Fixpoint pd (i : nat) : F :=
  match i with O => D 0 | S j => fadd (D i) (fmul (U j) (fdiv (fopp (L j)) (pd j))) end.
Fixpoint pv (i : nat) : F :=
  match i with O => V 0 | S j => fadd (V i) (fmul (pv j) (fdiv (fopp (L j)) (pd j))) end.
Fixpoint bx (k : nat) : F :=
  match k with
  | O => fdiv (pv n1) (pd n1)
  | S k' => fdiv (fsub (pv (n1 - k)) (fmul (bx k') (U (n1 - k)))) (pd (n1 - k))
  end.
Definition sol (i : nat) : F := bx (n1 - i).

Definition elim_inv (i : nat) (m : mem) : Prop :=
  arr m d n (fun j => if Nat.leb j i then pd j else D j) /\
  arr m vec n (fun j => if Nat.leb j i then pv j else V j) /\
  arr m ud n1 U /\
  (forall j, i <= j -> j < n1 -> m (ld + j) = Some (L j)).

Lemma elim_step i m : i < n1 -> elim_inv i m ->
  exists m', elim_body A size d ud ld vec i m = Some m' /\ elim_inv (S i) m'.
Proof.
  intros Hi (Hd & Hv & Hu & Hl). unfold elim_body.
  rewrite (Hl i) by lia. cbn [bind]. rewrite (Hd i) by lia. rewrite Nat.leb_refl. cbn [bind]. cbv zeta.
  rewrite (incr_ok _ _ _ (L i)) by (try apply Hl; lia). cbn [bind].
  set (m1 := upd m (ld + i) _).
  assert (Hd1 : arr m1 d n (fun j => if Nat.leb j i then pd j else D j)) by (apply arr_out; [intros j Hj; apply S2; lia|exact Hd]).
  assert (Hv1 : arr m1 vec n (fun j => if Nat.leb j i then pv j else V j)).
  { apply arr_out; [intros j Hj E; apply (S8 i j); lia|exact Hv]. }
  assert (Hu1 : arr m1 ud n1 U) by (apply arr_out; [intros j Hj; apply S5; lia|exact Hu]).
  rewrite (Hu1 i) by lia. cbn [bind].
  rewrite (incr_ok _ _ _ (D (i + 1))); [|rewrite Hd1 by lia; destruct (Nat.leb_spec (i + 1) i); [lia|reflexivity]|lia]. cbn [bind].
  set (m2 := upd m1 (d + (i + 1)) _).
  assert (Hv2 : arr m2 vec n (fun j => if Nat.leb j i then pv j else V j)).
  { apply arr_out; [intros j Hj E; apply (S3 (i + 1) j); lia|exact Hv1]. }
  rewrite (Hv2 i) by lia. rewrite Nat.leb_refl. cbn [bind].
  rewrite (incr_ok _ _ _ (V (i + 1))); [|rewrite Hv2 by lia; destruct (Nat.leb_spec (i + 1) i); [lia|reflexivity]|lia].
  eexists. split; [reflexivity|]. set (m3 := upd m2 (vec + (i + 1)) _).
  split; [|split; [|split]].
  - apply arr_out; [intros j Hj; apply S3; lia|]. eapply arr_ext; [|apply arr_in; exact Hd1].
    intros j Hj. cbn beta. destruct (Nat.eqb_spec j (i + 1)) as [->|Hn].
    + replace (i + 1) with (S i) by lia. rewrite Nat.leb_refl. reflexivity.
    + destruct (Nat.leb_spec j i), (Nat.leb_spec j (S i)); try lia; reflexivity.
  - eapply arr_ext; [|apply arr_in; exact Hv2].
    intros j Hj. cbn beta. destruct (Nat.eqb_spec j (i + 1)) as [->|Hn].
    + replace (i + 1) with (S i) by lia. rewrite Nat.leb_refl. reflexivity.
    + destruct (Nat.leb_spec j i), (Nat.leb_spec j (S i)); try lia; reflexivity.
  - apply arr_out; [intros j Hj; apply S6; lia|]. apply arr_out; [intros j Hj E; apply (S1 (i + 1) j); lia|]. exact Hu1.
  - intros j Hj1 Hj2. unfold m3, m2, m1. rewrite !upd_other; [apply Hl; lia| | |].
    + lia.
    + intros E. apply (S2 (i + 1) j); lia.
    + apply S8; lia.
Qed.

Lemma back_spec k : k <= n1 -> forall m,
  arr m d n pd -> arr m vec n pv -> arr m ud n1 U ->
  (forall j, k <= j -> j <= n1 -> m (s + j) = Some (sol j)) ->
  exists m' ok, back A size d ud vec s k m = Some (m', ok) /\
    (ok = true <-> forall i, i < k -> flt (fabs (pd i)) fepsv = false) /\
    (ok = true -> arr m' s n sol).
Proof.
  induction k as [|k IH]; intros Hk m Hd Hv Hu Hs.
  - exists m, true. split; [reflexivity|]. split; [split; [intros _ i Hi; lia|reflexivity]|].
    intros _ j Hj. apply Hs; lia.
  - cbn [back]. rewrite (Hd k) by lia. cbn [bind]. destruct (flt (fabs (pd k)) fepsv) eqn:Ek.
    + exists m, false. split; [reflexivity|]. split; [|discriminate]. split; [discriminate|].
      intros H. rewrite H in Ek by lia. discriminate.
    + rewrite (Hv k) by lia. cbn [bind]. rewrite (Hs (k + 1)) by lia. cbn [bind]. rewrite (Hu k) by lia. cbn [bind].
      rewrite wr_ok by lia. cbn [bind]. set (m' := upd m (s + k) _).
      destruct (IH ltac:(lia) m') as (m2 & ok & E & H1 & H2).
      * apply arr_out; [intros j Hj; apply S4; lia|exact Hd].
      * apply arr_out; [intros j Hj; apply S9; lia|exact Hv].
      * apply arr_out; [intros j Hj; apply S7; lia|exact Hu].
      * intros j Hj1 Hj2. unfold m'. destruct (Nat.eq_dec j k) as [->|Hn].
        -- rewrite upd_same. f_equal. unfold sol. replace (n1 - k) with (S (n1 - (k + 1))) by lia.
           cbn [bx]. replace (n1 - S (n1 - (k + 1))) with k by lia. reflexivity.
        -- rewrite upd_other by lia. apply Hs; lia.
      * exists m2, ok. split; [exact E|]. split; [|exact H2]. rewrite H1. split.
        -- intros H i Hi. destruct (Nat.eq_dec i k) as [->|]; [exact Ek|apply H; lia].
        -- intros H i Hi. apply H. lia.
Qed.

Lemma tridiagonal_spec m : arr m d n D -> arr m vec n V -> arr m ud n1 U -> arr m ld n1 L ->
  exists m' ok, tridiagonal A size d ud ld vec s n m = Some (m', ok) /\
    (ok = true <-> forall i, i < n -> flt (fabs (pd i)) fepsv = false) /\
    (ok = true -> arr m' s n sol).
Proof.
  intros Hd Hv Hu Hl. unfold tridiagonal.
  destruct (for_inv elim_inv (elim_body A size d ud ld vec) n1 0 m) as (m1 & E1 & (Jd & Jv & Ju & _)).
  - split; [|split; [|split]].
    + eapply arr_ext; [|exact Hd]. intros [|j] Hj; reflexivity.
    + eapply arr_ext; [|exact Hv]. intros [|j] Hj; reflexivity.
    + exact Hu.
    + intros j _ Hj. now apply Hl.
  - intros j m' _ Hj. apply elim_step. lia.
  - rewrite E1. cbn [bind]. cbn [Nat.add] in Jd, Jv, Ju.
    assert (Kd : arr m1 d n pd).
    { eapply arr_ext; [|exact Jd]. intros j Hj. cbn beta. destruct (Nat.leb_spec j n1); [reflexivity|lia]. }
    assert (Kv : arr m1 vec n pv).
    { eapply arr_ext; [|exact Jv]. intros j Hj. cbn beta. destruct (Nat.leb_spec j n1); [reflexivity|lia]. }
    rewrite (Kd n1) by lia. cbn [bind]. destruct (flt (fabs (pd n1)) fepsv) eqn:En.
    + exists m1, false. split; [reflexivity|]. split; [|discriminate]. split; [discriminate|].
      intros H. rewrite H in En by lia. discriminate.
    + rewrite (Kv n1) by lia. cbn [bind]. rewrite wr_ok by lia. cbn [bind]. set (m2 := upd m1 (s + n1) _).
      destruct (back_spec n1 (le_n _) m2) as (m3 & ok & E & H1 & H2).
      * apply arr_out; [intros j Hj; apply S4; lia|exact Kd].
      * apply arr_out; [intros j Hj; apply S9; lia|exact Kv].
      * apply arr_out; [intros j Hj; apply S7; lia|exact Ju].
      * intros j Hj1 Hj2. replace j with n1 by lia. unfold m2. rewrite upd_same. unfold sol. now rewrite Nat.sub_diag.
      * exists m3, ok. split; [exact E|]. split; [|exact H2]. rewrite H1. split.
        -- intros H i Hi. destruct (Nat.eq_dec i n1) as [->|]; [exact En|apply H; lia].
        -- intros H i Hi. apply H. lia.
Qed.
End tri.
End gen.
