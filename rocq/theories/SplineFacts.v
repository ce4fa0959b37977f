(** Splines: exact arithmetic. *)
From Coq Require Import QArith ZArith Reals Qreals List Bool Arith Lra Lia Psatz.
From Verif Require Import Arith SplineModel SplineSpec SplineProofs SplineFill.
Import ListNotations.
Local Open Scope R_scope.

Lemma Qr0 : Q2R 0 = 0. Proof. unfold Q2R. simpl. lra. Qed.
Lemma Qr2 : Q2R 2 = 2. Proof. unfold Q2R. simpl. lra. Qed.
Lemma Qr3 : Q2R 3 = 3. Proof. unfold Q2R. simpl. lra. Qed.
Lemma Qr6 : Q2R 6 = 6. Proof. unfold Q2R. simpl. lra. Qed.
Lemma Qrh : Q2R (1#2) = 1/2. Proof. unfold Q2R. simpl. lra. Qed.

Ltac fieldR := match goal with |- @eq _ ?a ?b => change (@eq R a b) end; first [field | symmetry; field].

Section facts.
Context {big eps : R}.
Notation A := (R_arith big eps).
Notation mem := (mem A).

Lemma nt_pt (l : list R) i : @nt A l i = pt l i.
Proof. unfold nt, pt. change (@fq A 0) with (Q2R 0). now rewrite Qr0. Qed.

(** ** The tridiagonal solver *)
Section tri.
Context (n1 : nat) (D U L V : nat -> R).
Notation n := (S n1).
Notation pd := (@pd A D U L).
Notation pv := (@pv A D U L V).
Notation sol := (@sol A n1 D U L V).

Lemma pd_S i : pd (S i) = D (S i) + U i * (- L i / pd i). Proof. reflexivity. Qed.
Lemma pv_S i : pv (S i) = V (S i) + pv i * (- L i / pd i). Proof. reflexivity. Qed.
Lemma sol_last : sol n1 = pv n1 / pd n1.
Proof. unfold SplineProofs.sol. rewrite Nat.sub_diag. reflexivity. Qed.
Lemma sol_step i : (i < n1)%nat -> sol i = (pv i - sol (S i) * U i) / pd i.
Proof.
  intros H. unfold SplineProofs.sol. replace (n1 - i)%nat with (S (n1 - S i)) by lia. cbn [bx].
  replace (n1 - S (n1 - S i))%nat with i by lia. reflexivity.
Qed.

Lemma tri_solves : (forall i, (i < n)%nat -> pd i <> 0) -> solves n D U L V sol.
Proof.
  intros Hp.
  assert (Hr : forall i, (i < n)%nat -> pd i * sol i + (if Nat.eqb (S i) n then 0 else U i * sol (S i)) = pv i).
  { intros i Hi. pose proof (Hp i Hi) as Hn. destruct (Nat.eqb_spec (S i) n) as [E|E].
    - assert (i = n1) as -> by lia. rewrite sol_last. field. exact Hn.
    - rewrite sol_step by lia. field. exact Hn. }
  intros [|j] Hi.
  - pose proof (Hr 0%nat Hi) as R0. change (pd 0) with (D 0%nat) in R0. change (pv 0) with (V 0%nat) in R0. rewrite <- R0. ring.
  - pose proof (Hr _ Hi) as R1. pose proof (Hr j ltac:(lia)) as R0. pose proof (Hp j ltac:(lia)) as Hn.
    assert (E : Nat.eqb (S j) n = false) by (apply Nat.eqb_neq; lia). rewrite E in R0.
    rewrite pd_S, pv_S in R1.
    assert (Es : @eq R (sol j) ((pv j - U j * sol (S j)) / pd j)) by (rewrite <- R0; fieldR; exact Hn).
    rewrite Es. apply (Rplus_eq_reg_r (pv j * (- L j / pd j))). rewrite <- R1. fieldR. exact Hn.
Qed.
End tri.

Lemma eps_nonzero : 0 < eps -> forall x : R, @flt A (@fabs A x) (@fepsv A) = false -> x <> 0.
Proof. intros He x H E. cbn in H. apply Rltb_false in H. rewrite E, Rabs_R0 in H. lra. Qed.

Lemma tridiagonal_solves :
  forall size d ud ld vec s n (D U L V : nat -> R) (m : mem), 0 < eps -> (0 < n)%nat ->
  (d + n <= size)%nat -> (ud + (n - 1) <= size)%nat -> (ld + (n - 1) <= size)%nat -> (vec + n <= size)%nat -> (s + n <= size)%nat ->
  disjoint d n ud (n - 1) -> disjoint d n ld (n - 1) -> disjoint d n vec n -> disjoint d n s n ->
  disjoint ud (n - 1) ld (n - 1) -> disjoint ud (n - 1) vec n -> disjoint ud (n - 1) s n ->
  disjoint ld (n - 1) vec n -> disjoint vec n s n ->
  holds_array m d n D -> holds_array m ud (n - 1) U -> holds_array m ld (n - 1) L -> holds_array m vec n V ->
  exists m' ok, tridiagonal A size d ud ld vec s n m = Some (m', ok) /\
    (ok = true -> exists x, holds_array m' s n x /\ solves n D U L V x).
Proof.
  intros size d ud ld vec s n D U L V m He Hn B1 B2 B3 B4 B5 S1 S2 S3 S4 S5 S6 S7 S8 S9 Hd Hu Hl Hv.
  destruct n as [|n1]; [lia|]. replace (S n1 - 1)%nat with n1 in * by lia.
  destruct (@tridiagonal_spec A size d ud ld vec s n1 D U L V B1 B2 B3 B4 B5 S1 S2 S3 S4 S5 S6 S7 S8 S9 m Hd Hv Hu Hl) as (m' & ok & E & H1 & H2).
  exists m', ok. split; [exact E|]. intros Ok. exists (@sol A n1 D U L V). split; [now apply H2|].
  apply tri_solves. intros i Hi. apply eps_nonzero; [exact He|]. now apply (proj1 H1 Ok).
Qed.

(** ** Pieces from second derivatives *)
Section pieces.
Context (S' : nat -> R) (Y : list R).
Definition mk (h : R) (i : nat) : cubic :=
  mkCubic (@c0_of A S' h i) (@c1_of A S' i) (@c2_of A Y S' h i) (pt Y i).
Definition q_of (h : R) (i : nat) : R := (pt Y (i + 1) - pt Y i) / h.

Ltac un := unfold value, slope, bend, mk; cbn [ca cb ce cf]; unfold c0_of, c1_of, c2_of; rewrite ?nt_pt;
  cbn -[Q2R INR pow]; rewrite ?Qr2, ?Qr6.

Lemma mk_interp h i : h <> 0 -> interpolates (mk h i) h (pt Y i) (pt Y (i + 1)).
Proof. intros Hh. split; un; field; exact Hh. Qed.
Lemma mk_bend0 h i : bend (mk h i) 0 = S' i.
Proof. un. rewrite Rmult_0_r. field. Qed.
Lemma mk_bendh h i : h <> 0 -> bend (mk h i) h = S' (i + 1)%nat.
Proof. intros Hh. un. field. exact Hh. Qed.
Lemma mk_slope0 h i : h <> 0 -> slope (mk h i) 0 = q_of h i - h * (S' i / 3 + S' (i + 1)%nat / 6).
Proof. intros Hh. unfold q_of. un. field. exact Hh. Qed.
Lemma mk_slopeh h i : h <> 0 -> slope (mk h i) h = q_of h i + h * (S' i / 6 + S' (i + 1)%nat / 3).
Proof. intros Hh. unfold q_of. un. field. exact Hh. Qed.
End pieces.

Lemma c3_of_pt (S' : nat -> R) Y hi i : @c3_of A Y S' hi i = pt Y i.
Proof. unfold c3_of. rewrite nt_pt. cbn. ring. Qed.

(** ** Slopes *)
Section slopes.
Context (n : nat) (Y : list R) (Hn : (2 <= n)%nat) (HY : (n <= length Y)%nat) (He : 0 < eps).
Notation nn := (n - 1)%nat.

(** The facts for a list of spacings [hh]; [S'] solves the spline system. *)
Section common.
Context (hh : nat -> R) (S' : nat -> R) (Hh : forall i, (i < nn)%nat -> 0 < hh i).
Context (R0 : hh 0%nat * (S' 0%nat / 3 + S' 1%nat / 6) = 0).
Context (Rn : hh (nn - 1)%nat * (S' (nn - 1)%nat / 6 + S' nn / 3) = 0).
Context (Ri : forall i, (1 <= i)%nat -> (i < nn)%nat ->
  hh (i - 1)%nat * S' (i - 1)%nat / 6 + (hh (i - 1)%nat + hh i) * S' i / 3 + hh i * S' (i + 1)%nat / 6 =
  q_of Y (hh i) i - q_of Y (hh (i - 1)%nat) (i - 1)).

Lemma all_good :
  (forall i, (i < nn)%nat -> interpolates (mk S' Y (hh i) i) (hh i) (pt Y i) (pt Y (S i))) /\
  (forall i, (S i < nn)%nat -> smooth_join (mk S' Y (hh i) i) (hh i) (mk S' Y (hh (S i)) (S i))) /\
  slope (mk S' Y (hh 0%nat) 0) 0 = (pt Y 1 - pt Y 0) / hh 0%nat /\
  slope (mk S' Y (hh (nn - 1)%nat) (nn - 1)) (hh (nn - 1)%nat) = (pt Y nn - pt Y (nn - 1)) / hh (nn - 1)%nat.
Proof.
  assert (Hz : forall i, (i < nn)%nat -> hh i <> 0) by (intros i Hi; pose proof (Hh i Hi); lra).
  split; [|split; [|split]].
  - intros i Hi. replace (S i) with (i + 1)%nat by lia. apply mk_interp. now apply Hz.
  - intros i Hi. pose proof (Hz i ltac:(lia)) as H1. pose proof (Hz (S i) Hi) as H2.
    split; [|split].
    + rewrite (proj2 (mk_interp S' Y (hh i) i H1)), (proj1 (mk_interp S' Y (hh (S i)) (S i) H2)). f_equal. lia.
    + rewrite mk_slopeh, mk_slope0 by assumption. pose proof (Ri (S i) ltac:(lia) Hi) as R1.
      replace (S i - 1)%nat with i in R1 by lia. replace (i + 1)%nat with (S i) by lia. lra.
    + rewrite mk_bendh, mk_bend0 by assumption. f_equal. lia.
  - rewrite mk_slope0 by (apply Hz; lia). unfold q_of. cbn [Nat.add]. rewrite R0. lra.
  - rewrite mk_slopeh by (apply Hz; lia). unfold q_of. replace (nn - 1 + 1)%nat with nn by lia. rewrite Rn. lra.
Qed.
End common.

Section uniform.
Context (h : R) (Hpos : 0 < h).
Notation S' := (@sol A nn (@uD A n h) (@uU A h) (@uL A n h) (@uVV A n Y h)).
Lemma uniform_rows (x : nat -> R) : solves n (@uD A n h) (@uU A h) (@uL A n h) (@uVV A n Y h) x ->
  (h * (x 0%nat / 3 + x 1%nat / 6) = 0) /\ (h * (x (nn - 1)%nat / 6 + x nn / 3) = 0) /\
  (forall i, (1 <= i)%nat -> (i < nn)%nat ->
   h * x (i - 1)%nat / 6 + (h + h) * x i / 3 + h * x (i + 1)%nat / 6 = q_of Y h i - q_of Y h (i - 1)).
Proof.
  intros Hs. split; [|split].
  - pose proof (Hs 0%nat ltac:(lia)) as RR. replace (1 =? n)%nat with false in RR by (symmetry; apply Nat.eqb_neq; lia).
    cbn beta iota in RR. unfold uD, uU, uVV, sysD, sysU, sysV in RR. cbn [Nat.eqb] in RR. cbn in RR. rewrite Qr3, Qr6 in RR. lra.
  - pose proof (Hs nn ltac:(lia)) as RR. replace (S nn) with n in RR by lia. rewrite Nat.eqb_refl in RR.
    unfold uD, uL, uVV, sysD, sysL, sysV in RR. replace (nn =? 0)%nat with false in RR by (symmetry; apply Nat.eqb_neq; lia).
    rewrite Nat.eqb_refl in RR. destruct nn as [|k] eqn:Ek; [lia|]. replace (S k - 1)%nat with k in * by lia.
    rewrite Nat.eqb_refl in RR. cbn in RR. rewrite Qr3, Qr6 in RR. lra.
  - intros i Hi1 Hi2. pose proof (Hs i ltac:(lia)) as RR. destruct i as [|j]; [lia|].
    replace (S j - 1)%nat with j by lia.
    replace (S (S j) =? n)%nat with false in RR by (symmetry; apply Nat.eqb_neq; lia).
    unfold uD, uU, uL, uVV, sysD, sysU, sysL, sysV in RR. cbn [Nat.eqb] in RR.
    replace (j =? n - 1 - 1)%nat with false in RR by (symmetry; apply Nat.eqb_neq; lia).
    destruct (n - 1)%nat as [|k] eqn:Ek; [lia|]. replace (j =? k)%nat with false in RR by (symmetry; apply Nat.eqb_neq; lia).
    unfold uV in RR. rewrite !nt_pt in RR. replace (S j - 1)%nat with j in RR by lia. cbn -[Q2R Nat.add] in RR. rewrite Qr3, Qr2, Qrh in RR.
    unfold q_of. replace (S j + 1)%nat with (S (S j)) in * by lia. replace (j + 1)%nat with (S j) by lia.
    apply (Rmult_eq_reg_l (3 / h)); [|apply Rgt_not_eq, Rdiv_lt_0_compat; lra].
    rewrite <- RR. field. lra.
Qed.

Lemma uniform_good :
  exists c ok, uniform_slopes A Y n h = Some (c, ok) /\
  (ok = true -> exists p : nat -> cubic,
    (forall i, (i < nn)%nat -> piece c nn i (p i)) /\
    (forall i, (i < nn)%nat -> interpolates (p i) h (pt Y i) (pt Y (S i))) /\
    (forall i, (S i < nn)%nat -> smooth_join (p i) h (p (S i))) /\
    slope (p 0%nat) 0 = (pt Y 1 - pt Y 0) / h /\
    slope (p (nn - 1)%nat) h = (pt Y nn - pt Y (nn - 1)) / h).
Proof.
  destruct (@uniform_slopes_spec A n Y Hn HY h) as (c & ok & E & H1 & H2). exists c, ok. split; [exact E|]. intros Ok.
  assert (Hs : solves n (@uD A n h) (@uU A h) (@uL A n h) (@uVV A n Y h) S').
  { replace n with (S nn) at 1 by lia. apply tri_solves. intros i Hi. apply eps_nonzero; [exact He|]. apply (proj1 H1 Ok). lia. }
  destruct (uniform_rows _ Hs) as (R0 & Rn & Ri). exists (mk S' Y h).
  destruct (all_good (fun _ => h) S' ltac:(auto) R0 Rn Ri) as (G1 & G2 & G3 & G4).
  split; [|auto]. intros i Hi. destruct (H2 Ok i Hi) as (C0 & C1 & C2 & C3). unfold piece, mk. cbn [ca cb ce cf].
  rewrite nt_pt in C3. auto.
Qed.
End uniform.

Section usucceeds.
Context (h : R) (He1 : eps <= 1) (Hh6 : 6 * eps <= h).
Notation gD := (@uD A n h). Notation gU := (@uU A h). Notation gL := (@uL A n h).
Lemma uniform_succeeds : exists c, uniform_slopes A Y n h = Some (c, true).
Proof.
  destruct (@uniform_slopes_spec A n Y Hn HY h) as (c & ok & E & H1 & _). exists c. rewrite E. do 2 f_equal.
  apply H1. intros i Hi. cbn. apply Rltb_false. clear H1 E c ok.
  assert (Pd0 : @pd A gD gU gL 0 = h / 3).
  { change (gD 0%nat = h / 3). unfold uD, sysD. cbn [Nat.eqb]. change (h / Q2R 3 = h / 3). now rewrite Qr3. }
  assert (EU0 : gU 0%nat = h / 6).
  { unfold uU, sysU. cbn [Nat.eqb]. change (h / Q2R 6 = h / 6). now rewrite Qr6. }
  assert (EU : forall j, (1 <= j)%nat -> gU j = 1 / 2).
  { intros [|j] Hj; [lia|]. change (Q2R (1#2) = 1 / 2). apply Qrh. }
  assert (EL : forall j, (S j < nn)%nat -> gL j = 1 / 2).
  { intros j Hj. unfold uL, sysL. destruct (Nat.eqb_spec j (n - 1 - 1)); [lia|]. change (Q2R (1#2) = 1 / 2). apply Qrh. }
  assert (ELn : gL (nn - 1)%nat = h / 6).
  { unfold uL, sysL. rewrite Nat.eqb_refl. change (h / Q2R 6 = h / 6). now rewrite Qr6. }
  assert (ED : forall j, (S j < nn)%nat -> gD (S j) = 2).
  { intros j Hj. unfold uD, sysD. destruct (Nat.eqb_spec (S j) 0); [lia|]. destruct (Nat.eqb_spec (S j) (n - 1)); [lia|]. change (Q2R 2 = 2). apply Qr2. }
  assert (EDn : gD (S (nn - 1)) = h / 3).
  { unfold uD, sysD. destruct (Nat.eqb_spec (S (nn - 1)) 0); [lia|]. destruct (Nat.eqb_spec (S (nn - 1)) (n - 1)); [|lia]. change (h / Q2R 3 = h / 3). now rewrite Qr3. }
  assert (Inner : forall j, (1 <= j)%nat -> (j < nn)%nat -> 1 <= @pd A gD gU gL j).
  { intros j Hj. destruct j as [|j]; [lia|]. clear Hj. induction j as [|j IH]; intros Hj.
    - rewrite pd_S, Pd0, EU0, ED, EL by lia. replace (h / 6 * (- (1 / 2) / (h / 3))) with (- 1 / 4) by (field; lra). lra.
    - rewrite pd_S. specialize (IH ltac:(lia)). rewrite ED, EL, EU by lia. set (p := @pd A gD gU gL (S j)) in *.
      assert (Hi2 : 0 < / p <= 1). { split; [apply Rinv_0_lt_compat; lra|]. rewrite <- Rinv_1. apply Rinv_le_contravar; lra. }
      unfold Rdiv. lra. }
  destruct (Nat.eq_dec i 0) as [->|Hi0].
  - rewrite Pd0. rewrite Rabs_pos_eq; lra.
  - destruct (Nat.eq_dec i nn) as [->|Hin].
    + assert (Lo : Rle (h / 6) (@pd A gD gU gL nn)).
      { apply (Rle_trans _ (@pd A gD gU gL (S (nn - 1)))); [|right; f_equal; lia]. rewrite pd_S, EDn, ELn.
        destruct (Nat.eq_dec (nn - 1) 0) as [Z|Z].
        - rewrite Z, Pd0, EU0. replace (h / 6 * (- (h / 6) / (h / 3))) with (- h / 12) by (field; lra). lra.
        - pose proof (Inner (nn - 1)%nat ltac:(lia) ltac:(lia)) as Hp1. rewrite EU by lia.
          set (p := @pd A gD gU gL (nn - 1)) in *.
          assert (Hi2 : 0 < / p <= 1). { split; [apply Rinv_0_lt_compat; lra|]. rewrite <- Rinv_1. apply Rinv_le_contravar; lra. }
          unfold Rdiv. nra. }
      rewrite Rabs_pos_eq; lra.
    + pose proof (Inner i ltac:(lia) ltac:(lia)). rewrite Rabs_pos_eq; lra.
Qed.
End usucceeds.

Section general.
Context (X : list R) (HX : (n <= length X)%nat) (Inc : increasing X n).
Notation gh := (@gh A X).
Notation hh := (fun i => pt X (S i) - pt X i).
Lemma gh_hh i : gh i = hh i.
Proof. unfold SplineFill.gh. rewrite !nt_pt. replace (i + 1)%nat with (S i) by lia. reflexivity. Qed.
Notation gD := (@gDD A n X). Notation gU := (@gUU A X). Notation gL := (@gLL A n X). Notation gV := (@gVV A n Y X).
Notation S' := (@sol A nn gD gU gL gV).
Lemma hh_pos i : (i < nn)%nat -> 0 < hh i.
Proof. intros Hi. pose proof (Inc i ltac:(lia)). cbn beta. lra. Qed.

Lemma general_rows (x : nat -> R) : solves n gD gU gL gV x ->
  (hh 0%nat * (x 0%nat / 3 + x 1%nat / 6) = 0) /\ (hh (nn - 1)%nat * (x (nn - 1)%nat / 6 + x nn / 3) = 0) /\
  (forall i, (1 <= i)%nat -> (i < nn)%nat ->
   hh (i - 1)%nat * x (i - 1)%nat / 6 + (hh (i - 1)%nat + hh i) * x i / 3 + hh i * x (i + 1)%nat / 6 =
   q_of Y (hh i) i - q_of Y (hh (i - 1)%nat) (i - 1)).
Proof.
  intros Hs. split; [|split].
  - pose proof (Hs 0%nat ltac:(lia)) as RR. replace (1 =? n)%nat with false in RR by (symmetry; apply Nat.eqb_neq; lia).
    cbn beta iota in RR. unfold gDD, gUU, gVV, sysD, sysU, sysV in RR. cbn [Nat.eqb] in RR. rewrite gh_hh in RR. cbn -[Q2R] in RR. rewrite Qr3, Qr6 in RR. cbn beta. lra.
  - pose proof (Hs nn ltac:(lia)) as RR. replace (S nn) with n in RR by lia. rewrite Nat.eqb_refl in RR.
    unfold gDD, gLL, gVV, sysD, sysL, sysV in RR. replace (nn =? 0)%nat with false in RR by (symmetry; apply Nat.eqb_neq; lia).
    rewrite Nat.eqb_refl in RR. rewrite gh_hh in RR. destruct nn as [|k] eqn:Ek; [lia|]. replace (S k - 1)%nat with k in * by lia.
    rewrite Nat.eqb_refl in RR. cbn -[Q2R] in RR. rewrite Qr3, Qr6 in RR. lra.
  - intros i Hi1 Hi2. pose proof (Hs i ltac:(lia)) as RR. destruct i as [|j]; [lia|].
    replace (S j - 1)%nat with j by lia. pose proof (Inc j ltac:(lia)) as I1. pose proof (Inc (S j) ltac:(lia)) as I2.
    replace (S (S j) =? n)%nat with false in RR by (symmetry; apply Nat.eqb_neq; lia).
    unfold gDD, gUU, gLL, gVV, sysD, sysU, sysL, sysV in RR. cbn [Nat.eqb] in RR.
    replace (j =? n - 1 - 1)%nat with false in RR by (symmetry; apply Nat.eqb_neq; lia).
    destruct (n - 1)%nat as [|k] eqn:Ek; [lia|]. replace (j =? k)%nat with false in RR by (symmetry; apply Nat.eqb_neq; lia).
    unfold SplineFill.gV, SplineFill.gU, SplineFill.gL, gq, gw in RR. rewrite !gh_hh, !nt_pt in RR.
    replace (j + 1)%nat with (S j) in * by lia.
    replace (S j - 1)%nat with j in RR by lia. cbn -[Q2R Nat.add] in RR. rewrite Qr6, Qr2 in RR.
    unfold q_of. replace (S j + 1)%nat with (S (S j)) in * by lia. replace (j + 1)%nat with (S j) by lia.
    apply (Rmult_eq_reg_l (6 / (pt X (S (S j)) - pt X j))); [|apply Rgt_not_eq, Rdiv_lt_0_compat; lra].
    rewrite <- RR. field. lra.
Qed.

Lemma general_good :
  exists c ok, slopes A X Y n = Some (c, ok) /\
  (ok = true -> exists p : nat -> cubic,
    (forall i, (i < nn)%nat -> piece c nn i (p i)) /\
    (forall i, (i < nn)%nat -> interpolates (p i) (pt X (S i) - pt X i) (pt Y i) (pt Y (S i))) /\
    (forall i, (S i < nn)%nat -> smooth_join (p i) (pt X (S i) - pt X i) (p (S i))) /\
    slope (p 0%nat) 0 = (pt Y 1 - pt Y 0) / (pt X 1 - pt X 0) /\
    slope (p (nn - 1)%nat) (pt X nn - pt X (nn - 1)) = (pt Y nn - pt Y (nn - 1)) / (pt X nn - pt X (nn - 1))).
Proof.
  destruct (@slopes_spec A n Y Hn HY X HX) as (c & ok & E & H1 & H2). exists c, ok. split; [exact E|]. intros Ok.
  assert (Hs : solves n gD gU gL gV S').
  { replace n with (S nn) at 1 by lia. apply tri_solves. intros i Hi. apply eps_nonzero; [exact He|]. apply (proj1 H1 Ok). lia. }
  destruct (general_rows _ Hs) as (R0 & Rn & Ri). exists (fun i => mk S' Y (hh i) i).
  destruct (all_good hh S' hh_pos R0 Rn Ri) as (G1 & G2 & G3 & G4).
  split; [|split; [exact G1|split; [exact G2|split; [exact G3|]]]].
  - intros i Hi. pose proof (H2 Ok i Hi) as K. cbv zeta in K. rewrite gh_hh, c3_of_pt in K. exact K.
  - cbn beta in G4 |- *. replace (S (nn - 1)) with nn in G4 |- * by lia. exact G4.
Qed.

(** The routine succeeds when the end intervals are not tiny. *)
Lemma slopes_succeeds : eps <= 1 -> 6 * eps <= pt X 1 - pt X 0 -> 6 * eps <= pt X nn - pt X (nn - 1) ->
  exists c, slopes A X Y n = Some (c, true).
Proof.
  intros He1 Hf Hl. destruct (@slopes_spec A n Y Hn HY X HX) as (c & ok & E & H1 & _). exists c. rewrite E. do 2 f_equal.
  apply H1. intros i Hi. cbn. apply Rltb_false. clear H1 E c ok.
  assert (Pd0 : @pd A gD gU gL 0 = hh 0%nat / 3).
  { change (gD 0%nat = hh 0%nat / 3). unfold gDD, sysD. cbn [Nat.eqb]. rewrite gh_hh. change (hh 0%nat / Q2R 3 = hh 0%nat / 3). rewrite Qr3. reflexivity. }
  assert (Lb : forall j, (S j < nn)%nat -> 0 <= gL j <= 1).
  { intros j Hj. unfold gLL, sysL. replace (j =? nn - 1)%nat with false by (symmetry; apply Nat.eqb_neq; lia).
    unfold SplineFill.gL, gw. rewrite !nt_pt. replace (j + 1 - 1)%nat with j by lia. replace (j + 1 + 1)%nat with (S (S j)) by lia.
    replace (j + 1)%nat with (S j) by lia.
    pose proof (Inc j ltac:(lia)). pose proof (Inc (S j) ltac:(lia)). cbn. split.
    - apply Rmult_le_pos; [lra|]. left. apply Rinv_0_lt_compat. lra.
    - apply (Rmult_le_reg_r (pt X (S (S j)) - pt X j)); [lra|]. unfold Rdiv. rewrite Rmult_assoc, Rinv_l by lra. lra. }
  assert (Ub : forall j, (1 <= j)%nat -> (j < nn)%nat -> 0 <= gU j <= 1).
  { intros j Hj1 Hj2. unfold gUU, sysU. replace (j =? 0)%nat with false by (symmetry; apply Nat.eqb_neq; lia).
    unfold SplineFill.gU, gw. rewrite gh_hh, !nt_pt. destruct j as [|j]; [lia|]. replace (S j - 1)%nat with j by lia. replace (S j + 1)%nat with (S (S j)) by lia.
    pose proof (Inc j ltac:(lia)). pose proof (Inc (S j) ltac:(lia)). cbn. split.
    - apply Rmult_le_pos; [lra|]. left. apply Rinv_0_lt_compat. lra.
    - apply (Rmult_le_reg_r (pt X (S (S j)) - pt X j)); [lra|]. unfold Rdiv. rewrite Rmult_assoc, Rinv_l by lra. lra. }
  assert (Inner : forall j, (1 <= j)%nat -> (j < nn)%nat -> 1 <= @pd A gD gU gL j).
  { intros j Hj. destruct j as [|j]; [lia|]. clear Hj. induction j as [|j IH]; intros Hj.
    - rewrite pd_S, Pd0. pose proof (Lb 0%nat Hj) as L0. pose proof (hh_pos 0%nat ltac:(lia)) as Hp.
      assert (ED : gD 1%nat = 2).
      { unfold gDD, sysD. cbn [Nat.eqb]. replace (1 =? nn)%nat with false by (symmetry; apply Nat.eqb_neq; lia).
        destruct nn as [|[|k]] eqn:Ek; try lia. cbn -[Q2R]. apply Qr2. }
      assert (EU : gU 0%nat = hh 0%nat / 6).
      { unfold gUU, sysU. cbn [Nat.eqb]. rewrite gh_hh. cbn -[Q2R]. now rewrite Qr6. }
      rewrite ED, EU. set (k := hh 0%nat) in *. replace (k / 6 * (- gL 0%nat / (k / 3))) with (- gL 0%nat / 2) by (field; lra). lra.
    - rewrite pd_S. specialize (IH ltac:(lia)). pose proof (Lb (S j) Hj) as L0. pose proof (Ub (S j) ltac:(lia) ltac:(lia)) as U0.
      assert (ED : gD (S (S j)) = 2).
      { unfold gDD, sysD. destruct (Nat.eqb_spec (S (S j)) 0); [lia|]. destruct (Nat.eqb_spec (S (S j)) nn); [lia|]. cbn -[Q2R]. apply Qr2. }
      rewrite ED. set (u := gU (S j)) in *. set (l := gL (S j)) in *. set (p := @pd A gD gU gL (S j)) in *.
      assert (Hi2 : 0 < / p <= 1). { split; [apply Rinv_0_lt_compat; lra|]. rewrite <- Rinv_1. apply Rinv_le_contravar; lra. }
      unfold Rdiv. assert (0 <= u * l <= 1) by (split; [nra|]; nra). assert (u * l * / p <= 1) by nra.
      replace (u * (- l * / p)) with (- (u * l * / p)) by ring. lra. }
  destruct (Nat.eq_dec i 0) as [->|Hi0].
  - rewrite Pd0. cbn beta. rewrite Rabs_pos_eq; lra.
  - destruct (Nat.eq_dec i nn) as [->|Hin].
    + assert (Lo : Rle (hh (nn - 1)%nat / 6) (@pd A gD gU gL nn)).
      { pose proof (hh_pos (nn - 1)%nat ltac:(lia)) as Hp. set (k := hh (nn - 1)%nat) in *.
        apply (Rle_trans _ (@pd A gD gU gL (S (nn - 1)))); [|right; f_equal; lia]. rewrite pd_S.
        assert (ED : gD (S (nn - 1)) = k / 3).
        { unfold gDD, sysD. destruct (Nat.eqb_spec (S (nn - 1)) 0); [lia|]. destruct (Nat.eqb_spec (S (nn - 1)) nn); [|lia]. rewrite gh_hh. cbn -[Q2R Nat.sub]. rewrite Qr3. reflexivity. }
        assert (EL : gL (nn - 1)%nat = k / 6).
        { unfold gLL, sysL. rewrite Nat.eqb_refl, gh_hh. cbn -[Q2R Nat.sub]. rewrite Qr6. reflexivity. }
        rewrite ED, EL. destruct (Nat.eq_dec (nn - 1) 0) as [Z|Z].
        - rewrite Z, Pd0. assert (EU : gU 0%nat = hh 0%nat / 6).
          { unfold gUU, sysU. cbn [Nat.eqb]. rewrite gh_hh. cbn -[Q2R]. now rewrite Qr6. }
          rewrite EU. assert (Ek : k = hh 0%nat) by (unfold k; rewrite Z; reflexivity). rewrite <- Ek.
          replace (k / 6 * (- (k / 6) / (k / 3))) with (- k / 12) by (field; lra). lra.
        - pose proof (Inner (nn - 1)%nat ltac:(lia) ltac:(lia)) as Hp1. pose proof (Ub (nn - 1)%nat ltac:(lia) ltac:(lia)) as U0.
          set (u := gU (nn - 1)%nat) in *. set (p := @pd A gD gU gL (nn - 1)) in *.
          assert (Hi2 : 0 < / p <= 1). { split; [apply Rinv_0_lt_compat; lra|]. rewrite <- Rinv_1. apply Rinv_le_contravar; lra. }
          assert (0 <= u * / p <= 1) by (split; nra).
          unfold Rdiv. replace (u * (- (k * / 6) * / p)) with (- (u * / p * (k / 6))) by (unfold Rdiv; ring).
          assert (u * / p * (k / 6) <= k / 6) by nra. unfold Rdiv in *. lra. }
      cbn beta in Lo. replace (S (nn - 1)) with nn in Lo by lia. rewrite Rabs_pos_eq; lra.
    + pose proof (Inner i ltac:(lia) ltac:(lia)). rewrite Rabs_pos_eq; lra.
Qed.
End general.
End slopes.
End facts.
