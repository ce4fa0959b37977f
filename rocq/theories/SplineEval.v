(** Splines: periodic routines, evaluation and derivatives in exact arithmetic. *)
From Coq Require Import QArith ZArith Reals Qreals List Bool Arith Lra Lia Psatz.
From Verif Require Import Arith SplineModel SplineSpec SplineProofs SplineFill SplineFacts SplinePeriodic.
Import ListNotations.
Local Open Scope R_scope.

Section facts.
Context {big eps : R}.
Notation A := (R_arith big eps).
Notation mem := (mem A).

Lemma gh_hh_ (X : list R) i : @gh A X i = pt X (S i) - pt X i.
Proof. unfold gh. rewrite !nt_pt. replace (i + 1)%nat with (S i) by lia. reflexivity. Qed.

Lemma at_pt (l : list R) i : (i < length l)%nat -> at_ A l i = Some (pt l i).
Proof. intros H. rewrite <- (@nt_pt big eps). now apply (@at_nt A). Qed.

(** ** Periodic routines *)
Section periodic.
Context (n : nat) (Y : list R) (Hn : (4 <= n)%nat) (HY : (n <= length Y)%nat).
Notation nn := (n - 1)%nat.

Lemma closed_pieces (hh : nat -> R) (S' : nat -> R) : (forall i, (i < nn)%nat -> 0 < hh i) -> S' 0%nat = S' nn ->
  let p := fun i => mk (big := big) (eps := eps) S' Y (hh i) i in
  (forall i, (i < nn)%nat -> interpolates (p i) (hh i) (pt Y i) (pt Y (S i))) /\
  (forall i, (S i < nn)%nat -> bend (p i) (hh i) = bend (p (S i)) 0) /\
  bend (p (nn - 1)%nat) (hh (nn - 1)%nat) = bend (p 0%nat) 0.
Proof.
  intros Hh E p. assert (Hz : forall i, (i < nn)%nat -> hh i <> 0) by (intros i Hi; pose proof (Hh i Hi); lra).
  split; [|split].
  - intros i Hi. replace (S i) with (i + 1)%nat by lia. apply mk_interp. now apply Hz.
  - intros i Hi. unfold p. rewrite mk_bendh by (apply Hz; lia). rewrite mk_bend0. f_equal. lia.
  - unfold p. rewrite mk_bendh by (apply Hz; lia). rewrite mk_bend0. rewrite E. f_equal. lia.
Qed.

Lemma uniform_periodic_good h : 0 < h ->
  exists c ok, uniform_periodic A Y n h = Some (c, ok) /\
  (ok = true -> exists p : nat -> cubic,
    (forall i, (i < nn)%nat -> piece c nn i (p i)) /\
    (forall i, (i < nn)%nat -> interpolates (p i) h (pt Y i) (pt Y (S i))) /\
    (forall i, (S i < nn)%nat -> bend (p i) h = bend (p (S i)) 0) /\
    bend (p (nn - 1)%nat) h = bend (p 0%nat) 0).
Proof.
  intros Hh. destruct (@uniform_periodic_spec A n Y Hn HY h) as (c & ok & E & K). exists c, ok. split; [exact E|].
  intros Ok. destruct (K Ok) as (S' & ES & HS). exists (fun i => mk (big := big) (eps := eps) S' Y h i).
  split; [|apply (closed_pieces (fun _ => h) S'); auto].
  intros i Hi. destruct (HS i Hi) as (C0 & C1 & C2 & C3). unfold piece, mk. cbn [ca cb ce cf]. rewrite nt_pt in C3. auto.
Qed.

Lemma general_periodic_good X : (n <= length X)%nat -> increasing X n ->
  exists c ok, general_periodic A X Y n = Some (c, ok) /\
  (ok = true -> exists p : nat -> cubic,
    (forall i, (i < nn)%nat -> piece c nn i (p i)) /\
    (forall i, (i < nn)%nat -> interpolates (p i) (pt X (S i) - pt X i) (pt Y i) (pt Y (S i))) /\
    (forall i, (S i < nn)%nat -> bend (p i) (pt X (S i) - pt X i) = bend (p (S i)) 0) /\
    bend (p (nn - 1)%nat) (pt X nn - pt X (nn - 1)) = bend (p 0%nat) 0).
Proof.
  intros HX Inc. destruct (@general_periodic_spec A n Y Hn HY X HX) as (c & ok & E & K). exists c, ok. split; [exact E|].
  intros Ok. destruct (K Ok) as (S' & ES & HS). set (hh := fun i => pt X (S i) - pt X i).
  exists (fun i => mk (big := big) (eps := eps) S' Y (hh i) i).
  destruct (closed_pieces hh S') as (G1 & G2 & G3).
  { intros i Hi. pose proof (Inc i ltac:(lia)). unfold hh. lra. }
  { exact ES. }
  split; [|split; [exact G1|split; [exact G2|]]].
  - intros i Hi. pose proof (HS i Hi) as K1. cbv zeta in K1. rewrite gh_hh_, c3_of_pt in K1. exact K1.
  - unfold hh in G3 at 2. replace (S (nn - 1)) with nn in G3 by lia. exact G3.
Qed.
End periodic.

(** ** The cyclic solver *)
Section cyc.
Context (n2 : nat) (H1 : (1 <= n2)%nat) (D U L V : nat -> R).
Notation nn := (S (S n2)).
Notation qd := (@qd A D U L). Notation qv := (@qv A D U L V). Notation qc := (@qc A D U L).
Notation qt := (@qt A n2 D U L). Notation qdn := (@qdn A n2 D U L). Notation qvn := (@qvn A n2 D U L V).
Notation ue := (@ue A n2 D U L). Notation le := (@le A n2 D U L). Notation df := (@df A n2 D U L). Notation vf := (@vf A n2 D U L V).
Notation xn := (@xn A n2 D U L V). Notation cs := (@cs A n2 D U L V). Notation x := (@csol A n2 D U L V).

Lemma qd_S j : qd (S j) = D (S j) + U j * (- L (S j) / qd j). Proof. reflexivity. Qed.
Lemma qv_S j : qv (S j) = V (S j) + qv j * (- L (S j) / qd j). Proof. reflexivity. Qed.
Lemma qc_S j : qc (S j) = qc j * (- L (S j) / qd j). Proof. reflexivity. Qed.
Lemma qt_S j : qt (S j) = U j * (- qt j / qd j). Proof. reflexivity. Qed.
Lemma qdn_S j : qdn (S j) = qdn j + qc j * (- qt j / qd j). Proof. reflexivity. Qed.
Lemma qvn_S j : qvn (S j) = qvn j + qv j * (- qt j / qd j). Proof. reflexivity. Qed.
Lemma ue_eq : ue = U n2 + qc n2.
Proof. unfold SplinePeriodic.ue. destruct n2 as [|k]; [lia|]. replace (S k - 1)%nat with k by lia. reflexivity. Qed.
Lemma le_eq : le = L (S n2) + qt n2.
Proof. unfold SplinePeriodic.le. destruct n2 as [|k]; [lia|]. replace (S k - 1)%nat with k by lia. reflexivity. Qed.
Lemma df_eq : df = qdn n2 + ue * (- le / qd n2). Proof. reflexivity. Qed.
Lemma vf_eq : vf = qvn n2 + qv n2 * (- le / qd n2). Proof. reflexivity. Qed.
Lemma xn_eq : xn = vf / df. Proof. reflexivity. Qed.
Lemma x_0 : x 0%nat = xn. Proof. reflexivity. Qed.
Lemma x_nn : x nn = xn. Proof. unfold csol. rewrite Nat.eqb_refl. reflexivity. Qed.
Lemma x_last : x (S n2) = (qv n2 - xn * ue) / qd n2.
Proof. unfold csol. cbn [Nat.eqb]. rewrite (proj2 (Nat.eqb_neq n2 (S n2))) by lia. rewrite Nat.sub_diag. reflexivity. Qed.
Lemma x_mid i : (i < n2)%nat -> x (S i) = (qv i - xn * qc i - x (S (S i)) * U i) / qd i.
Proof.
  intros Hi. unfold csol. cbn [Nat.eqb]. rewrite (proj2 (Nat.eqb_neq i (S n2))), (proj2 (Nat.eqb_neq i n2)) by lia.
  replace (S n2 - S i)%nat with (S (n2 - S i)) by lia. replace (S n2 - S (S i))%nat with (n2 - S i)%nat by lia.
  cbn [SplinePeriodic.cs]. replace (n2 - S (n2 - S i))%nat with i by lia. reflexivity.
Qed.

Lemma cyc_solves : (forall i, (i <= n2)%nat -> qd i <> 0) -> df <> 0 -> solves_cyclic nn D U L V x.
Proof.
  intros Hq Hdf.
  assert (E : forall i, (i <= n2)%nat -> qd i * x (S i) + U i * x (S (S i)) + qc i * xn = qv i).
  { intros i Hi. pose proof (Hq i Hi) as Hz. destruct (Nat.eq_dec i n2) as [->|Hn].
    - rewrite x_last, x_nn, ue_eq. fieldR. exact Hz.
    - rewrite (x_mid i) by lia. fieldR. exact Hz. }
  assert (G : forall k, (k <= n2)%nat -> qt (n2 - k) * x (S (n2 - k)) + L (S n2) * x (S n2) + qdn (n2 - k) * xn = qvn (n2 - k)).
  { induction k as [|k IH]; intros Hk.
    - rewrite Nat.sub_0_r. pose proof (E n2 (le_n _)) as E2. rewrite x_nn in E2.
      assert (Ex : df * xn = vf) by (rewrite xn_eq; fieldR; exact Hdf). rewrite df_eq, vf_eq, ue_eq, le_eq in Ex.
      assert (Hz : qd n2 <> 0) by (apply Hq; lia).
      assert (Es : @eq R (qv n2) (qd n2 * x (S n2) + (U n2 + qc n2) * xn)) by (rewrite <- E2; fieldR).
      rewrite Es in Ex. apply (Rplus_eq_reg_r ((qd n2 * x (S n2) + (U n2 + qc n2) * xn) * (- (L (S n2) + qt n2) / qd n2))).
      rewrite <- Ex. fieldR. exact Hz.
    - specialize (IH ltac:(lia)). replace (n2 - k)%nat with (S (n2 - S k)) in IH by lia. set (i := (n2 - S k)%nat) in *.
      pose proof (E i ltac:(lia)) as Ei. assert (Hz : qd i <> 0) by (apply Hq; lia).
      rewrite qt_S, qdn_S, qvn_S in IH.
      assert (Es : @eq R (qv i) (qd i * x (S i) + U i * x (S (S i)) + qc i * xn)) by (rewrite <- Ei; reflexivity).
      rewrite Es in IH. apply (Rplus_eq_reg_r ((qd i * x (S i) + U i * x (S (S i)) + qc i * xn) * (- qt i / qd i))).
      rewrite <- IH. fieldR. exact Hz. }
  split; [now rewrite x_0, x_nn|]. intros [|j] Hi.
  - cbn [Nat.eqb]. pose proof (E 0%nat ltac:(lia)) as E0. rewrite x_0. change (qd 0) with (D 0%nat) in E0. change (qc 0) with (L 0%nat) in E0.
    change (qv 0) with (V 0%nat) in E0. rewrite <- E0. fieldR.
  - destruct (Nat.eqb_spec (S (S j)) nn) as [Ej|Ej].
    + assert (j = n2) as -> by lia. rewrite x_nn. pose proof (G n2 (le_n _)) as G0. rewrite Nat.sub_diag in G0.
      change (qt 0) with (U (S n2)) in G0. change (qdn 0) with (D (S n2)) in G0. change (qvn 0) with (V (S n2)) in G0. rewrite <- G0. fieldR.
    + pose proof (E (S j) ltac:(lia)) as E1. pose proof (E j ltac:(lia)) as E0. assert (Hz : qd j <> 0) by (apply Hq; lia).
      rewrite qd_S, qv_S, qc_S in E1.
      assert (Es : @eq R (qv j) (qd j * x (S j) + U j * x (S (S j)) + qc j * xn)) by (rewrite <- E0; reflexivity).
      rewrite Es in E1. apply (Rplus_eq_reg_r ((qd j * x (S j) + U j * x (S (S j)) + qc j * xn) * (- L (S j) / qd j))).
      rewrite <- E1. fieldR. exact Hz.
Qed.
End cyc.

Lemma periodic_solves :
  forall size d ud ld vec s nn (D U L V : nat -> R) (m : mem), 0 < eps -> (3 <= nn)%nat ->
  (d + nn <= size)%nat -> (ud + nn <= size)%nat -> (ld + nn <= size)%nat -> (vec + nn <= size)%nat -> (s + S nn <= size)%nat ->
  disjoint d nn ud nn -> disjoint d nn ld nn -> disjoint d nn vec nn -> disjoint d nn s (S nn) ->
  disjoint ud nn ld nn -> disjoint ud nn vec nn -> disjoint ud nn s (S nn) ->
  disjoint ld nn vec nn -> disjoint vec nn s (S nn) ->
  holds_array m d nn D -> holds_array m ud nn U -> holds_array m ld nn L -> holds_array m vec nn V ->
  exists m' ok, periodic A size d ud ld vec s nn m = Some (m', ok) /\
    (ok = true -> m' (d + (nn - 2))%nat <> Some 0 -> exists x, holds_array m' s (S nn) x /\ solves_cyclic nn D U L V x).
Proof.
  intros size d ud ld vec s nn D U L V m He Hn B1 B2 B3 B4 B5 S1 S2 S3 S4 S5 S6 S7 S8 S9 Hd Hu Hl Hv.
  destruct nn as [|[|n2]]; [lia|lia|].
  destruct (@periodic_spec A size d ud ld vec s n2 ltac:(lia) D U L V B1 B2 B3 B4 B5 S1 S2 S3 S4 S5 S6 S7 S8 S9 m Hd Hv Hu Hl) as (m' & ok & E & K1 & K2).
  exists m', ok. split; [exact E|]. intros Ok Hp. destruct (K2 Ok) as (Hx & Hd2). exists (@csol A n2 D U L V). split; [exact Hx|].
  destruct (proj1 K1 Ok) as (P1 & P2). apply cyc_solves; [lia| |].
  - intros i Hi. destruct (Nat.eq_dec i n2) as [->|].
    + intros Z. apply Hp. replace (S (S n2) - 2)%nat with n2 by lia. rewrite Hd2. f_equal. exact Z.
    + apply (@eps_nonzero big eps He). apply P2. lia.
  - apply (@eps_nonzero big eps He). exact P1.
Qed.

(** ** Evaluation *)
Lemma scan_spec (b0 t : R) (l : list R) : forall i, (i <= scan A l b0 t i <= i + length l)%nat /\
  (forall j, (j < scan A l b0 t i - i)%nat -> t - (nth j l 0 - b0) >= - eps) /\
  ((scan A l b0 t i - i < length l)%nat -> t - (nth (scan A l b0 t i - i) l 0 - b0) < - eps).
Proof.
  induction l as [|b l IH]; intros i.
  - cbn [scan length]. split; [lia|]. split; intros; [lia|lia].
  - cbn [scan]. destruct (fle _ _) eqn:E.
    + destruct (IH (S i)) as (I1 & I2 & I3). cbn [length]. set (r := scan A l b0 t (S i)) in *. clearbody r.
      split; [lia|]. cbn in E. apply Rleb_true in E. split.
      * intros [|j] Hj; [cbn; lra|]. cbn [nth]. apply I2. lia.
      * intros Hr. replace (r - i)%nat with (S (r - S i)) by lia. cbn [nth]. apply I3. lia.
    + cbn [length]. split; [lia|]. split; [intros; lia|]. intros _. rewrite Nat.sub_diag. cbn in *. apply Rleb_false in E. lra.
Qed.

Lemma index_spec (breaks : list R) (N : nat) (t : R) : (2 <= N)%nat -> (N <= length breaks)%nat -> increasing breaks N ->
  let i := piece_index A breaks N (pt breaks 0) t in
  (i < N - 1)%nat /\
  (i = 0%nat \/ pt breaks i - pt breaks 0 - eps <= t) /\
  (i = (N - 2)%nat \/ t < pt breaks (S i) - pt breaks 0 - eps).
Proof.
  intros HN Hl Inc i. unfold i, piece_index.
  destruct (scan_spec (pt breaks 0) t (firstn N breaks) 0) as (I1 & I2 & I3).
  assert (El : length (firstn N breaks) = N) by (rewrite firstn_length; lia). rewrite El in I1, I3.
  set (r := scan A (firstn N breaks) (pt breaks 0) t 0) in *.
  change (scan A (@firstn (F A) N breaks) (pt breaks 0) t 0) with r. clearbody r.
  assert (En : forall j, (j < N)%nat -> nth j (firstn N breaks) 0 = pt breaks j).
  { intros j Hj. unfold pt. rewrite <- (firstn_skipn N breaks) at 2. rewrite app_nth1 by lia. reflexivity. }
  rewrite Nat.sub_0_r in I2, I3. split; [lia|]. split.
  - destruct (Nat.eq_dec r 0) as [Z|Z]; [left; lia|]. right. pose proof (I2 (Nat.min (r - 1) (N - 2)) ltac:(lia)) as K. rewrite En in K by lia. lra.
  - destruct (Nat.le_gt_cases (N - 2) (r - 1)) as [|Hr]; [left; lia|]. right. rewrite Nat.min_l by lia.
    destruct (Nat.eq_dec r 0) as [Z|Z].
    + pose proof (I3 ltac:(lia)) as K. rewrite Z in *. rewrite En in K by lia.
      cbn [Nat.sub]. pose proof (Inc 0%nat ltac:(lia)). lra.
    + replace (S (r - 1)) with r by lia. pose proof (I3 ltac:(lia)) as K. rewrite En in K by lia. lra.
Qed.

Lemma horner a b c d u : @eq R (fadd (a := A) (fmul (a := A) (fadd (a := A) (fmul (a := A) (fadd (a := A) (fmul (a := A) a u) b) u) c) u) d) (value (mkCubic a b c d) u).
Proof. unfold value. cbn. ring. Qed.

Section eval.
Context (coefs : mem) (N : nat) (p : nat -> cubic) (HN : (2 <= N)%nat).
Context (Hp : forall i, (i < N - 1)%nat -> piece coefs (N - 1) i (p i)).

Section breaks.
Context (breaks : list R) (Hb : (N <= length breaks)%nat).

Lemma val_at t : let i := piece_index A breaks N (pt breaks 0) t in
  (i < N - 1)%nat -> val_spline A coefs breaks N t = Some (value (p i) (t - pt breaks i)).
Proof.
  intros i Hi. unfold val_spline. cbv zeta. rewrite (at_pt breaks 0) by lia. cbn [bind]. fold i.
  rewrite (at_pt breaks i) by lia. cbn [bind].
  destruct (Hp i Hi) as (C0 & C1 & C2 & C3). rewrite C0. cbn [bind]. rewrite C1. cbn [bind]. rewrite C2. cbn [bind]. rewrite C3. cbn [bind].
  f_equal. unfold value. cbn. ring.
Qed.

Lemma eval_spec t : increasing breaks N -> pt breaks 0 = 0 ->
  exists i, (i < N - 1)%nat /\ (i = 0%nat \/ pt breaks i - eps <= t) /\ (i = (N - 2)%nat \/ t < pt breaks (S i) - eps) /\
  val_spline A coefs breaks N t = Some (value (p i) (t - pt breaks i)).
Proof.
  intros Inc Z. destruct (index_spec breaks N t HN Hb Inc) as (I1 & I2 & I3). exists (piece_index A breaks N (pt breaks 0) t).
  split; [exact I1|]. rewrite Z in I2, I3 |- *. split; [destruct I2; [left; assumption|right; lra]|]. split; [destruct I3; [left; assumption|right; lra]|].
  rewrite <- Z. apply val_at. rewrite Z. rewrite Z in I1. exact I1.
Qed.

(** The derivative arrays. *)
Definition dpieces (c1 : mem) : Prop := forall i, (i < N - 1)%nat ->
  c1 (0 * (N - 1) + i)%nat = Some (3 * ca (p i)) /\ c1 (1 * (N - 1) + i)%nat = Some (2 * cb (p i)) /\ c1 (2 * (N - 1) + i)%nat = Some (ce (p i)).
Definition ddpieces (c2 : mem) : Prop := forall i, (i < N - 1)%nat ->
  c2 (0 * (N - 1) + i)%nat = Some (6 * ca (p i)) /\ c2 (1 * (N - 1) + i)%nat = Some (2 * cb (p i)).

Lemma first_at c1 t : dpieces c1 -> let i := piece_index A breaks N (pt breaks 0) t in
  (i < N - 1)%nat -> val_first A c1 breaks N t = Some (slope (p i) (t - pt breaks i)).
Proof.
  intros H1 i Hi. unfold val_first. cbv zeta. rewrite (at_pt breaks 0) by lia. cbn [bind]. fold i.
  rewrite (at_pt breaks i) by lia. cbn [bind].
  destruct (H1 i Hi) as (C0 & C1 & C2). rewrite C0. cbn [bind]. rewrite C1. cbn [bind]. rewrite C2. cbn [bind].
  f_equal. unfold slope. cbn. ring.
Qed.
Lemma second_at c2 t : ddpieces c2 -> let i := piece_index A breaks N (pt breaks 0) t in
  (i < N - 1)%nat -> val_second A c2 breaks N t = Some (bend (p i) (t - pt breaks i)).
Proof.
  intros H1 i Hi. unfold val_second. cbv zeta. rewrite (at_pt breaks 0) by lia. cbn [bind]. fold i.
  rewrite (at_pt breaks i) by lia. cbn [bind].
  destruct (H1 i Hi) as (C0 & C1). rewrite C0. cbn [bind]. rewrite C1. cbn [bind].
  reflexivity.
Qed.
End breaks.

Lemma first_deri_spec : exists c1, first_deri A coefs N = Some c1 /\ dpieces c1.
Proof.
  destruct (for_inv (fun k c => forall i, (i < k)%nat -> c (0 * (N - 1) + i)%nat = Some (3 * ca (p i)) /\ c (1 * (N - 1) + i)%nat = Some (2 * cb (p i)) /\
     c (2 * (N - 1) + i)%nat = Some (ce (p i))) (first_body A (N - 1) coefs) (N - 1) 0 (fresh A)) as (c & E & H).
  - intros i Hi. lia.
  - intros i c _ Hi IH. unfold first_body. cbv zeta. destruct (Hp i ltac:(lia)) as (C0 & C1 & C2 & C3).
    rewrite C0. cbn [bind]. rewrite wr_ok by lia. cbn [bind]. rewrite C1. cbn [bind]. rewrite wr_ok by lia. cbn [bind]. rewrite C2. cbn [bind].
    rewrite wr_ok by lia. eexists. split; [reflexivity|]. intros j Hj. destruct (Nat.eq_dec j i) as [->|Hne].
    + split; [rdm; rewrite upd_same; cbn -[Q2R]; rewrite Qr3; f_equal; ring|].
      split; [rdm; rewrite upd_same; cbn -[Q2R]; rewrite Qr2; f_equal; ring|]. apply (@upd_same A).
    + rdm. apply IH. lia.
  - exists c. split; [exact E|]. intros i Hi. apply H. lia.
Qed.
Lemma second_deri_spec : exists c2, second_deri A coefs N = Some c2 /\ ddpieces c2.
Proof.
  destruct (for_inv (fun k c => forall i, (i < k)%nat -> c (0 * (N - 1) + i)%nat = Some (6 * ca (p i)) /\ c (1 * (N - 1) + i)%nat = Some (2 * cb (p i))) 
     (second_body A (N - 1) coefs) (N - 1) 0 (fresh A)) as (c & E & H).
  - intros i Hi. lia.
  - intros i c _ Hi IH. unfold second_body. cbv zeta. destruct (Hp i ltac:(lia)) as (C0 & C1 & C2 & C3).
    rewrite C0. cbn [bind]. rewrite wr_ok by lia. cbn [bind]. rewrite C1. cbn [bind].
    rewrite wr_ok by lia. eexists. split; [reflexivity|]. intros j Hj. destruct (Nat.eq_dec j i) as [->|Hne].
    + split; [rdm; rewrite upd_same; cbn -[Q2R]; rewrite Qr6; f_equal; ring|].
      rewrite upd_same; cbn -[Q2R]; rewrite Qr2; f_equal; ring.
    + rdm. apply IH. lia.
  - exists c. split; [exact E|]. intros i Hi. apply H. lia.
Qed.

(** ** Uniform evaluation *)
Section uniform.
Context (cast : R -> option Z) (Hc : truncating cast) (h : R) (Hh : 0 < h).

Lemma fz_IZR i : @fz A i = IZR i.
Proof. unfold fz. cbn. unfold Q2R. cbn. rewrite Rinv_1, Rmult_1_r. reflexivity. Qed.

Lemma uscan_spec t fuel : forall i r, uscan A fuel h t i = Some r ->
  (i <= r)%Z /\ (r = i \/ t - IZR (r - 1) * h >= - eps) /\ t - IZR r * h < - eps.
Proof.
  induction fuel as [|fuel IH]; intros i r E; [discriminate|]. cbn [uscan] in E. rewrite fz_IZR in E.
  destruct (fle _ _) eqn:Ef; cbn in Ef.
  - apply Rleb_true in Ef. destruct (IH _ _ E) as (I1 & I2 & I3). split; [lia|]. split; [|exact I3]. right.
    destruct I2 as [->|I2]; [replace (i + 1 - 1)%Z with i by lia; lra|exact I2].
  - apply Rleb_false in Ef. injection E as <-. split; [lia|]. split; [now left|]. lra.
Qed.

Lemma div_le a x : a * h <= x <-> a <= x / h.
Proof.
  split; intros H.
  - apply (Rmult_le_reg_r h); [lra|]. unfold Rdiv. rewrite Rmult_assoc, Rinv_l by lra. lra.
  - apply (Rmult_le_compat_r h) in H; [|lra]. unfold Rdiv in H. rewrite Rmult_assoc, Rinv_l in H by lra. lra.
Qed.
Lemma div_lt a x : x / h < a <-> x < a * h.
Proof. split; intros H; apply Rnot_le_lt; intros K; apply div_le in K; lra. Qed.

Lemma uindex_spec fuel t i : 0 < eps -> uindex A cast fuel N h t = Some i ->
  (i < N - 1)%nat /\ (i = 0%nat \/ INR i * h - eps <= t) /\ (i = (N - 2)%nat \/ t < INR (S i) * h - eps).
Proof.
  intros He E. unfold uindex in E. change (@fdiv A t h) with (t / h) in E. destruct (cast (t / h)) as [z|] eqn:Ez; [|discriminate]. cbn [bind] in E.
  destruct (uscan A fuel h t z) as [r|] eqn:Er; [|discriminate]. cbn [bind] in E. injection E as <-.
  destruct (uscan_spec t fuel z r Er) as (I1 & I2 & I3). destruct (Hc _ _ Ez) as (K1 & K2). split; [lia|].
  destruct (Z.le_gt_cases r 0) as [Hr|Hr].
  - replace (Z.to_nat (r - 1)) with 0%nat by lia. rewrite Nat.min_0_l. split; [now left|]. right.
    assert (IZR r <= 0) by (apply IZR_le; lia). cbn [INR]. nra.
  - split.
    + right. destruct I2 as [->|I2].
      * exfalso. assert (1 <= IZR z) by (apply IZR_le; lia).
        destruct (Rle_dec 0 (t / h)) as [P|P].
        -- destruct (K1 P) as (Q & _). apply div_le in Q. lra.
        -- destruct (K2 ltac:(lra)) as (Q & _). lra.
      * assert (Le : INR (Nat.min (Z.to_nat (r - 1)) (N - 2)) <= IZR (r - 1)).
        { rewrite INR_IZR_INZ. apply IZR_le. lia. }
        nra.
    + destruct (Nat.le_gt_cases (N - 2) (Z.to_nat (r - 1))) as [|Hn]; [left; lia|]. right. rewrite Nat.min_l by lia.
      rewrite INR_IZR_INZ. replace (Z.of_nat (S (Z.to_nat (r - 1)))) with r by lia. lra.
Qed.

Lemma ueval_spec fuel t v : 0 < eps -> val_uniform A cast fuel coefs N h t = Some v ->
  exists i, (i < N - 1)%nat /\ (i = 0%nat \/ INR i * h - eps <= t) /\ (i = (N - 2)%nat \/ t < INR (S i) * h - eps) /\
  v = value (p i) (t - INR i * h).
Proof.
  intros He E. unfold val_uniform in E. cbv zeta in E. destruct (uindex A cast fuel N h t) as [i|] eqn:Ei; [|discriminate].
  destruct (uindex_spec fuel t i He Ei) as (I1 & I2 & I3). exists i. split; [exact I1|]. split; [exact I2|]. split; [exact I3|].
  cbn [bind] in E. destruct (Hp i I1) as (C0 & C1 & C2 & C3). rewrite C0 in E. cbn [bind] in E. rewrite C1 in E. cbn [bind] in E.
  rewrite C2 in E. cbn [bind] in E. rewrite C3 in E. cbn [bind] in E. rewrite fz_IZR, <- INR_IZR_INZ in E. injection E as <-. unfold value. cbn. ring.
Qed.

Lemma ueval_defined fuel t z : 0 < eps <= h -> (3 <= fuel)%nat -> cast (t / h) = Some z -> exists v, val_uniform A cast fuel coefs N h t = Some v.
Proof.
  intros He Hf Ez. destruct (Hc _ _ Ez) as (K1 & K2).
  assert (K : t < IZR z * h + h).
  { destruct (Rle_dec 0 (t / h)) as [P|P].
    - destruct (K1 P) as (_ & Q). apply div_lt in Q. lra.
    - destruct (K2 ltac:(lra)) as (_ & Q). destruct (Rlt_dec t (IZR z * h + h)); [assumption|].
      assert (IZR z + 1 <= t / h) by (apply div_le; lra). lra. }
  assert (Hu : exists r, uscan A fuel h t z = Some r).
  { destruct fuel as [|[|[|fuel]]]; try lia. cbn [uscan]. rewrite !fz_IZR.
    destruct (fle _ _); [|eauto]. destruct (fle _ _); [|eauto].
    replace (fle _ _) with false; [eauto|]. symmetry. cbn. apply Rleb_false. rewrite !plus_IZR. lra. }
  destruct Hu as [r Hr].
  assert (Ei : uindex A cast fuel N h t = Some (Nat.min (Z.to_nat (r - 1)) (N - 2))).
  { unfold uindex. change (@fdiv A t h) with (t / h). rewrite Ez. cbn [bind]. rewrite Hr. reflexivity. }
  unfold val_uniform. cbv zeta. rewrite Ei. cbn [bind].
  destruct (Hp (Nat.min (Z.to_nat (r - 1)) (N - 2)) ltac:(lia)) as (C0 & C1 & C2 & C3).
  rewrite C0. cbn [bind]. rewrite C1. cbn [bind]. rewrite C2. cbn [bind]. rewrite C3. cbn [bind]. eauto.
Qed.

Lemma uvals fuel t c1 c2 : dpieces c1 -> ddpieces c2 -> forall i, uindex A cast fuel N h t = Some i -> (i < N - 1)%nat ->
  val_uniform A cast fuel coefs N h t = Some (value (p i) (t - INR i * h)) /\
  val_first_uniform A cast fuel c1 N h t = Some (slope (p i) (t - INR i * h)) /\
  val_second_uniform A cast fuel c2 N h t = Some (bend (p i) (t - INR i * h)).
Proof.
  intros D1 D2 i Ei I1. unfold val_uniform, val_first_uniform, val_second_uniform. cbv zeta. rewrite Ei. cbn [bind].
  destruct (Hp i I1) as (C0 & C1 & C2 & C3). destruct (D1 i I1) as (E0 & E1 & E2). destruct (D2 i I1) as (F0 & F1).
  rewrite C0, E0, F0. cbn [bind]. rewrite C1, E1, F1. cbn [bind]. rewrite C2, E2. cbn [bind]. rewrite C3. cbn [bind].
  rewrite !fz_IZR, <- !INR_IZR_INZ. repeat split; f_equal; unfold value, slope, bend; cbn; ring.
Qed.
End uniform.
End eval.

(** ** Derivatives *)
Lemma value_deriv q u : derivable_pt_lim (value q) u (slope q u).
Proof.
  unfold value, slope.
  replace (3 * ca q * u ^ 2 + 2 * cb q * u + ce q) with (ca q * (INR 3 * u ^ pred 3) + cb q * (INR 2 * u ^ pred 2) + ce q * 1 + 0) by (cbn; ring).
  apply derivable_pt_lim_plus; [apply derivable_pt_lim_plus; [apply derivable_pt_lim_plus|]|].
  - apply derivable_pt_lim_scal. apply derivable_pt_lim_pow.
  - apply derivable_pt_lim_scal. apply derivable_pt_lim_pow.
  - apply derivable_pt_lim_scal. apply derivable_pt_lim_id.
  - apply derivable_pt_lim_const.
Qed.
Lemma slope_deriv q u : derivable_pt_lim (slope q) u (bend q u).
Proof.
  unfold slope, bend.
  replace (6 * ca q * u + 2 * cb q) with (3 * ca q * (INR 2 * u ^ pred 2) + 2 * cb q * 1 + 0) by (cbn; ring).
  apply derivable_pt_lim_plus; [apply derivable_pt_lim_plus|].
  - apply derivable_pt_lim_scal. apply derivable_pt_lim_pow.
  - apply derivable_pt_lim_scal. apply derivable_pt_lim_id.
  - apply derivable_pt_lim_const.
Qed.
End facts.
