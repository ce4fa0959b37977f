(** Splines: end-to-end evaluation, concrete cases and counterexamples. *)
From Coq Require Import QArith ZArith Reals Qreals List Bool Arith Lra Lia Psatz SpecFloat.
From Verif Require Import Arith SplineModel SplineSpec SplineProofs SplineFill SplineFacts SplinePeriodic SplineEval.
Import ListNotations.
Local Open Scope R_scope.

Section facts.
Context {big eps : R}.
Notation A := (R_arith big eps).

(** ** Derivative routines, whatever the breaks *)
Lemma deriv_shift f b t l : derivable_pt_lim f (t - b) l -> derivable_pt_lim (fun u => f (u - b)) t l.
Proof.
  intros H e He. destruct (H e He) as [dl Hd]. exists dl. intros k Hk1 Hk2. specialize (Hd k Hk1 Hk2).
  replace (t + k - b) with (t - b + k) by ring. exact Hd.
Qed.

Lemma derivatives (coefs : mem A) N p : (2 <= N)%nat -> (forall i, (i < N - 1)%nat -> piece coefs (N - 1) i (p i)) ->
  exists c1 c2, first_deri A coefs N = Some c1 /\ second_deri A coefs N = Some c2 /\
  forall breaks t, (N <= length breaks)%nat -> exists i d1 d2, (i < N - 1)%nat /\
    let f := fun u => value (p i) (u - pt breaks i) in
    val_spline A coefs breaks N t = Some (f t) /\
    val_first A c1 breaks N t = Some d1 /\ val_second A c2 breaks N t = Some d2 /\
    derivable_pt_lim f t d1 /\
    exists f', (forall u, derivable_pt_lim f u (f' u)) /\ derivable_pt_lim f' t d2.
Proof.
  intros HN Hp. destruct (first_deri_spec coefs N p HN Hp) as (c1 & E1 & D1).
  destruct (second_deri_spec coefs N p HN Hp) as (c2 & E2 & D2). exists c1, c2. split; [exact E1|]. split; [exact E2|].
  intros breaks t Hb. set (i := piece_index A breaks N (pt breaks 0) t). assert (Hi : (i < N - 1)%nat) by (unfold i, piece_index; lia).
  exists i, (slope (p i) (t - pt breaks i)), (bend (p i) (t - pt breaks i)). split; [exact Hi|]. cbv zeta.
  split; [apply (val_at coefs N p); auto|]. split; [apply (first_at N p); auto|]. split; [apply (second_at N p); auto|].
  split; [apply deriv_shift, value_deriv|]. exists (fun u => slope (p i) (u - pt breaks i)). split.
  - intros u. apply deriv_shift, value_deriv.
  - apply (deriv_shift (slope (p i))), slope_deriv.
Qed.

Lemma uniform_derivatives (coefs : mem A) N p cast h fuel t z : (2 <= N)%nat -> (forall i, (i < N - 1)%nat -> piece coefs (N - 1) i (p i)) ->
  truncating cast -> 0 < eps <= h -> (3 <= fuel)%nat -> cast (t / h) = Some z ->
  exists c1 c2, first_deri A coefs N = Some c1 /\ second_deri A coefs N = Some c2 /\
  exists i d1 d2, (i < N - 1)%nat /\
    (i = 0%nat \/ INR i * h - eps <= t) /\ (i = (N - 2)%nat \/ t < INR (S i) * h - eps) /\
    let f := fun u => value (p i) (u - INR i * h) in
    val_uniform A cast fuel coefs N h t = Some (f t) /\
    val_first_uniform A cast fuel c1 N h t = Some d1 /\ val_second_uniform A cast fuel c2 N h t = Some d2 /\
    derivable_pt_lim f t d1 /\
    exists f', (forall u, derivable_pt_lim f u (f' u)) /\ derivable_pt_lim f' t d2.
Proof.
  intros HN Hp Hc He Hf Ez. destruct (first_deri_spec coefs N p HN Hp) as (c1 & E1 & D1).
  destruct (second_deri_spec coefs N p HN Hp) as (c2 & E2 & D2). exists c1, c2. split; [exact E1|]. split; [exact E2|].
  destruct (ueval_defined coefs N p HN Hp cast Hc h ltac:(lra) fuel t z He Hf Ez) as (v & Ev).
  destruct (uindex A cast fuel N h t) as [i|] eqn:Ei; [|unfold val_uniform in Ev; rewrite Ei in Ev; discriminate].
  destruct (@uindex_spec big eps N HN cast Hc h ltac:(lra) fuel t i ltac:(lra) Ei) as (I1 & I2 & I3).
  destruct (uvals coefs N p Hp cast h fuel t c1 c2 D1 D2 i Ei I1) as (V1 & V2 & V3).
  exists i, (slope (p i) (t - INR i * h)), (bend (p i) (t - INR i * h)). split; [exact I1|]. split; [exact I2|]. split; [exact I3|]. cbv zeta.
  split; [exact V1|]. split; [exact V2|]. split; [exact V3|]. split; [apply deriv_shift, value_deriv|].
  exists (fun u => slope (p i) (u - INR i * h)). split.
  - intros u. apply deriv_shift, value_deriv.
  - apply (deriv_shift (slope (p i))), slope_deriv.
Qed.

(** ** Restatements *)
Section restate.
Context (Y : list R) (n : nat) (HY : (n <= length Y)%nat) (He : 0 < eps).
Lemma slopes_c15 X : (2 <= n)%nat -> (n <= length X)%nat -> increasing X n ->
  exists c ok, slopes A X Y n = Some (c, ok) /\ (ok = true -> exists p, fits c (n - 1) (gap X) Y p).
Proof.
  intros Hn HX Inc. destruct (@general_good big eps n Y Hn HY He X HX Inc) as (c & ok & E & K). exists c, ok. split; [exact E|].
  intros Ok. destruct (K Ok) as (p & P1 & P2 & _). exists p. intros i Hi. split; [now apply P1|now apply P2].
Qed.
Lemma uslopes_c15 h : (2 <= n)%nat -> 0 < h ->
  exists c ok, uniform_slopes A Y n h = Some (c, ok) /\ (ok = true -> exists p, fits c (n - 1) (fun _ => h) Y p).
Proof.
  intros Hn Hh. destruct (@uniform_good big eps n Y Hn HY He h Hh) as (c & ok & E & K). exists c, ok. split; [exact E|].
  intros Ok. destruct (K Ok) as (p & P1 & P2 & _). exists p. intros i Hi. split; [now apply P1|now apply P2].
Qed.
Lemma slopes_c16 X : (2 <= n)%nat -> (n <= length X)%nat -> increasing X n ->
  exists c ok, slopes A X Y n = Some (c, ok) /\ (ok = true -> exists p, fits c (n - 1) (gap X) Y p /\
    (forall i, (S i < n - 1)%nat -> smooth_join (p i) (gap X i) (p (S i))) /\
    slope (p 0%nat) 0 = (pt Y 1 - pt Y 0) / (pt X 1 - pt X 0) /\
    slope (p (n - 2)%nat) (pt X (n - 1) - pt X (n - 2)) = (pt Y (n - 1) - pt Y (n - 2)) / (pt X (n - 1) - pt X (n - 2))).
Proof.
  intros Hn HX Inc. destruct (@general_good big eps n Y Hn HY He X HX Inc) as (c & ok & E & K). exists c, ok. split; [exact E|].
  intros Ok. destruct (K Ok) as (p & P1 & P2 & P3 & P4 & P5). exists p. split.
  { intros i Hi. split; [now apply P1|now apply P2]. }
  split; [exact P3|]. split; [exact P4|]. replace (n - 2)%nat with (n - 1 - 1)%nat by lia. exact P5.
Qed.
Lemma uslopes_c16 h : (2 <= n)%nat -> 0 < h ->
  exists c ok, uniform_slopes A Y n h = Some (c, ok) /\ (ok = true -> exists p, fits c (n - 1) (fun _ => h) Y p /\
    (forall i, (S i < n - 1)%nat -> smooth_join (p i) h (p (S i))) /\
    slope (p 0%nat) 0 = (pt Y 1 - pt Y 0) / h /\
    slope (p (n - 2)%nat) h = (pt Y (n - 1) - pt Y (n - 2)) / h).
Proof.
  intros Hn Hh. destruct (@uniform_good big eps n Y Hn HY He h Hh) as (c & ok & E & K). exists c, ok. split; [exact E|].
  intros Ok. destruct (K Ok) as (p & P1 & P2 & P3 & P4 & P5). exists p. split.
  { intros i Hi. split; [now apply P1|now apply P2]. }
  split; [exact P3|]. split; [exact P4|]. replace (n - 2)%nat with (n - 1 - 1)%nat by lia. exact P5.
Qed.
End restate.
Lemma periodic_c15 X Y n : (4 <= n)%nat -> (n <= length X)%nat -> (n <= length Y)%nat -> increasing X n ->
  exists c ok, general_periodic A X Y n = Some (c, ok) /\ (ok = true -> exists p, fits c (n - 1) (gap X) Y p /\
    (forall i, (S i < n - 1)%nat -> bend (p i) (gap X i) = bend (p (S i)) 0) /\
    bend (p (n - 2)%nat) (gap X (n - 2)) = bend (p 0%nat) 0).
Proof.
  intros Hn HX HY Inc. destruct (@general_periodic_good big eps n Y Hn HY X HX Inc) as (c & ok & E & K). exists c, ok. split; [exact E|].
  intros Ok. destruct (K Ok) as (p & P1 & P2 & P3 & P4). exists p. split.
  { intros i Hi. split; [now apply P1|now apply P2]. }
  split; [exact P3|]. unfold gap. replace (S (n - 2)) with (n - 1)%nat by lia. replace (n - 2)%nat with (n - 1 - 1)%nat by lia. exact P4.
Qed.
Lemma uperiodic_c15 Y n h : (4 <= n)%nat -> (n <= length Y)%nat -> 0 < h ->
  exists c ok, uniform_periodic A Y n h = Some (c, ok) /\ (ok = true -> exists p, fits c (n - 1) (fun _ => h) Y p /\
    (forall i, (S i < n - 1)%nat -> bend (p i) h = bend (p (S i)) 0) /\
    bend (p (n - 2)%nat) h = bend (p 0%nat) 0).
Proof.
  intros Hn HY Hh. destruct (@uniform_periodic_good big eps n Y Hn HY h Hh) as (c & ok & E & K). exists c, ok. split; [exact E|].
  intros Ok. destruct (K Ok) as (p & P1 & P2 & P3 & P4). exists p. split.
  { intros i Hi. split; [now apply P1|now apply P2]. }
  split; [exact P3|]. replace (n - 2)%nat with (n - 1 - 1)%nat by lia. exact P4.
Qed.
Lemma periodic_c15' X Y n : (4 <= n)%nat -> (n <= length X)%nat -> (n <= length Y)%nat -> increasing X n ->
  exists c ok, general_periodic A X Y n = Some (c, ok) /\ (ok = true -> exists p, fits c (n - 1) (gap X) Y p).
Proof.
  intros Hn HX HY Inc. destruct (periodic_c15 X Y n Hn HX HY Inc) as (c & ok & E & K). exists c, ok. split; [exact E|].
  intros Ok. destruct (K Ok) as (p & P & _). exists p. exact P.
Qed.
Lemma uperiodic_c15' Y n h : (4 <= n)%nat -> (n <= length Y)%nat -> 0 < h ->
  exists c ok, uniform_periodic A Y n h = Some (c, ok) /\ (ok = true -> exists p, fits c (n - 1) (fun _ => h) Y p).
Proof.
  intros Hn HY Hh. destruct (uperiodic_c15 Y n h Hn HY Hh) as (c & ok & E & K). exists c, ok. split; [exact E|].
  intros Ok. destruct (K Ok) as (p & P & _). exists p. exact P.
Qed.

(** ** Fit, then evaluate at the data *)
Lemma fit_then_evaluate X Y n : 0 < eps -> (2 <= n)%nat -> (n <= length X)%nat -> (n <= length Y)%nat ->
  pt X 0 = 0 -> (forall i, (S i < n)%nat -> pt X i + eps < pt X (S i)) ->
  exists c ok, slopes A X Y n = Some (c, ok) /\
  (ok = true -> forall j, (j < n)%nat -> val_spline A c X n (pt X j) = Some (pt Y j)).
Proof.
  intros He Hn HX HY Z Gap. assert (Inc : increasing X n) by (intros i Hi; pose proof (Gap i Hi); lra).
  destruct (@general_good big eps n Y Hn HY He X HX Inc) as (c & ok & E & K). exists c, ok. split; [exact E|].
  intros Ok j Hj. destruct (K Ok) as (p & P1 & P2 & _).
  destruct (eval_spec c n p Hn P1 X HX (pt X j) Inc Z) as (i & I1 & I2 & I3 & Ev). rewrite Ev. f_equal.
  assert (Mono : forall b a, (a < b)%nat -> (b < n)%nat -> pt X a + eps < pt X b).
  { induction b as [|b IH]; intros a Ha Hb; [lia|]. pose proof (Gap b Hb). destruct (Nat.eq_dec a b) as [->|]; [assumption|].
    pose proof (IH a ltac:(lia) ltac:(lia)). lra. }
  destruct (P2 i I1) as (Q0 & Q1). destruct (Nat.lt_trichotomy i j) as [L|[->|G]].
  - destruct I3 as [->|I3].
    + assert (j = S (n - 2)) as -> by lia. exact Q1.
    + exfalso. destruct (Nat.eq_dec j (S i)) as [->|]; [lra|]. pose proof (Mono j (S i) ltac:(lia) Hj). lra.
  - replace (pt X j - pt X j) with 0 by ring. exact Q0.
  - exfalso. destruct I2 as [->|I2]; [lia|]. pose proof (Mono i j G ltac:(lia)). lra.
Qed.
End facts.

(** ** Binary64 cases *)
Definition d (q : Q) : F D_arith := @fq D_arith q.
Definition ds : list Q -> list (F D_arith) := map d.
Definition X5 := ds [0; 1; 2; 3; 4]%Q.
Definition Y5 := ds [0; 1; 0; -1; 0]%Q.

(** First derivative at the end (u = h) and at the start (u = 0) of piece i. *)
Definition end_slope (c : mem D_arith) (nn i : nat) (h : F D_arith) : option (F D_arith) :=
  match c (0 * nn + i)%nat, c (1 * nn + i)%nat, c (2 * nn + i)%nat with
  | Some a, Some b, Some e => Some (fadd (fmul (fadd (fmul (fmul (d 3) a) h) (fmul (d 2) b)) h) e)
  | _, _, _ => None
  end.
Definition start_slope (c : mem D_arith) (nn i : nat) : option (F D_arith) := c (2 * nn + i)%nat.
Definition kink (c : mem D_arith) : bool :=
  match end_slope c 4 0 (d 1), start_slope c 4 1 with
  | Some a, Some b => flt (d 1) a && flt b (d (-1))
  | _, _ => false
  end.
(** The slope jumps from above 1 to below -1 at the first interior break. *)
Definition kinked (o : option (mem D_arith * bool)) : bool :=
  match o with Some (c, ok) => ok && kink c | None => false end.
Lemma uniform_kink : kinked (uniform_periodic D_arith Y5 5 (d 1)) = true.
Proof. vm_compute. reflexivity. Qed.
Lemma general_kink : kinked (general_periodic D_arith X5 Y5 5) = true.
Proof. vm_compute. reflexivity. Qed.

Lemma kinked_ex o : kinked o = true -> exists c a b, o = Some (c, true) /\
  end_slope c 4 0 (d 1) = Some a /\ start_slope c 4 1 = Some b /\ flt (d 1) a = true /\ flt b (d (-1)) = true.
Proof.
  unfold kinked, kink. destruct o as [[c [|]]|]; cbn [andb]; try discriminate.
  destruct (end_slope c 4 0 (d 1)) as [a|] eqn:Ea; [|discriminate]. destruct (start_slope c 4 1) as [b|] eqn:Eb; [|discriminate].
  intros H. apply andb_true_iff in H. destruct H. exists c, a, b. auto.
Qed.

(** Three points: last_column has no cells. *)
Lemma three_points (A : arith) (Y : list (F A)) h : (3 <= length Y)%nat -> uniform_periodic A Y 3 h = None.
Proof.
  intros H. destruct Y as [|y0 [|y1 [|y2 Y]]]; cbn in H; try lia. cbn. reflexivity.
Qed.

(** A regular 3 by 3 cyclic system for which the solver reports success with a NaN: the pivot
    d[1] becomes zero and is not tested. Arrays at 0, 3, 6, 9; solution at 12. *)
Definition sys3 : mem D_arith := fun i => nth_error (ds [1;1;1; 1;1;0; 0;1;1; 1;2;3]%Q) i.
Definition nan_solution (o : option (mem D_arith * bool)) : bool :=
  match o with Some (m, ok) => ok && match m 15%nat with Some S754_nan => true | _ => false end | None => false end.
Lemma cyc_nan : nan_solution (periodic D_arith 16 0 3 6 9 12 3 sys3) = true.
Proof. vm_compute. reflexivity. Qed.
Lemma cyc_nan_ex : exists m', periodic D_arith 16 0 3 6 9 12 3 sys3 = Some (m', true) /\ m' 15%nat = Some S754_nan.
Proof.
  pose proof cyc_nan as H. destruct (periodic D_arith 16 0 3 6 9 12 3 sys3) as [[m' [|]]|]; try discriminate H.
  exists m'. split; [reflexivity|]. unfold nan_solution in H. cbn [andb] in H. destruct (m' 15%nat) as [[| | |]|]; try discriminate H. reflexivity.
Qed.
(** The same system over the reals has exactly one solution. *)
Definition lst (l : list R) (i : nat) : R := nth i l 0.
Lemma sys3_regular x : solves_cyclic 3 (lst [1;1;1]) (lst [1;1;0]) (lst [0;1;1]) (lst [1;2;3]) x <->
  x 0%nat = 1 /\ x 1%nat = -1 /\ x 2%nat = 2 /\ x 3%nat = 1.
Proof.
  unfold solves_cyclic, lst. split.
  - intros (H0 & H). pose proof (H 0%nat ltac:(lia)) as A0. pose proof (H 1%nat ltac:(lia)) as A1. pose proof (H 2%nat ltac:(lia)) as A2.
    cbn in A0, A1, A2. repeat split; lra.
  - intros (E0 & E1 & E2 & E3). split; [lra|]. intros [|[|[|i]]] Hi; cbn; try lra. lia.
Qed.

(** A system the cyclic solver does solve. *)
Definition sys4 : mem D_arith := fun i => nth_error (ds [4;4;4;4; 1;1;1;1; 1;1;1;1; 1;2;3;4]%Q) i.
Definition fine4 : bool := match periodic D_arith 21 0 4 8 12 16 4 sys4 with
  | Some (m, ok) => ok && forallb (fun i => match m (16 + i)%nat with Some x => negb (fbad x) | None => false end) [0;1;2;3;4]%nat | None => false end.
Lemma fine4_ok : fine4 = true. Proof. vm_compute. reflexivity. Qed.

(** Breaks that do not start at zero: fit at 1, 2, 3, evaluate at the first break. *)
Definition X3 := ds [1; 2; 3]%Q.
Definition Y3 := ds [0; 1; 3]%Q.
Definition shifted : bool :=
  match slopes D_arith X3 Y3 3 with
  | Some (c, ok) => ok && match val_spline D_arith c X3 3 (d 1) with Some v => feq v (d 1) | None => false end
  | None => false
  end.
Lemma shifted_true : shifted = true. Proof. vm_compute. reflexivity. Qed.
Lemma shifted_ex : exists c v, slopes D_arith X3 Y3 3 = Some (c, true) /\
  val_spline D_arith c X3 3 (d 1) = Some v /\ feq v (d 1) = true.
Proof.
  pose proof shifted_true as H. unfold shifted in H. destruct (slopes D_arith X3 Y3 3) as [[c [|]]|]; try discriminate H. cbn [andb] in H.
  destruct (val_spline D_arith c X3 3 (d 1)) as [v|] eqn:E; [|discriminate H]. exists c, v. auto.
Qed.

(** Hypotheses are satisfiable: five increasing points with zero first break. *)
Definition RX : list R := [0; 1; 3; 4; 6].
Definition RY : list R := [0; 1; -2; 5; 0].
Lemma RX_ok : forall i, (S i < 5)%nat -> pt RX i + 1/8 < pt RX (S i).
Proof. intros [|[|[|[|i]]]] Hi; try lia; unfold pt, RX; cbn; lra. Qed.
Lemma fit_example : exists c, slopes (R_arith 1 (1/8)) RX RY 5 = Some (c, true).
Proof.
  apply slopes_succeeds; try (cbn; lia); try lra.
  - intros i Hi. pose proof (RX_ok i Hi). lra.
  - unfold pt, RX. cbn. lra.
  - unfold pt, RX. cbn. lra.
Qed.
(** Rounding towards zero. *)
Definition icast (x : R) : option Z :=
  if Rle_dec 0 x then Some (Int_part x) else Some (- Int_part (- x))%Z.
Lemma icast_ok : truncating icast.
Proof.
  intros x z E. unfold icast in E. destruct (Rle_dec 0 x) as [H|H]; injection E as <-.
  - destruct (base_Int_part x). split; [lra|]. intros K. assert (x = 0) by lra. subst x.
    assert (Int_part 0 = 0%Z) as ->; [|lra]. { destruct (base_Int_part 0). assert (IZR (-1) < IZR (Int_part 0)) by (cbn; lra). assert (IZR (Int_part 0) <= IZR 0) by (cbn; lra).
      apply lt_IZR in H4. apply le_IZR in H5. lia. }
  - destruct (base_Int_part (- x)). rewrite opp_IZR. split; lra.
Qed.
