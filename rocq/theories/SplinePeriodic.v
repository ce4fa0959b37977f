(** Splines: the periodic routines, for any arithmetic. *)
From Coq Require Import QArith ZArith List Bool Arith Lia.
From Verif Require Import Arith SplineModel SplineSpec SplineProofs SplineFill.
Import ListNotations.
Local Open Scope nat_scope.

Section gen.
Context {A : arith}.
Notation F := (F A).
Notation mem := (mem A).
Notation arr := (@holds_array A).
Notation upd := (upd A).
Notation lit q := (@fq A q).
Implicit Types (m c : mem).

(** The first k cells have been written. *)
Definition filled (m : mem) (k : nat) : Prop := forall i, i < k -> exists v, m i = Some v.

Lemma filled_upd m k i v : filled m k -> filled (upd m i v) k.
Proof.
  intros H j Hj. unfold SplineModel.upd. destruct (Nat.eqb j i); [eexists; reflexivity|now apply H].
Qed.
Lemma filled_range m a b i v :
  (forall j, a <= j -> j < b -> exists w, m j = Some w) -> forall j, a <= j -> j < b -> exists w, upd m i v j = Some w.
Proof. intros H j Ha Hb. unfold SplineModel.upd. destruct (Nat.eqb j i); [eexists; reflexivity|now apply H]. Qed.

Lemma arr_exists m off k : (forall i, i < k -> exists v, m (off + i) = Some v) -> exists f, arr m off k f.
Proof.
  intros H. exists (fun i => match m (off + i) with Some v => v | None => lit 0 end). intros i Hi.
  destruct (H i Hi) as [v E]. now rewrite E.
Qed.

(** ** Memory safety in the layout used by the callers *)
Section layout.
Context (nn : nat) (Hnn : 3 <= nn).
Notation size := (5 * nn - 1).
Notation k := (4 * nn - 2).

Ltac rd H j := let v := fresh "v" in let E := fresh "E" in destruct (H j ltac:(lia)) as [v E]; rewrite E; cbn [bind].

Lemma lwr_ok lc i v : i < nn - 2 -> lwr A nn lc i v = Some (upd lc i v).
Proof. intros H. unfold lwr. apply Nat.ltb_lt in H. now rewrite H. Qed.

Lemma incr_filled m i v : filled m k -> i < k -> exists m', incr A size m i v = Some m' /\ filled m' k.
Proof.
  intros H Hi. destruct (H i Hi) as [x E]. rewrite (incr_ok _ _ _ x) by (auto; lia). eexists. split; [reflexivity|].
  now apply filled_upd.
Qed.

Ltac inc m i v H :=
  let m' := fresh "m" in let E := fresh "E" in let H' := fresh "H" in
  destruct (incr_filled m i v H ltac:(lia)) as (m' & E & H'); rewrite E; cbn [bind].

Definition pinv (i : nat) (st : pstate A) : Prop := filled (pm _ st) k /\ filled (plc _ st) (S i).

Lemma pelim_safe i st : i < nn - 3 -> pinv i st ->
  exists st', pelim_body A size nn 0 nn (2 * nn - 1) (3 * nn - 2) i st = Some st' /\ pinv (S i) st'.
Proof.
  intros Hi [H Hc]. unfold pelim_body. cbv zeta. destruct st as [m lc tm]. cbn [pm plc ptemp] in *.
  rd H (2 * nn - 1 + (i + 1)). rd H (0 + i). rd H (nn + i).
  inc m (0 + (i + 1)) (fmul v1 (fdiv (fopp v) v0)) H.
  rd Hc i. rewrite lwr_ok by lia. cbn [bind]. rd H0 (3 * nn - 2 + i).
  inc m0 (3 * nn - 2 + (i + 1)) (fmul v3 (fdiv (fopp v) v0)) H0. rd H1 (0 + i). rd H1 (nn + i).
  assert (Hc' : filled (upd lc (i + 1) (fmul v2 (fdiv (fopp v) v0))) (S (S i))).
  { intros j Hj. destruct (Nat.eq_dec j (i + 1)) as [->|]; [eexists; apply upd_same|]. rewrite upd_other by lia. apply Hc. lia. }
  rd Hc' i. inc m1 (0 + (nn - 1)) (fmul v6 (fdiv (fopp tm) v4)) H1. rd H2 (3 * nn - 2 + i).
  inc m2 (3 * nn - 2 + (nn - 1)) (fmul v7 (fdiv (fopp tm) v4)) H2.
  eexists. split; [reflexivity|]. split; assumption.
Qed.

Lemma pback_safe lc j : j <= nn - 2 -> filled lc (nn - 2) -> forall m, filled m k ->
  (forall i, k + S j <= i -> i < k + S nn -> exists v, m i = Some v) ->
  exists m' ok, pback A size nn 0 nn (3 * nn - 2) k j lc m = Some (m', ok) /\
    (ok = true -> forall i, k + 1 <= i -> i < k + S nn -> exists v, m' i = Some v).
Proof.
  induction j as [|j IH]; intros Hj Hc m H Hs.
  - exists m, true. split; [reflexivity|]. intros _ i Hi1 Hi2. apply Hs; lia.
  - cbn [pback]. rd H (0 + j). destruct (flt (fabs v) fepsv); [exists m, false; split; [reflexivity|discriminate]|].
    rd H (3 * nn - 2 + j). destruct (Hs (k + nn) ltac:(lia) ltac:(lia)) as [x Ex]. rewrite Ex. cbn [bind].
    rd Hc j. destruct (Hs (k + (S j + 1)) ltac:(lia) ltac:(lia)) as [y Ey]. rewrite Ey. cbn [bind]. rd H (nn + j).
    rewrite wr_ok by lia. cbn [bind]. apply IH; [lia|exact Hc|now apply filled_upd|].
    intros i Hi1 Hi2. destruct (Nat.eq_dec i (k + S j)) as [->|]; [eexists; apply upd_same|]. rewrite upd_other by lia. apply Hs; lia.
Qed.

Lemma periodic_safe m : filled m k ->
  exists m' ok, periodic A size 0 nn (2 * nn - 1) (3 * nn - 2) k nn m = Some (m', ok) /\
    (ok = true -> exists x, arr m' k (S nn) x /\ x 0 = x nn).
Proof.
  intros H. unfold periodic. cbv zeta. destruct (Nat.ltb_spec nn 2); [lia|]. rd H (nn + (nn - 1)). rd H (2 * nn - 1 + 0). rewrite lwr_ok by lia. cbn [bind].
  destruct (for_inv pinv (pelim_body A size nn 0 nn (2 * nn - 1) (3 * nn - 2)) (nn - 3) 0 (mkP A m (upd (fresh A) 0 v0) v)) as ([m1 lc tm] & Ef & H1 & Hc).
  { split; [exact H|]. intros j Hj. replace j with 0 by lia. eexists. apply upd_same. }
  { intros j st _ Hj. apply pelim_safe. lia. }
  rewrite Ef. cbn [bind pm plc ptemp] in *. replace (S (0 + (nn - 3))) with (nn - 2) in Hc by lia.
  rd H1 (2 * nn - 1 + (nn - 3 + 1)). rd H1 (0 + (nn - 3)). rd H1 (nn + (nn - 3)).
  match goal with |- context [incr A size ?mm ?i ?v] => inc mm i v H1 end.
  rd Hc (nn - 3). match goal with |- context [incr A size ?mm ?i ?v] => inc mm i v H2 end.
  rd H3 (3 * nn - 2 + (nn - 3)). match goal with |- context [incr A size ?mm ?i ?v] => inc mm i v H3 end.
  rd H4 (0 + (nn - 3)). rd H4 (nn + (nn - 3)). match goal with |- context [incr A size ?mm ?i ?v] => inc mm i v H4 end.
  match goal with |- context [incr A size ?mm ?i ?v] => inc mm i v H5 end.
  rd H6 (3 * nn - 2 + (nn - 3)). match goal with |- context [incr A size ?mm ?i ?v] => inc mm i v H6 end.
  rd H7 (2 * nn - 1 + (nn - 2 + 1)). rd H7 (0 + (nn - 2)). rd H7 (nn + (nn - 2)).
  match goal with |- context [incr A size ?mm ?i ?v] => inc mm i v H7 end.
  rd H8 (3 * nn - 2 + (nn - 2)). match goal with |- context [incr A size ?mm ?i ?v] => inc mm i v H8 end.
  rd H9 (3 * nn - 2 + (nn - 1)). rd H9 (0 + (nn - 1)). rewrite wr_ok by lia. cbn [bind].
  destruct (flt (fabs _) fepsv); [eexists _, false; split; [reflexivity|discriminate]|].
  match goal with |- context [upd ?mx (?i + nn) ?w] => set (mm := upd mx (i + nn) w); assert (Hm : filled mm k) by (apply filled_upd; assumption);
     assert (Hn : mm (k + nn) = Some w) by apply upd_same end.
  rd Hm (3 * nn - 2 + (nn - 2)). rewrite Hn. cbn [bind]. rd Hm (nn + (nn - 2)). rd Hm (0 + (nn - 2)). rewrite wr_ok by lia. cbn [bind].
  match goal with |- context [upd mm ?i ?w] => set (mw := upd mm i w) end.
  destruct (pback_safe lc (nn - 2) ltac:(lia) Hc mw) as (m' & ok & Eb & Hb).
  { now apply filled_upd. }
  { intros i Hi1 Hi2. unfold mw. destruct (Nat.eq_dec i (k + (nn - 1))) as [->|]; [eexists; apply upd_same|].
    rewrite upd_other by lia. replace i with (k + nn) by lia. eexists. exact Hn. }
  rewrite Eb. cbn [bind]. destruct ok; [|eexists _, false; split; [reflexivity|discriminate]].
  destruct (Hb eq_refl (k + nn) ltac:(lia) ltac:(lia)) as [x Ex]. rewrite Ex. cbn [bind]. rewrite wr_ok by lia. cbn [bind].
  eexists _, true. split; [reflexivity|]. intros _.
  destruct (arr_exists (upd m' (k + 0) x) k (S nn)) as [f Hf].
  { intros i Hi. destruct (Nat.eq_dec i 0) as [->|]; [eexists; apply upd_same|]. rewrite upd_other by lia. apply Hb; [reflexivity|lia|lia]. }
  exists f. split; [exact Hf|].
  pose proof (Hf 0 ltac:(lia)) as Q0. rewrite upd_same in Q0. pose proof (Hf nn ltac:(lia)) as Q1. rewrite upd_other in Q1 by lia.
  rewrite Ex in Q1. congruence.
Qed.
End layout.

(** ** The two periodic routines *)
Section routines.
Context (n : nat) (Y : list F) (Hn : 4 <= n) (HY : n <= length Y).
Notation nn := (n - 1).

Lemma finish m : filled m (4 * nn - 2) ->
  exists m' ok, periodic A (5 * nn - 1) 0 nn (2 * nn - 1) (3 * nn - 2) (4 * nn - 2) nn m = Some (m', ok) /\
  (ok = true -> exists x m'', m' (4 * nn - 2 + nn) = Some x /\ wr A (5 * nn - 1) m' (4 * nn - 2 + 0) x = Some m'' /\
     exists S', arr m'' (4 * nn - 2) (nn + 1) S' /\ S' 0 = S' nn).
Proof.
  intros H. destruct (periodic_safe nn ltac:(lia) m H) as (m' & ok & E & K). exists m', ok. split; [exact E|].
  intros Ok. destruct (K Ok) as (x & Hx & E0). exists (x nn). eexists. split; [apply Hx; lia|]. split; [apply wr_ok; lia|].
  exists x. split; [|exact E0]. intros i Hi. destruct (Nat.eq_dec i 0) as [->|].
  - rewrite upd_same. now rewrite E0.
  - rewrite upd_other by lia. apply Hx. lia.
Qed.

(** Cells written by the first i passes. *)
Definition pfilled (i : nat) (m : mem) : Prop :=
  forall j, j < i -> (exists v, m j = Some v) /\ (exists v, m (nn + j) = Some v) /\ (exists v, m (2 * nn - 1 + j) = Some v) /\ (exists v, m (3 * nn - 2 + j) = Some v).
Lemma pfilled_all m : pfilled nn m -> filled m (4 * nn - 2).
Proof.
  intros H i Hi. destruct (Nat.lt_ge_cases i nn) as [|H1]; [now apply H|].
  destruct (Nat.lt_ge_cases i (2 * nn)) as [|H2]; [replace i with (nn + (i - nn)) by lia; apply H; lia|].
  destruct (Nat.lt_ge_cases i (3 * nn - 2)) as [|H3]; [replace i with (2 * nn - 1 + (i - (2 * nn - 1))) by lia; apply H; lia|].
  replace i with (3 * nn - 2 + (i - (3 * nn - 2))) by lia. apply H. lia.
Qed.
Lemma ex_upd m i v j : (exists w, m j = Some w) -> exists w, upd m i v j = Some w.
Proof. intros [w E]. unfold SplineModel.upd. destruct (Nat.eqb j i); eauto. Qed.
Lemma ex_upd_at m i v j : j = i -> exists w, upd m i v j = Some w.
Proof. intros ->. rewrite upd_same. eauto. Qed.

Lemma pfilled_step i m w1 w2 w3 w4 : pfilled i m ->
  pfilled (S i) (upd (upd (upd (upd m (2 * nn - 1 + i) w1) (0 + i) w2) (nn + i) w3) (3 * nn - 2 + i) w4).
Proof.
  intros IH j Hj. destruct (Nat.eq_dec j i) as [->|Hne].
  - split; [|split; [|split]].
    + do 2 apply ex_upd. apply ex_upd_at. lia.
    + apply ex_upd. apply ex_upd_at. lia.
    + do 3 apply ex_upd. apply ex_upd_at. lia.
    + apply ex_upd_at. lia.
  - destruct (IH j ltac:(lia)) as (I1 & I2 & I3 & I4). repeat split; do 4 apply ex_upd; assumption.
Qed.

Lemma uniform_periodic_spec (h : F) :
  exists c ok, uniform_periodic A Y n h = Some (c, ok) /\
  (ok = true -> exists S', S' 0 = S' nn /\
     forall i, i < nn -> c (0 * nn + i) = Some (c0_of S' h i) /\ c (1 * nn + i) = Some (c1_of S' i) /\
                         c (2 * nn + i) = Some (c2_of Y S' h i) /\ c (3 * nn + i) = Some (nt Y i)).
Proof.
  unfold uniform_periodic. cbv zeta. destruct (Nat.ltb_spec n 2); [lia|].
  destruct (for_inv pfilled (pfill_uniform A nn Y h) nn 0 (fresh A)) as (m & E & Hf).
  - intros j Hj. lia.
  - intros i m _ Hi IH. unfold pfill_uniform. cbv zeta. rewrite wr_ok by lia. cbn [bind]. rewrite wr_ok by lia. cbn [bind].
    rewrite wr_ok by lia. cbn [bind]. rewrite at_nt by (destruct (Nat.eqb_spec i (nn - 1)); lia). cbn [bind].
    rewrite !at_nt by lia. cbn [bind]. rewrite wr_ok by lia. eexists. split; [reflexivity|]. now apply pfilled_step.
  - rewrite E. cbn [bind]. destruct (finish m (pfilled_all _ Hf)) as (m' & ok & E1 & K). rewrite E1. cbn [bind]. destruct ok.
    + destruct (K eq_refl) as (x & m'' & E2 & E3 & S' & HS & ES). rewrite E2. cbn [bind]. rewrite E3. cbn [bind].
      destruct (coef_uniform_spec nn Y h (4 * nn - 2) m'' S' HS ltac:(lia)) as (c & E4 & H4). rewrite E4. cbn [bind].
      exists c, true. split; [reflexivity|]. intros _. exists S'. auto.
    + exists (fresh A), false. split; [reflexivity|discriminate].
Qed.

Lemma general_periodic_spec (X : list F) : n <= length X ->
  exists c ok, general_periodic A X Y n = Some (c, ok) /\
  (ok = true -> exists S', S' 0 = S' nn /\
     forall i, i < nn -> let hi := gh X i in
                         c (0 * nn + i) = Some (c0_of S' hi i) /\ c (1 * nn + i) = Some (c1_of S' i) /\
                         c (2 * nn + i) = Some (c2_of Y S' hi i) /\ c (3 * nn + i) = Some (c3_of Y S' hi i)).
Proof.
  intros HX. unfold general_periodic. cbv zeta. destruct (Nat.ltb_spec n 2); [lia|].
  destruct (for_inv pfilled (pfill_general A nn X Y) nn 0 (fresh A)) as (m & E & Hf).
  - intros j Hj. lia.
  - intros i m _ Hi IH. unfold pfill_general. cbv zeta. rewrite !(at_nt X), !(at_nt Y) by lia. cbn [bind].
    destruct (Nat.eqb_spec i (nn - 1)); rewrite ?(at_nt X), ?(at_nt Y) by lia; cbn [bind]; repeat (rewrite wr_ok by lia; cbn [bind]);
      eexists; (split; [reflexivity|]); now apply pfilled_step.
  - rewrite E. cbn [bind]. destruct (finish m (pfilled_all _ Hf)) as (m' & ok & E1 & K). rewrite E1. cbn [bind]. destruct ok.
    + destruct (K eq_refl) as (x & m'' & E2 & E3 & S' & HS & ES). rewrite E2. cbn [bind]. rewrite E3. cbn [bind].
      destruct (coef_general_spec nn X Y (4 * nn - 2) m'' S' HS ltac:(lia) ltac:(lia)) as (c & E4 & H4). rewrite E4. cbn [bind].
      exists c, true. split; [reflexivity|]. intros _. exists S'. auto.
    + exists (fresh A), false. split; [reflexivity|discriminate].
Qed.
End routines.

(** ** The cyclic solver on disjoint arrays *)
Section cyc.
Context (size d ud ld vec s n2 : nat).
(* nn = n2 + 2 rows *)
Notation nn := (S (S n2)).
Context (H1 : 1 <= n2).
Context (D U L V : nat -> F).
Context (B1 : d + nn <= size) (B2 : ud + nn <= size) (B3 : ld + nn <= size) (B4 : vec + nn <= size) (B5 : s + S nn <= size).
Context (S1 : disjoint d nn ud nn) (S2 : disjoint d nn ld nn) (S3 : disjoint d nn vec nn) (S4 : disjoint d nn s (S nn)).
Context (S5 : disjoint ud nn ld nn) (S6 : disjoint ud nn vec nn) (S7 : disjoint ud nn s (S nn)).
Context (S8 : disjoint ld nn vec nn) (S9 : disjoint vec nn s (S nn)).

Fixpoint qd (i : nat) : F :=
  match i with O => D 0 | S j => fadd (D i) (fmul (U j) (fdiv (fopp (L i)) (qd j))) end.
Fixpoint qv (i : nat) : F :=
  match i with O => V 0 | S j => fadd (V i) (fmul (qv j) (fdiv (fopp (L i)) (qd j))) end.
Fixpoint qc (i : nat) : F :=
  match i with O => L 0 | S j => fmul (qc j) (fdiv (fopp (L i)) (qd j)) end.
Fixpoint qt (i : nat) : F :=
  match i with O => U (S n2) | S j => fmul (U j) (fdiv (fopp (qt j)) (qd j)) end.
Fixpoint qdn (i : nat) : F :=
  match i with O => D (S n2) | S j => fadd (qdn j) (fmul (qc j) (fdiv (fopp (qt j)) (qd j))) end.
Fixpoint qvn (i : nat) : F :=
  match i with O => V (S n2) | S j => fadd (qvn j) (fmul (qv j) (fdiv (fopp (qt j)) (qd j))) end.

Definition cyc_inv (i : nat) (st : pstate A) : Prop :=
  arr (pm _ st) d nn (fun j => if Nat.leb j i then qd j else if Nat.eqb j (S n2) then qdn i else D j) /\
  arr (pm _ st) vec nn (fun j => if Nat.leb j i then qv j else if Nat.eqb j (S n2) then qvn i else V j) /\
  arr (pm _ st) ud nn U /\ arr (pm _ st) ld nn L /\ arr (plc _ st) 0 (S i) qc /\ ptemp _ st = qt i.

Ltac dj := first [lia | let E := fresh in intros E; first
  [ eapply S1; [| |exact E]; lia | eapply S2; [| |exact E]; lia | eapply S3; [| |exact E]; lia | eapply S4; [| |exact E]; lia
  | eapply S5; [| |exact E]; lia | eapply S6; [| |exact E]; lia | eapply S7; [| |exact E]; lia | eapply S8; [| |exact E]; lia | eapply S9; [| |exact E]; lia
  | eapply S1; [| |symmetry; exact E]; lia | eapply S2; [| |symmetry; exact E]; lia | eapply S3; [| |symmetry; exact E]; lia | eapply S4; [| |symmetry; exact E]; lia
  | eapply S5; [| |symmetry; exact E]; lia | eapply S6; [| |symmetry; exact E]; lia | eapply S7; [| |symmetry; exact E]; lia | eapply S8; [| |symmetry; exact E]; lia
  | eapply S9; [| |symmetry; exact E]; lia ] ].
Ltac rdx := repeat (rewrite upd_other by dj).

Lemma leb_f a b : b < a -> Nat.leb a b = false. Proof. intros. now apply Nat.leb_gt. Qed.
Lemma eqb_f a b : a <> b -> Nat.eqb a b = false. Proof. intros. now apply Nat.eqb_neq. Qed.

Lemma cyc_step i st : S i < n2 -> cyc_inv i st ->
  exists st', pelim_body A size nn d ud ld vec i st = Some st' /\ cyc_inv (S i) st'.
Proof.
  intros Hi (Hd & Hv & Hu & Hl & Hc & Ht). destruct st as [m lc tm]. cbn [pm plc ptemp] in *. subst tm.
  unfold pelim_body. cbv zeta. cbn [pm plc ptemp].
  pose proof (Hd i ltac:(lia)) as Ed. cbn beta in Ed. rewrite Nat.leb_refl in Ed.
  pose proof (Hv i ltac:(lia)) as Ev. cbn beta in Ev. rewrite Nat.leb_refl in Ev.
  pose proof (Hd (i + 1) ltac:(lia)) as Ed1. cbn beta in Ed1. rewrite leb_f, eqb_f in Ed1 by lia.
  pose proof (Hv (i + 1) ltac:(lia)) as Ev1. cbn beta in Ev1. rewrite leb_f, eqb_f in Ev1 by lia.
  pose proof (Hd (nn - 1) ltac:(lia)) as Edn. cbn beta in Edn. rewrite leb_f in Edn by lia. replace (nn - 1) with (S n2) in Edn by lia. rewrite Nat.eqb_refl in Edn.
  pose proof (Hv (nn - 1) ltac:(lia)) as Evn. cbn beta in Evn. rewrite leb_f in Evn by lia. replace (nn - 1) with (S n2) in Evn by lia. rewrite Nat.eqb_refl in Evn.
  pose proof (Hu i ltac:(lia)) as Eu. pose proof (Hl (i + 1) ltac:(lia)) as El. pose proof (Hc i ltac:(lia)) as Ec. cbn [Nat.add] in Ec.
  replace (nn - 1) with (S n2) by lia.
  rewrite El. cbn [bind]. rewrite Ed. cbn [bind]. rewrite Eu. cbn [bind].
  rewrite (incr_ok _ _ _ (D (i + 1))) by (first [exact Ed1|lia]). cbn [bind]. rewrite Ec. cbn [bind].
  unfold lwr at 1. destruct (Nat.ltb_spec (i + 1) (nn - 2)); [|lia]. cbn [bind].
  rewrite upd_other by dj. rewrite Ev. cbn [bind].
  rewrite (incr_ok _ _ _ (V (i + 1))) by (try lia; rdx; exact Ev1). cbn [bind].
  rewrite upd_other by dj. rewrite upd_other by dj. rewrite Ed. cbn [bind].
  rewrite upd_other by dj. rewrite upd_other by dj. rewrite Eu. cbn [bind].
  rewrite upd_other by lia. rewrite Ec. cbn [bind].
  rewrite (incr_ok _ _ _ (qdn i)) by (try lia; rdx; exact Edn). cbn [bind].
  rewrite upd_other by dj. rewrite upd_other by dj. rewrite upd_other by dj. rewrite Ev. cbn [bind].
  rewrite (incr_ok _ _ _ (qvn i)) by (try lia; rdx; exact Evn). cbn [bind].
  eexists. split; [reflexivity|]. unfold cyc_inv. cbn [pm plc ptemp].
  replace (i + 1) with (S i) in * by lia.
  split; [|split; [|split; [|split; [|split]]]].
  - intros j Hj. rewrite upd_other by dj. destruct (Nat.eq_dec j (S n2)) as [->|Hn].
    + rewrite upd_same. rewrite leb_f by lia. rewrite Nat.eqb_refl. reflexivity.
    + rewrite upd_other by lia. rewrite upd_other by dj. destruct (Nat.eq_dec j (S i)) as [->|Hn2].
      * rewrite upd_same, Nat.leb_refl. reflexivity.
      * rewrite upd_other by lia. rewrite (Hd j Hj). cbn beta. rewrite eqb_f by lia.
        destruct (Nat.leb_spec j i), (Nat.leb_spec j (S i)); try lia; reflexivity.
  - intros j Hj. destruct (Nat.eq_dec j (S n2)) as [->|Hn].
    + rewrite upd_same. rewrite leb_f by lia. rewrite Nat.eqb_refl. reflexivity.
    + rewrite upd_other by lia. rewrite upd_other by dj. destruct (Nat.eq_dec j (S i)) as [->|Hn2].
      * rewrite upd_same, Nat.leb_refl. reflexivity.
      * rewrite upd_other by lia. rewrite upd_other by dj. rewrite (Hv j Hj). cbn beta. rewrite eqb_f by lia.
        destruct (Nat.leb_spec j i), (Nat.leb_spec j (S i)); try lia; reflexivity.
  - intros j Hj. rdx. now apply Hu.
  - intros j Hj. rdx. now apply Hl.
  - intros j Hj. cbn [Nat.add]. destruct (Nat.eq_dec j (S i)) as [->|Hn]; [now rewrite upd_same|]. rewrite upd_other by lia. apply Hc. lia.
  - reflexivity.
Qed.

Definition ue : F := fadd (U n2) (fmul (qc (n2 - 1)) (fdiv (fopp (L n2)) (qd (n2 - 1)))).
Definition le : F := fadd (L (S n2)) (fmul (U (n2 - 1)) (fdiv (fopp (qt (n2 - 1))) (qd (n2 - 1)))).
Definition df : F := fadd (qdn n2) (fmul ue (fdiv (fopp le) (qd n2))).
Definition vf : F := fadd (qvn n2) (fmul (qv n2) (fdiv (fopp le) (qd n2))).
(** The solution from the bottom up: cs 0 is row nn - 2, i.e. s[nn - 1]. *)
Definition xn : F := fdiv vf df.
Fixpoint cs (j : nat) : F :=
  match j with
  | O => fdiv (fsub (qv n2) (fmul xn ue)) (qd n2)
  | S j' => fdiv (fsub (fsub (qv (n2 - j)) (fmul xn (qc (n2 - j)))) (fmul (cs j') (U (n2 - j)))) (qd (n2 - j))
  end.
(** s[i] *)
Definition csol (i : nat) : F := if Nat.eqb i 0 then xn else if Nat.eqb i nn then xn else cs (S n2 - i).

Lemma pback_spec lc j : j <= n2 -> arr lc 0 n2 qc -> forall m,
  arr m d (S n2) qd -> arr m vec (S n2) qv -> arr m ud n2 U ->
  (forall i, j < i -> i <= nn -> m (s + i) = Some (csol i)) ->
  exists m' ok, pback A size nn d ud vec s j lc m = Some (m', ok) /\
    (ok = true <-> forall i, i < j -> flt (fabs (qd i)) fepsv = false) /\
    (ok = true -> (forall i, 0 < i -> i <= nn -> m' (s + i) = Some (csol i)) /\ m' (d + n2) = Some (qd n2)).
Proof.
  induction j as [|j IH]; intros Hj Hc m Hd Hv Hu Hs.
  - exists m, true. split; [reflexivity|]. split; [split; [intros _ i Hi; lia|reflexivity]|]. intros _. split; [exact Hs|]. apply Hd. lia.
  - cbn [pback]. rewrite (Hd j) by lia. cbn [bind]. destruct (flt (fabs (qd j)) fepsv) eqn:Ek.
    + exists m, false. split; [reflexivity|]. split; [|discriminate]. split; [discriminate|].
      intros H. rewrite H in Ek by lia. discriminate.
    + rewrite (Hv j) by lia. cbn [bind]. rewrite (Hs nn) by lia. cbn [bind].
      pose proof (Hc j ltac:(lia)) as Ec. cbn [Nat.add] in Ec. rewrite Ec. cbn [bind]. rewrite (Hs (S j + 1)) by lia. cbn [bind].
      rewrite (Hu j) by lia. cbn [bind]. rewrite wr_ok by lia. cbn [bind]. set (m' := upd m (s + S j) _).
      destruct (IH ltac:(lia) Hc m') as (m2 & ok & E & K1 & K2).
      * intros i Hi. unfold m'. rewrite upd_other by dj. now apply Hd.
      * intros i Hi. unfold m'. rewrite upd_other by dj. now apply Hv.
      * intros i Hi. unfold m'. rewrite upd_other by dj. now apply Hu.
      * intros i Hi1 Hi2. unfold m'. destruct (Nat.eq_dec i (S j)) as [->|Hn].
        -- rewrite upd_same. f_equal. unfold csol. rewrite Nat.eqb_refl. cbn [Nat.eqb].
           replace (nn =? 0) with false by reflexivity. rewrite (eqb_f j (S n2)) by lia.
           rewrite (eqb_f (S j + 1) 0), (eqb_f (S j + 1) nn) by lia. replace (S n2 - S j) with (S (n2 - S j)) by lia.
           replace (S n2 - (S j + 1)) with (n2 - S j) by lia. cbn [cs]. replace (n2 - S (n2 - S j)) with j by lia. reflexivity.
        -- rewrite upd_other by lia. apply Hs; lia.
      * exists m2, ok. split; [exact E|]. split; [|exact K2]. rewrite K1. split.
        -- intros H i Hi. destruct (Nat.eq_dec i j) as [->|]; [exact Ek|apply H; lia].
        -- intros H i Hi. apply H. lia.
Qed.

Lemma periodic_spec m : arr m d nn D -> arr m vec nn V -> arr m ud nn U -> arr m ld nn L ->
  exists m' ok, periodic A size d ud ld vec s nn m = Some (m', ok) /\
    (ok = true <-> flt (fabs df) fepsv = false /\ forall i, i < n2 -> flt (fabs (qd i)) fepsv = false) /\
    (ok = true -> arr m' s (S nn) csol /\ m' (d + n2) = Some (qd n2)).
Proof.
  intros Hd Hv Hu Hl. unfold periodic. cbv zeta. destruct (Nat.ltb_spec nn 2); [lia|].
  replace (nn - 1) with (S n2) by lia. replace (nn - 2) with n2 by lia. replace (nn - 3) with (n2 - 1) by lia.
  rewrite (Hu (S n2)) by lia. cbn [bind]. rewrite (Hl 0) by lia. cbn [bind]. unfold lwr at 1. destruct (Nat.ltb_spec 0 (nn - 2)); [|lia]. cbn [bind].
  destruct (for_inv cyc_inv (pelim_body A size nn d ud ld vec) (n2 - 1) 0 (mkP A m (upd (fresh A) 0 (L 0)) (U (S n2)))) as ([m1 lc tm] & Ef & Jd & Jv & Ju & Jl & Jc & Jt).
  { unfold cyc_inv. cbn [pm plc ptemp]. split; [|split; [|split; [|split; [|split]]]].
    - intros j Hj. rewrite (Hd j Hj). destruct (Nat.leb_spec j 0); [replace j with 0 by lia; reflexivity|].
      destruct (Nat.eqb_spec j (S n2)); [subst; reflexivity|reflexivity].
    - intros j Hj. rewrite (Hv j Hj). destruct (Nat.leb_spec j 0); [replace j with 0 by lia; reflexivity|].
      destruct (Nat.eqb_spec j (S n2)); [subst; reflexivity|reflexivity].
    - exact Hu.
    - exact Hl.
    - intros j Hj. replace j with 0 by lia. apply upd_same.
    - reflexivity. }
  { intros j st _ Hj. apply cyc_step. lia. }
  cbn [pm plc ptemp Nat.add] in *. rewrite Ef. cbn [bind pm plc ptemp].
  destruct n2 as [|n3] eqn:En2; [lia|]. rewrite <- En2 in *. assert (E3 : n2 - 1 = n3) by lia. assert (E3' : S n3 = n2) by lia.
  rewrite E3 in *. replace (n3 + 1) with n2 by lia. replace (n2 + 1) with (S n2) by lia.
  pose proof (Jd n3 ltac:(lia)) as Ed. cbn beta in Ed. rewrite Nat.leb_refl in Ed.
  pose proof (Jv n3 ltac:(lia)) as Ev. cbn beta in Ev. rewrite Nat.leb_refl in Ev.
  pose proof (Jd n2 ltac:(lia)) as Ed1. cbn beta in Ed1. rewrite leb_f, eqb_f in Ed1 by lia.
  pose proof (Jv n2 ltac:(lia)) as Ev1. cbn beta in Ev1. rewrite leb_f, eqb_f in Ev1 by lia.
  pose proof (Jd (S n2) ltac:(lia)) as Edn. cbn beta in Edn. rewrite leb_f, Nat.eqb_refl in Edn by lia.
  pose proof (Jv (S n2) ltac:(lia)) as Evn. cbn beta in Evn. rewrite leb_f, Nat.eqb_refl in Evn by lia.
  pose proof (Ju n3 ltac:(lia)) as Eu. pose proof (Ju n2 ltac:(lia)) as Eu2. pose proof (Jl n2 ltac:(lia)) as El. pose proof (Jl (S n2) ltac:(lia)) as Eln.
  pose proof (Jc n3 ltac:(lia)) as Ec. cbn [Nat.add] in Ec.
  rewrite El. cbn [bind]. rewrite Ed. cbn [bind]. rewrite Eu. cbn [bind].
  rewrite (incr_ok _ _ _ (D n2)) by (first [exact Ed1|lia]). cbn [bind]. rewrite Ec. cbn [bind].
  rewrite (incr_ok _ _ _ (U n2)) by (try lia; rdx; exact Eu2). cbn [bind].
  rewrite upd_other by dj. rewrite upd_other by dj. rewrite Ev. cbn [bind].
  rewrite (incr_ok _ _ _ (V n2)) by (try lia; rdx; exact Ev1). cbn [bind].
  do 3 (rewrite upd_other by dj). rewrite Ed. cbn [bind]. do 3 (rewrite upd_other by dj). rewrite Eu. cbn [bind].
  rewrite (incr_ok _ _ _ (L (S n2))) by (try lia; rdx; exact Eln). cbn [bind].
  rewrite (incr_ok _ _ _ (qdn n3)) by (try lia; rdx; exact Edn). cbn [bind].
  do 5 (rewrite upd_other by dj). rewrite Ev. cbn [bind].
  rewrite (incr_ok _ _ _ (qvn n3)) by (try lia; rdx; exact Evn). cbn [bind].
  set (c1 := fdiv (fopp (L n2)) (qd n3)). subst tm. set (c2 := fdiv (fopp (qt n3)) (qd n3)).
  (* i = nn - 2 *)
  assert (Ele : fadd (L (S n2)) (fmul (U n3) c2) = le) by (unfold le; rewrite E3; reflexivity).
  assert (Eue : fadd (U n2) (fmul (qc n3) c1) = ue) by (unfold ue; rewrite E3; reflexivity).
  assert (Eqd : fadd (D n2) (fmul (U n3) c1) = qd n2) by (unfold c1, c2; rewrite <- E3'; reflexivity).
  assert (Eqv : fadd (V n2) (fmul (qv n3) c1) = qv n2) by (unfold c1, c2; rewrite <- E3'; reflexivity).
  assert (Eqdn : fadd (qdn n3) (fmul (qc n3) c2) = qdn n2) by (unfold c1, c2; rewrite <- E3'; reflexivity).
  assert (Eqvn : fadd (qvn n3) (fmul (qv n3) c2) = qvn n2) by (unfold c1, c2; rewrite <- E3'; reflexivity).
  rewrite Ele, Eue, Eqd, Eqv, Eqdn, Eqvn.
  match goal with |- context [bind (?mx (ld + S n2)) _] => set (m7 := mx) end.
  assert (Kd : forall j, j <= n2 -> m7 (d + j) = Some (qd j)).
  { intros j Hj. unfold m7. do 2 (rewrite upd_other by dj). do 2 (rewrite upd_other by dj). rewrite upd_other by dj.
    destruct (Nat.eq_dec j n2) as [->|Hn]; [apply upd_same|]. rewrite upd_other by lia. rewrite (Jd j ltac:(lia)). cbn beta.
    destruct (Nat.leb_spec j n3); [reflexivity|lia]. }
  assert (Kv : forall j, j <= n2 -> m7 (vec + j) = Some (qv j)).
  { intros j Hj. unfold m7. do 3 (rewrite upd_other by dj).
    destruct (Nat.eq_dec j n2) as [->|Hn]; [apply upd_same|]. do 3 (rewrite upd_other by dj). rewrite (Jv j ltac:(lia)). cbn beta.
    destruct (Nat.leb_spec j n3); [reflexivity|lia]. }
  assert (Kdn : m7 (d + S n2) = Some (qdn n2)) by (unfold m7; rewrite upd_other by dj; apply upd_same).
  assert (Kvn : m7 (vec + S n2) = Some (qvn n2)) by (unfold m7; apply upd_same).
  assert (Ku : forall j, j < n2 -> m7 (ud + j) = Some (U j)) by (intros j Hj; unfold m7; rdx; apply Ju; lia).
  assert (Kue : m7 (ud + n2) = Some ue) by (unfold m7; do 4 (rewrite upd_other by dj); apply upd_same).
  assert (Kle : m7 (ld + S n2) = Some le) by (unfold m7; do 2 (rewrite upd_other by dj); apply upd_same).
  clearbody m7. clear Ed Ev Ed1 Ev1 Edn Evn Eu Eu2 El Eln Ec Jd Jv Ju Jl.
  rewrite Kle. cbn [bind]. rewrite (Kd n2) by lia. cbn [bind]. rewrite Kue. cbn [bind].
  rewrite (incr_ok _ _ _ (qdn n2)) by (first [exact Kdn|lia]). cbn [bind]. rewrite upd_other by dj. rewrite (Kv n2) by lia. cbn [bind].
  rewrite (incr_ok _ _ _ (qvn n2)) by (try lia; rdx; exact Kvn). cbn [bind].
  fold df. fold vf. rewrite upd_same. cbn [bind]. rewrite upd_other by dj. rewrite upd_same. cbn [bind].
  rewrite wr_ok by lia. cbn [bind]. destruct (flt (fabs df) fepsv) eqn:Edf.
  { eexists _, false. split; [reflexivity|]. split; [|discriminate]. split; [discriminate|]. intros [X _]. discriminate. }
  fold xn.
  match goal with |- context [bind (?mx (vec + n2)) _] => set (m8 := mx) end.
  assert (Pd : arr m8 d (S n2) qd).
  { intros j Hj. unfold m8. rewrite upd_other by dj. rewrite upd_other by dj. rewrite upd_other by lia. apply Kd. lia. }
  assert (Pv : arr m8 vec (S n2) qv).
  { intros j Hj. unfold m8. rewrite upd_other by dj. rewrite upd_other by lia. rewrite upd_other by dj. apply Kv. lia. }
  assert (Pu : arr m8 ud n2 U) by (intros j Hj; unfold m8; rdx; apply Ku; lia).
  assert (Pue : m8 (ud + n2) = Some ue) by (unfold m8; rdx; exact Kue).
  assert (Px : m8 (s + nn) = Some xn) by (unfold m8; apply upd_same).
  clearbody m8. rewrite (Pv n2) by lia. cbn [bind]. rewrite Px. cbn [bind]. rewrite Pue. cbn [bind]. rewrite (Pd n2) by lia. cbn [bind].
  rewrite wr_ok by lia. cbn [bind]. set (m9 := upd m8 (s + S n2) _).
  destruct (pback_spec lc n2 (le_n _)) with (m := m9) as (m' & ok & E & K1 & K2).
  - intros j Hj. apply Jc. lia.
  - intros j Hj. unfold m9. rewrite upd_other by dj. now apply Pd.
  - intros j Hj. unfold m9. rewrite upd_other by dj. now apply Pv.
  - intros j Hj. unfold m9. rewrite upd_other by dj. now apply Pu.
  - intros i Hi1 Hi2. unfold m9, csol. rewrite (eqb_f i 0) by lia. destruct (Nat.eqb_spec i nn) as [->|Hn].
    + rewrite upd_other by lia. exact Px.
    + replace i with (S n2) by lia. rewrite upd_same, Nat.sub_diag. reflexivity.
  - rewrite E. cbn [bind]. destruct ok.
    + destruct (K2 eq_refl) as (Q & Qd). rewrite (Q nn) by lia. cbn [bind]. rewrite wr_ok by lia. cbn [bind].
      eexists _, true. split; [reflexivity|]. split; [split; [intros _; split; [reflexivity|now apply K1]|reflexivity]|].
      intros _. split.
      * intros i Hi. destruct (Nat.eq_dec i 0) as [->|Hn]; [rewrite upd_same; unfold csol; now rewrite Nat.eqb_refl|].
        rewrite upd_other by lia. apply Q; lia.
      * rewrite upd_other by dj. exact Qd.
    + eexists _, false. split; [reflexivity|]. split; [|discriminate]. split; [discriminate|]. intros [_ H2]. now apply K1.
Qed.
End cyc.
End gen.
