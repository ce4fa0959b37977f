(** The memory of LRTRSR1 through a run, any arithmetic. *)
From Coq Require Import QArith List Bool Arith Lia.
From Verif Require Import Arith QuasiNewtonModel QuasiNewtonSpec QNMemProofs LSR1Model LSR1Spec.
Import ListNotations.
Local Open Scope nat_scope.

Lemma bnd_some {X Y} (o : option X) (x : X) (f : X -> option Y) : o = Some x -> bnd o f = f x.
Proof. now intros ->. Qed.

Section mem.
Context {A : arith} (G : qspace A) (L : nat) (restart : bool).
Notation V := (QV A G). Notation F := (F A).
Notation smem := (smem A G).
Notation met := (qmet A G).
Local Notation slen := (slen A G). Local Notation sbeg := (sbeg A G). Local Notation sgam := (sgam A G).
Local Notation sS := (sS A G). Local Notation sY := (sY A G). Local Notation sSS := (sSS A G). Local Notation sSY := (sSY A G).
Local Notation cell := (cell A L). Local Notation wcell := (wcell A L).
Hypothesis met_sym : forall v w, met v w = met w v.

(** ** Cells *)
Lemma pos_inj i j i' j' : i < L -> i' < L -> i + j * L = i' + j' * L -> i = i' /\ j = j'.
Proof.
  intros H H' E. assert (j = j'); [|subst; lia].
  destruct (Nat.lt_trichotomy j j') as [K|[K|K]]; [|exact K|].
  - assert (S j * L <= j' * L) by (apply Nat.mul_le_mono_r; lia). lia.
  - assert (S j' * L <= j * L) by (apply Nat.mul_le_mono_r; lia). lia.
Qed.
Lemma pos_lt i j : i < L -> j < L -> i + j * L < L * L.
Proof. intros H K. assert (S j * L <= L * L) by (apply Nat.mul_le_mono_r; lia). lia. Qed.

Lemma wcell_ok t i j v : length t = L * L -> i < L -> j < L ->
  exists t', wcell t i j v = Some t' /\ length t' = L * L /\
  forall i' j', i' < L -> cell t' i' j' = if (i' =? i) && (j' =? j) then Some v else cell t i' j'.
Proof.
  intros Ht Hi Hj. unfold LSR1Model.wcell.
  destruct (rd_wr_ok t (i + j * L) v) as [t' E]; [rewrite Ht; now apply pos_lt|].
  exists t'. split; [exact E|]. split; [now rewrite (wr_length _ _ _ _ E)|].
  intros i' j' Hi'. unfold LSR1Model.cell. rewrite (rd_wr _ _ _ _ _ E).
  destruct (Nat.eqb_spec (i' + j' * L) (i + j * L)) as [Ee|Ee].
  - apply pos_inj in Ee as [-> ->]; auto. now rewrite !Nat.eqb_refl.
  - destruct (Nat.eqb_spec i' i) as [->|]; [|reflexivity]. destruct (Nat.eqb_spec j' j) as [->|]; [|reflexivity]. now elim Ee.
Qed.

(** ** The invariant *)
Definition at_ (cs : list (V * V)) i s y := nth_error cs i = Some (s, y).
Record sholds (m : smem) (cs : list (V * V)) : Prop := {
  k_S : length (sS m) = L; k_Y : length (sY m) = L;
  k_SS : length (sSS m) = L * L; k_SY : length (sSY m) = L * L;
  k_len : slen m = length cs; k_le : slen m <= L;
  k_beg : sbeg m = 0 \/ (sbeg m < L /\ slen m = L);
  k_restart : restart = true -> sbeg m = 0;
  k_s : forall i s y, at_ cs i s y -> rd (sS m) ((sbeg m + i) mod L) = Some s;
  k_y : forall i s y, at_ cs i s y -> rd (sY m) ((sbeg m + i) mod L) = Some y;
  k_ss : forall i j s y s' y', at_ cs i s y -> at_ cs j s' y' -> cell (sSS m) i j = Some (met s s');
  k_sy : forall i j s y s' y', at_ cs i s y -> at_ cs j s' y' -> j <= i ->
         cell (sSY m) i j = Some (met s y') /\ cell (sSY m) j i = Some (met s y')
}.

Lemma at_lt cs i s y : at_ cs i s y -> i < length cs.
Proof. intros H. apply nth_error_Some. unfold at_ in H. now rewrite H. Qed.
Lemma at_ex cs i : i < length cs -> exists s y, at_ cs i s y.
Proof. intros H. destruct (nth_error cs i) as [[s y]|] eqn:E; [eauto|]. apply nth_error_None in E. lia. Qed.

Lemma gam_holds m cs g : sholds m cs -> sholds (set_sgam A G m g) cs.
Proof. intros []. now split. Qed.
Lemma upd_holds m cs u : sholds m cs -> sholds (set_supd A G m u) cs.
Proof. intros []. now split. Qed.

(** ** Appending *)
Definition crossed (m : smem) n i (ss sy : list (option F)) : Prop :=
  forall j s y sn, j < i -> rd (sS m) j = Some s -> rd (sY m) j = Some y -> rd (sS m) n = Some sn ->
  cell ss n j = Some (met sn s) /\ cell ss j n = Some (met sn s) /\
  cell sy n j = Some (met sn y) /\ cell sy j n = Some (met sn y).

Lemma new_row_spec m n k : n < L -> forall i ss sy, i + k = n -> length ss = L * L -> length sy = L * L ->
  (forall j, j <= n -> exists s, rd (sS m) j = Some s) -> (forall j, j <= n -> exists y, rd (sY m) j = Some y) ->
  crossed m n i ss sy ->
  exists ss' sy', new_row A G L m n k i ss sy = Some (ss', sy') /\ length ss' = L * L /\ length sy' = L * L /\
  crossed m n n ss' sy' /\
  forall a b, a < L -> (a <> n /\ b <> n \/ a = n /\ b = n) -> cell ss' a b = cell ss a b /\ cell sy' a b = cell sy a b.
Proof.
  intros Hn. induction k as [|k IH]; intros i ss sy Hik Ls Ly HS HY Hc.
  - exists ss, sy. cbn. replace n with i by lia. repeat (split; [solve [auto]|]).
    split; [|auto]. replace n with i in Hc by lia. exact Hc.
  - cbn [new_row]. destruct (HS n (le_n _)) as [sn En]. destruct (HS i ltac:(lia)) as [si Ei]. destruct (HY i ltac:(lia)) as [yi Fi].
    rewrite (bnd_some _ _ _ En), (bnd_some _ _ _ Ei), (bnd_some _ _ _ Fi).
    destruct (wcell_ok ss n i (met sn si) Ls Hn ltac:(lia)) as (s1 & E1 & L1 & C1). rewrite (bnd_some _ _ _ E1).
    rewrite (bnd_some _ (met sn si)) by (rewrite C1 by lia; now rewrite !Nat.eqb_refl).
    destruct (wcell_ok s1 i n (met sn si) L1 ltac:(lia) Hn) as (s2 & E2 & L2 & C2). rewrite (bnd_some _ _ _ E2).
    destruct (wcell_ok sy n i (met sn yi) Ly Hn ltac:(lia)) as (t1 & F1 & M1 & D1). rewrite (bnd_some _ _ _ F1).
    rewrite (bnd_some _ (met sn yi)) by (rewrite D1 by lia; now rewrite !Nat.eqb_refl).
    destruct (wcell_ok t1 i n (met sn yi) M1 ltac:(lia) Hn) as (t2 & F2 & M2 & D2). rewrite (bnd_some _ _ _ F2).
    assert (Ein : (i =? n) = false) by (apply Nat.eqb_neq; lia). assert (Eni : (n =? i) = false) by (apply Nat.eqb_neq; lia).
    destruct (IH (S i) s2 t2) as (ss' & sy' & E & K1 & K2 & K3 & K4); auto; try lia.
    { intros j s y sn' Hj Hs Hy Hsn. rewrite En in Hsn. injection Hsn as <-.
      rewrite !C2, !D2, !C1, !D1 by lia. destruct (Nat.eq_dec j i) as [->|Hne].
      - rewrite Ei in Hs. injection Hs as <-. rewrite Fi in Hy. injection Hy as <-. rewrite !Nat.eqb_refl, Ein, Eni. cbn. auto.
      - destruct (Hc j s y sn ltac:(lia) Hs Hy En) as (H1 & H2 & H3 & H4).
        assert (Eji : (j =? i) = false) by (apply Nat.eqb_neq; lia). assert (Ejn : (j =? n) = false) by (apply Nat.eqb_neq; lia).
        rewrite ?Eji, ?Ejn, ?Eni, ?andb_false_r, ?andb_false_l. auto. }
    exists ss', sy'. split; [exact E|]. split; [exact K1|]. split; [exact K2|]. split; [exact K3|].
    intros a b Ha Hab. destruct (K4 a b Ha Hab) as [-> ->].
    rewrite C2, C1, D2, D1 by assumption.
    destruct Hab as [[H1 H2]|[-> ->]].
    + apply Nat.eqb_neq in H1, H2. rewrite H1, H2, !andb_false_r, andb_false_l. auto.
    + rewrite Eni, !andb_false_r, andb_false_l. auto.
Qed.

Lemma append_spec m cs s y : sholds m cs -> slen m < L ->
  exists m', append_pair A G L m s y = Some m' /\ sholds m' (cs ++ [(s, y)]) /\ sgam m' = sgam m /\ supd A G m' = supd A G m.
Proof.
  intros H Hlt. set (n := slen m) in *. pose proof (k_len _ _ H) as Hlen. fold n in Hlen.
  assert (B0 : sbeg m = 0) by (destruct (k_beg _ _ H) as [?|[? E]]; [assumption|fold n in E; lia]).
  unfold append_pair. fold n.
  destruct (rd_wr_ok (sS m) n s) as [S' ES]; [rewrite (k_S _ _ H); lia|]. rewrite (bnd_some _ _ _ ES).
  destruct (rd_wr_ok (sY m) n y) as [Y' EY]; [rewrite (k_Y _ _ H); lia|]. rewrite (bnd_some _ _ _ EY).
  assert (RS : forall j, rd S' j = if j =? n then Some s else rd (sS m) j) by (intros; now apply rd_wr).
  assert (RY : forall j, rd Y' j = if j =? n then Some y else rd (sY m) j) by (intros; now apply rd_wr).
  assert (Ls : length S' = L) by (rewrite (wr_length _ _ _ _ ES); apply H).
  assert (Ly : length Y' = L) by (rewrite (wr_length _ _ _ _ EY); apply H). clear ES EY.
  assert (Sn : rd S' n = Some s) by now rewrite RS, Nat.eqb_refl.
  assert (Yn : rd Y' n = Some y) by now rewrite RY, Nat.eqb_refl.
  rewrite (bnd_some _ _ _ Sn), (bnd_some _ _ _ Yn). cbn [LSR1Model.sSS LSR1Model.sSY].
  destruct (wcell_ok (sSS m) n n (met s s) (k_SS _ _ H) Hlt Hlt) as (s1 & E1 & L1 & C1). rewrite (bnd_some _ _ _ E1).
  destruct (wcell_ok (sSY m) n n (met s y) (k_SY _ _ H) Hlt Hlt) as (t1 & F1 & M1 & D1). rewrite (bnd_some _ _ _ F1).
  set (m1 := mkSmem A G S' Y' (sSS m) (sSY m) n (sbeg m) (sgam m) (supd A G m)).
  assert (old : forall j a b, at_ cs j a b -> rd S' j = Some a /\ rd Y' j = Some b).
  { intros j a b Hj. pose proof (at_lt _ _ _ _ Hj) as Hl. rewrite RS, RY.
    assert ((j =? n) = false) as -> by (apply Nat.eqb_neq; lia).
    pose proof (k_s _ _ H _ _ _ Hj) as K1. pose proof (k_y _ _ H _ _ _ Hj) as K2. rewrite B0, Nat.mod_small in K1, K2 by lia. auto. }
  assert (exS : forall j, j <= n -> exists v, rd S' j = Some v).
  { intros j Hj. destruct (Nat.eq_dec j n) as [->|]; [eauto|]. destruct (at_ex cs j) as (a & b & Hab); [lia|]. apply old in Hab. exists a. apply Hab. }
  assert (exY : forall j, j <= n -> exists v, rd Y' j = Some v).
  { intros j Hj. destruct (Nat.eq_dec j n) as [->|]; [eauto|]. destruct (at_ex cs j) as (a & b & Hab); [lia|]. apply old in Hab. exists b. apply Hab. }
  destruct (new_row_spec m1 n n Hlt 0 s1 t1) as (ss & sy & E & K1 & K2 & K3 & K4); auto.
  { intros j a b sn Hj. lia. }
  rewrite (bnd_some _ _ _ E). eexists. split; [reflexivity|]. split; [|split; reflexivity]. cbn.
  assert (atc : forall i a b, at_ (cs ++ [(s, y)]) i a b -> (i < n /\ at_ cs i a b) \/ (i = n /\ a = s /\ b = y)).
  { intros i a b. unfold at_. destruct (Nat.lt_ge_cases i n) as [Hi|Hi].
    - rewrite nth_error_app1 by lia. auto.
    - rewrite nth_error_app2 by lia. destruct (i - length cs) as [|q] eqn:Eq; [|destruct q; discriminate].
      cbn. intros [= <- <-]. right. split; [lia|auto]. }
  assert (rdS : forall i a b, at_ (cs ++ [(s, y)]) i a b -> rd S' i = Some a /\ rd Y' i = Some b).
  { intros i a b [[_ Hi]|(-> & -> & ->)]%atc; [now apply old|auto]. }
  assert (lts : forall i a b, at_ (cs ++ [(s, y)]) i a b -> i <= n).
  { intros i a b [[Hi _]|(-> & _)]%atc; lia. }
  split; cbn; auto; try lia.
  - rewrite app_length. cbn. lia.
  - intros i a b Hi. pose proof (lts _ _ _ Hi). rewrite B0. cbn [Nat.add]. rewrite Nat.mod_small by lia. apply (rdS _ _ _ Hi).
  - intros i a b Hi. pose proof (lts _ _ _ Hi). rewrite B0. cbn [Nat.add]. rewrite Nat.mod_small by lia. apply (rdS _ _ _ Hi).
  - intros i j a b a' b' Hi Hj. pose proof (lts _ _ _ Hi) as Li. pose proof (lts _ _ _ Hj) as Lj.
    destruct (atc _ _ _ Hi) as [[Hi1 Hi2]|(-> & -> & ->)], (atc _ _ _ Hj) as [[Hj1 Hj2]|(-> & -> & ->)].
    + destruct (K4 i j ltac:(lia) ltac:(lia)) as [-> _]. rewrite C1 by lia.
      assert ((i =? n) = false) as -> by (apply Nat.eqb_neq; lia). cbn. now apply (k_ss _ _ H _ _ _ _ _ _ Hi2 Hj2).
    + destruct (old _ _ _ Hi2). destruct (K3 i a b s Hi1) as (_ & -> & _); auto. now rewrite met_sym.
    + destruct (old _ _ _ Hj2). destruct (K3 j a' b' s Hj1) as (-> & _); auto.
    + destruct (K4 n n ltac:(lia) ltac:(lia)) as [-> _]. rewrite C1, Nat.eqb_refl by lia. reflexivity.
  - intros i j a b a' b' Hi Hj Hji. pose proof (lts _ _ _ Hi) as Li. pose proof (lts _ _ _ Hj) as Lj.
    destruct (atc _ _ _ Hi) as [[Hi1 Hi2]|(-> & -> & ->)], (atc _ _ _ Hj) as [[Hj1 Hj2]|(-> & -> & ->)].
    + destruct (K4 i j ltac:(lia) ltac:(lia)) as [_ ->]. destruct (K4 j i ltac:(lia) ltac:(lia)) as [_ ->]. rewrite !D1 by lia.
      assert ((i =? n) = false) as -> by (apply Nat.eqb_neq; lia). assert ((j =? n) = false) as -> by (apply Nat.eqb_neq; lia).
      cbn. now apply (k_sy _ _ H _ _ _ _ _ _ Hi2 Hj2).
    + lia.
    + destruct (old _ _ _ Hj2). destruct (K3 j a' b' s Hj1) as (_ & _ & -> & ->); auto.
    + destruct (K4 n n ltac:(lia) ltac:(lia)) as [_ ->]. rewrite D1, Nat.eqb_refl by lia. auto.
Qed.

(** ** Replacing the oldest *)
Lemma shift_row_spec i k : i + 1 < L -> forall j t, j + k = L - 1 -> length t = L * L ->
  (forall a b, a < L -> b < L -> exists v, cell t a b = Some v) ->
  exists t', shift_row A L i k j t = Some t' /\ length t' = L * L /\
  (forall a b, a < L -> b < L -> exists v, cell t' a b = Some v) /\
  (forall b, j <= b -> b < L - 1 -> cell t' i b = cell t (i + 1) (b + 1)) /\
  (forall b, b < j -> cell t' i b = cell t i b) /\
  (forall a b, a < L -> a <> i -> cell t' a b = cell t a b).
Proof.
  intros Hi. induction k as [|k IH]; intros j t Hjk Lt Hall.
  - exists t. cbn. repeat (split; [solve [auto]|]). split; [intros b ? ?; lia|]. auto.
  - cbn [shift_row]. destruct (Hall (i + 1) (j + 1) ltac:(lia) ltac:(lia)) as [v Ev]. rewrite (bnd_some _ _ _ Ev).
    destruct (wcell_ok t i j v Lt ltac:(lia) ltac:(lia)) as (t1 & E1 & L1 & C1). rewrite (bnd_some _ _ _ E1).
    destruct (IH (S j) t1) as (t' & E & K1 & K2 & K3 & K4 & K5); auto; try lia.
    { intros a b Ha Hb. rewrite C1 by assumption. destruct ((a =? i) && (b =? j)); eauto. }
    exists t'. split; [exact E|]. split; [exact K1|]. split; [exact K2|]. split; [|split].
    + intros b Hb1 Hb2. destruct (Nat.eq_dec b j) as [->|Hne].
      * rewrite K4 by lia. rewrite C1, !Nat.eqb_refl by lia. cbn. now rewrite Ev.
      * rewrite K3 by lia. rewrite C1 by lia. assert ((i + 1 =? i) = false) as -> by (apply Nat.eqb_neq; lia). reflexivity.
    + intros b Hb. rewrite K4 by lia. rewrite C1 by lia. assert ((b =? j) = false) as -> by (apply Nat.eqb_neq; lia). now rewrite andb_false_r.
    + intros a b Ha Hne. rewrite K5 by auto. rewrite C1 by auto. apply Nat.eqb_neq in Hne. now rewrite Hne.
Qed.

Lemma shift_rows_spec k : forall i t, i + k = L - 1 -> length t = L * L ->
  (forall a b, a < L -> b < L -> exists v, cell t a b = Some v) ->
  exists t', shift_rows A L k i t = Some t' /\ length t' = L * L /\
  (forall a b, a < L -> b < L -> exists v, cell t' a b = Some v) /\
  (forall a b, i <= a -> a < L - 1 -> b < L - 1 -> cell t' a b = cell t (a + 1) (b + 1)) /\
  (forall a b, a < i -> a < L -> cell t' a b = cell t a b).
Proof.
  induction k as [|k IH]; intros i t Hik Lt Hall.
  - exists t. cbn. repeat (split; [solve [auto]|]). split; [intros; lia|auto].
  - cbn [shift_rows].
    destruct (shift_row_spec i (L - 1) ltac:(lia) 0 t) as (t1 & E1 & L1 & A1 & R1 & _ & O1); auto; try lia.
    rewrite (bnd_some _ _ _ E1).
    destruct (IH (S i) t1) as (t' & E & K1 & K2 & K3 & K4); auto; try lia.
    exists t'. split; [exact E|]. split; [exact K1|]. split; [exact K2|]. split.
    + intros a b Ha1 Ha2 Hb. destruct (Nat.eq_dec a i) as [->|Hne].
      * rewrite K4 by lia. apply R1; lia.
      * rewrite K3 by lia. apply O1; lia.
    + intros a b Ha HaL. rewrite K4 by lia. apply O1; lia.
Qed.

Definition bordered (m : smem) i (ss sy : list (option F)) : Prop :=
  forall j s y sb, j < i -> rd (sS m) ((j + sbeg m + 1) mod L) = Some s -> rd (sY m) ((j + sbeg m + 1) mod L) = Some y ->
  rd (sS m) (sbeg m) = Some sb ->
  cell ss (L - 1) j = Some (met s sb) /\ cell ss j (L - 1) = Some (met s sb) /\
  cell sy (L - 1) j = Some (met y sb) /\ cell sy j (L - 1) = Some (met y sb).

Lemma last_row_spec m k : forall i ss sy, 0 < L -> i + k = L - 1 -> length ss = L * L -> length sy = L * L ->
  (forall j, j < L -> exists s, rd (sS m) j = Some s) -> (forall j, j < L -> exists y, rd (sY m) j = Some y) ->
  sbeg m < L -> bordered m i ss sy ->
  exists ss' sy', last_row A G L m k i ss sy = Some (ss', sy') /\ length ss' = L * L /\ length sy' = L * L /\
  bordered m (L - 1) ss' sy' /\
  forall a b, a < L -> (a <> L - 1 /\ b <> L - 1 \/ a = L - 1 /\ b = L - 1) -> cell ss' a b = cell ss a b /\ cell sy' a b = cell sy a b.
Proof.
  induction k as [|k IH]; intros i ss sy HL Hik Ls Ly HS HY Hb Hc.
  - exists ss, sy. cbn. repeat (split; [solve [auto]|]). replace (L - 1) with i by lia. auto.
  - cbn [last_row]. set (idx := (i + sbeg m + 1) mod L).
    assert (Hidx : idx < L) by (apply Nat.mod_upper_bound; lia).
    destruct (HS idx Hidx) as [si Ei]. destruct (HY idx Hidx) as [yi Fi]. destruct (HS (sbeg m) Hb) as [sb Eb].
    rewrite (bnd_some _ _ _ Ei), (bnd_some _ _ _ Fi), (bnd_some _ _ _ Eb).
    set (n := L - 1) in *. assert (Hn : n < L) by lia.
    destruct (wcell_ok ss i n (met si sb) Ls ltac:(lia) Hn) as (s1 & E1 & L1 & C1). rewrite (bnd_some _ _ _ E1).
    rewrite (bnd_some _ (met si sb)) by (rewrite C1 by lia; now rewrite !Nat.eqb_refl).
    destruct (wcell_ok s1 n i (met si sb) L1 Hn ltac:(lia)) as (s2 & E2 & L2 & C2). rewrite (bnd_some _ _ _ E2).
    destruct (wcell_ok sy i n (met yi sb) Ly ltac:(lia) Hn) as (t1 & F1 & M1 & D1). rewrite (bnd_some _ _ _ F1).
    rewrite (bnd_some _ (met yi sb)) by (rewrite D1 by lia; now rewrite !Nat.eqb_refl).
    destruct (wcell_ok t1 n i (met yi sb) M1 Hn ltac:(lia)) as (t2 & F2 & M2 & D2). rewrite (bnd_some _ _ _ F2).
    assert (Ein : (i =? n) = false) by (apply Nat.eqb_neq; lia). assert (Eni : (n =? i) = false) by (apply Nat.eqb_neq; lia).
    destruct (IH (S i) s2 t2) as (ss' & sy' & E & K1 & K2 & K3 & K4); auto; try lia.
    { intros j s y sb' Hj Hs Hy Hsb. fold n. rewrite Eb in Hsb. injection Hsb as <-.
      rewrite !C2, !D2, !C1, !D1 by lia. destruct (Nat.eq_dec j i) as [->|Hne].
      - fold idx in Hs, Hy. rewrite Ei in Hs. injection Hs as <-. rewrite Fi in Hy. injection Hy as <-. rewrite !Nat.eqb_refl, Ein, Eni. cbn. auto.
      - destruct (Hc j s y sb ltac:(lia) Hs Hy Eb) as (H1 & H2 & H3 & H4). fold n in H1, H2, H3, H4.
        assert (Eji : (j =? i) = false) by (apply Nat.eqb_neq; lia). assert (Ejn : (j =? n) = false) by (apply Nat.eqb_neq; lia).
        rewrite ?Eji, ?Ejn, ?Eni, ?andb_false_r, ?andb_false_l. auto. }
    exists ss', sy'. split; [exact E|]. split; [exact K1|]. split; [exact K2|]. split; [exact K3|].
    intros a b Ha Hab. destruct (K4 a b Ha Hab) as [-> ->].
    rewrite C2, C1, D2, D1 by assumption.
    destruct Hab as [[H1 H2]|[-> ->]].
    + apply Nat.eqb_neq in H1, H2. rewrite H1, H2, !andb_false_r, andb_false_l. auto.
    + rewrite Eni, !andb_false_r, andb_false_l. auto.
Qed.

Lemma wrap b j : b < L -> j < L -> exists i, i < L /\ (b + i) mod L = j.
Proof.
  intros Hb Hj. destruct (Nat.lt_ge_cases j b).
  - exists (j + L - b). split; [lia|]. rewrite mod_cases by lia. destruct (Nat.ltb_spec (b + (j + L - b)) L); lia.
  - exists (j - b). split; [lia|]. rewrite mod_cases by lia. destruct (Nat.ltb_spec (b + (j - b)) L); lia.
Qed.

Lemma replace_spec m cs s y : sholds m cs -> slen m = L -> 0 < L -> restart = false ->
  exists m', replace_pair A G L m s y = Some m' /\ sholds m' (tl cs ++ [(s, y)]) /\ sgam m' = sgam m /\ supd A G m' = supd A G m.
Proof.
  intros H Hfull HL Rs. pose proof (k_len _ _ H) as Hlen.
  assert (Hb : sbeg m < L) by (destruct (k_beg _ _ H) as [->|[]]; lia).
  set (b := sbeg m) in *. unfold replace_pair. fold b.
  destruct (rd_wr_ok (sS m) b s) as [S' ES]; [rewrite (k_S _ _ H); lia|]. rewrite (bnd_some _ _ _ ES).
  destruct (rd_wr_ok (sY m) b y) as [Y' EY]; [rewrite (k_Y _ _ H); lia|]. rewrite (bnd_some _ _ _ EY).
  assert (RS : forall j, rd S' j = if j =? b then Some s else rd (sS m) j) by (intros; now apply rd_wr).
  assert (RY : forall j, rd Y' j = if j =? b then Some y else rd (sY m) j) by (intros; now apply rd_wr).
  assert (Ls : length S' = L) by (rewrite (wr_length _ _ _ _ ES); apply H).
  assert (Ly : length Y' = L) by (rewrite (wr_length _ _ _ _ EY); apply H). clear ES EY.
  cbn [LSR1Model.sSS LSR1Model.sSY].
  assert (allss : forall i j, i < L -> j < L -> exists v, cell (sSS m) i j = Some v).
  { intros i j Hi Hj. destruct (at_ex cs i ltac:(lia)) as (a & c & Ha). destruct (at_ex cs j ltac:(lia)) as (a' & c' & Ha').
    exists (met a a'). now apply (k_ss _ _ H _ _ _ _ _ _ Ha Ha'). }
  assert (allsy : forall i j, i < L -> j < L -> exists v, cell (sSY m) i j = Some v).
  { intros i j Hi Hj. destruct (at_ex cs i ltac:(lia)) as (a & c & Ha). destruct (at_ex cs j ltac:(lia)) as (a' & c' & Ha').
    destruct (Nat.le_ge_cases j i) as [Hji|Hji].
    - destruct (k_sy _ _ H _ _ _ _ _ _ Ha Ha' Hji) as [-> _]. eauto.
    - destruct (k_sy _ _ H _ _ _ _ _ _ Ha' Ha Hji) as [_ ->]. eauto. }
  destruct (shift_rows_spec (L - 1) 0 (sSS m)) as (s0 & E0 & L0 & _ & C0 & _); auto; [apply H|]. rewrite (bnd_some _ _ _ E0).
  destruct (shift_rows_spec (L - 1) 0 (sSY m)) as (t0 & F0 & M0 & _ & D0 & _); auto; [apply H|]. rewrite (bnd_some _ _ _ F0).
  assert (Sb : rd S' b = Some s) by now rewrite RS, Nat.eqb_refl.
  assert (Yb : rd Y' b = Some y) by now rewrite RY, Nat.eqb_refl.
  rewrite (bnd_some _ _ _ Sb), (bnd_some _ _ _ Yb).
  set (n := L - 1) in *. assert (Hn : n < L) by lia.
  replace (L * L - 1) with (n + n * L) by (unfold n; nia).
  change (wr s0 (n + n * L) (met s s)) with (wcell s0 n n (met s s)). change (wr t0 (n + n * L) (met s y)) with (wcell t0 n n (met s y)).
  destruct (wcell_ok s0 n n (met s s) L0 Hn Hn) as (s1 & E1 & L1 & C1). rewrite (bnd_some _ _ _ E1).
  destruct (wcell_ok t0 n n (met s y) M0 Hn Hn) as (t1 & F1 & M1 & D1). rewrite (bnd_some _ _ _ F1).
  set (m1 := mkSmem A G S' Y' (sSS m) (sSY m) (slen m) b (sgam m) (supd A G m)).
  assert (fst_cs : exists a c, at_ cs 0 a c) by (apply at_ex; lia).
  assert (idx : forall i, i < n -> (i + b + 1) mod L = (b + S i) mod L) by (intros; f_equal; lia).
  assert (nb : forall i, i < n -> (b + S i) mod L <> b).
  { intros i Hi E. assert (E2 : (b + S i) mod L = (b + 0) mod L) by (rewrite E, Nat.add_0_r, Nat.mod_small; auto). apply mod_inj in E2; lia. }
  assert (old : forall i a c, at_ cs (S i) a c -> rd S' ((b + S i) mod L) = Some a /\ rd Y' ((b + S i) mod L) = Some c).
  { intros i a c Hi. pose proof (at_lt _ _ _ _ Hi) as Hl. rewrite RS, RY.
    assert (((b + S i) mod L =? b) = false) as -> by (apply Nat.eqb_neq, nb; lia).
    split; [apply (k_s _ _ H _ _ _ Hi)|apply (k_y _ _ H _ _ _ Hi)]. }
  assert (exS : forall j, j < L -> exists v, rd S' j = Some v).
  { intros j Hj. destruct (wrap b j Hb Hj) as (i & Hi & <-). destruct i as [|i].
    - rewrite Nat.add_0_r, Nat.mod_small by lia. eauto.
    - destruct (at_ex cs (S i)) as (a & c & Hac); [lia|]. apply old in Hac. exists a. apply Hac. }
  assert (exY : forall j, j < L -> exists v, rd Y' j = Some v).
  { intros j Hj. destruct (wrap b j Hb Hj) as (i & Hi & <-). destruct i as [|i].
    - rewrite Nat.add_0_r, Nat.mod_small by lia. eauto.
    - destruct (at_ex cs (S i)) as (a & c & Hac); [lia|]. apply old in Hac. exists c. apply Hac. }
  destruct (last_row_spec m1 n 0 s1 t1) as (ss & sy & E & K1 & K2 & K3 & K4); auto.
  { intros j a c sb Hj. lia. }
  rewrite (bnd_some _ _ _ E). eexists. split; [reflexivity|]. split; [|split; reflexivity]. cbn.
  assert (K5 : forall j a c, j < n -> rd S' ((b + S j) mod L) = Some a -> rd Y' ((b + S j) mod L) = Some c ->
    cell ss n j = Some (met a s) /\ cell ss j n = Some (met a s) /\ cell sy n j = Some (met c s) /\ cell sy j n = Some (met c s)).
  { intros j a c Hj Ha Hc. apply (K3 j a c s); cbn; rewrite ?idx by lia; auto. }
  assert (Ltl : length (tl cs) = n) by (destruct cs; cbn in *; lia).
  assert (atc : forall i a c, at_ (tl cs ++ [(s, y)]) i a c -> (i < n /\ at_ cs (S i) a c) \/ (i = n /\ a = s /\ c = y)).
  { intros i a c. unfold at_. destruct (Nat.lt_ge_cases i n) as [Hi|Hi].
    - rewrite nth_error_app1 by lia. rewrite nth_error_tl. auto.
    - rewrite nth_error_app2 by lia. destruct (i - length (tl cs)) as [|q] eqn:Eq; [|destruct q; discriminate].
      cbn. intros [= <- <-]. right. split; [lia|auto]. }
  set (b' := S b mod L).
  assert (Hb' : b' < L) by (apply Nat.mod_upper_bound; lia).
  assert (sh : forall i, (b' + i) mod L = (b + S i) mod L).
  { intros i. unfold b'. rewrite Nat.add_mod_idemp_l by lia. f_equal. lia. }
  assert (last : (b + S n) mod L = b).
  { replace (b + S n) with (b + 1 * L) by lia. rewrite Nat.mod_add by lia. now apply Nat.mod_small. }
  assert (rdS : forall i a c, at_ (tl cs ++ [(s, y)]) i a c -> rd S' ((b' + i) mod L) = Some a /\ rd Y' ((b' + i) mod L) = Some c).
  { intros i a c [[_ Hi]|(-> & -> & ->)]%atc; rewrite sh; [now apply old|]. rewrite last. auto. }
  assert (lts : forall i a c, at_ (tl cs ++ [(s, y)]) i a c -> i <= n).
  { intros i a c [[Hi _]|(-> & _)]%atc; lia. }
  assert (nn : forall i, i < n -> (i =? n) = false) by (intros; apply Nat.eqb_neq; lia).
  split; cbn; auto; try lia.
  - rewrite app_length, Ltl. cbn. lia.
  - intros R1. rewrite Rs in R1. discriminate.
  - intros i a c Hi. apply (rdS _ _ _ Hi).
  - intros i a c Hi. apply (rdS _ _ _ Hi).
  - intros i j a c a' c' Hi Hj. pose proof (lts _ _ _ Hi) as Li. pose proof (lts _ _ _ Hj) as Lj.
    destruct (atc _ _ _ Hi) as [[Hi1 Hi2]|(-> & -> & ->)], (atc _ _ _ Hj) as [[Hj1 Hj2]|(-> & -> & ->)].
    + destruct (K4 i j ltac:(lia) ltac:(lia)) as [-> _]. rewrite C1, nn by lia. cbn. rewrite C0 by lia. rewrite !Nat.add_1_r.
      now apply (k_ss _ _ H _ _ _ _ _ _ Hi2 Hj2).
    + destruct (old _ _ _ Hi2). destruct (K5 i a c Hi1) as (_ & -> & _); auto.
    + destruct (old _ _ _ Hj2). destruct (K5 j a' c' Hj1) as (-> & _); auto. now rewrite met_sym.
    + destruct (K4 n n ltac:(lia) ltac:(lia)) as [-> _]. rewrite C1, Nat.eqb_refl by lia. reflexivity.
  - intros i j a c a' c' Hi Hj Hji. pose proof (lts _ _ _ Hi) as Li. pose proof (lts _ _ _ Hj) as Lj.
    destruct (atc _ _ _ Hi) as [[Hi1 Hi2]|(-> & -> & ->)], (atc _ _ _ Hj) as [[Hj1 Hj2]|(-> & -> & ->)].
    + destruct (K4 i j ltac:(lia) ltac:(lia)) as [_ ->]. destruct (K4 j i ltac:(lia) ltac:(lia)) as [_ ->]. rewrite !D1, !nn by lia.
      cbn. rewrite !D0 by lia. rewrite !Nat.add_1_r. apply (k_sy _ _ H _ _ _ _ _ _ Hi2 Hj2). lia.
    + lia.
    + destruct (old _ _ _ Hj2). destruct (K5 j a' c' Hj1) as (_ & _ & -> & ->); auto. rewrite met_sym. auto.
    + destruct (K4 n n ltac:(lia) ltac:(lia)) as [_ ->]. rewrite D1, Nat.eqb_refl by lia. auto.
Qed.

(** ** Transport *)
Lemma carry_spec T k : forall i (l : list (option V)), i + k <= length l ->
  (forall j, i <= j -> j < i + k -> exists v, rd l j = Some v) ->
  exists l', carry A G T k i l = Some l' /\ length l' = length l /\
  forall j, rd l' j = if (i <=? j) && (j <? i + k) then option_map T (rd l j) else rd l j.
Proof.
  induction k as [|k IH]; intros i l Hl Hr.
  - exists l. split; [reflexivity|]. split; [reflexivity|]. intros j.
    destruct (Nat.leb_spec i j), (Nat.ltb_spec j (i + 0)); try reflexivity; lia.
  - cbn [carry]. destruct (Hr i ltac:(lia) ltac:(lia)) as [v Ev]. rewrite (bnd_some _ _ _ Ev).
    destruct (rd_wr_ok l i (T v)) as [l1 E1]; [lia|]. rewrite (bnd_some _ _ _ E1).
    pose proof (wr_length _ _ _ _ E1) as L1. assert (R1 : forall j, rd l1 j = if j =? i then Some (T v) else rd l j) by (intros; now apply rd_wr).
    destruct (IH (S i) l1) as (l' & E & K1 & K2); [lia| |].
    + intros j Hj1 Hj2. rewrite R1. destruct (Nat.eqb_spec j i); [lia|]. apply Hr; lia.
    + exists l'. split; [exact E|]. split; [lia|]. intros j. rewrite K2, R1.
      destruct (Nat.eqb_spec j i) as [->|Hne].
      * destruct (Nat.leb_spec (S i) i); [lia|]. cbn [andb]. destruct (Nat.leb_spec i i); [|lia]. destruct (Nat.ltb_spec i (i + S k)); [|lia].
        cbn [andb]. now rewrite Ev.
      * destruct (Nat.leb_spec (S i) j), (Nat.leb_spec i j), (Nat.ltb_spec j (S i + k)), (Nat.ltb_spec j (i + S k)); cbn [andb]; try reflexivity; lia.
Qed.

Lemma accept_spec m cs T : sholds m cs -> (forall v w, met (T v) (T w) = met v w) ->
  exists m', accept A G m T = Some m' /\ sholds m' (map (both G T) cs) /\ sgam m' = sgam m /\ supd A G m' = supd A G m.
Proof.
  intros H HT. pose proof (k_len _ _ H) as Hlen. pose proof (k_le _ _ H) as Hle.
  assert (inr : forall i, i < slen m -> (sbeg m + i) mod L < slen m).
  { intros i Hi. destruct (k_beg _ _ H) as [->|[Hb ->]]; [rewrite Nat.mod_small; lia|apply Nat.mod_upper_bound; lia]. }
  assert (ex : forall j, j < slen m -> exists i, i < slen m /\ j = (sbeg m + i) mod L).
  { intros j Hj. destruct (k_beg _ _ H) as [E|[Hb E]].
    - exists j. split; [exact Hj|]. rewrite E, Nat.mod_small; lia.
    - destruct (wrap (sbeg m) j Hb ltac:(lia)) as (i & Hi & <-). exists i. split; [lia|reflexivity]. }
  unfold accept.
  destruct (carry_spec T (slen m) 0 (sS m)) as (S' & E1 & L1 & R1).
  { rewrite (k_S _ _ H). lia. }
  { intros j _ Hj. destruct (ex j Hj) as (i & Hi & ->). destruct (at_ex cs i) as (a & c & Hac); [lia|]. exists a. now apply (k_s _ _ H _ _ _ Hac). }
  destruct (carry_spec T (slen m) 0 (sY m)) as (Y' & E2 & L2 & R2).
  { rewrite (k_Y _ _ H). lia. }
  { intros j _ Hj. destruct (ex j Hj) as (i & Hi & ->). destruct (at_ex cs i) as (a & c & Hac); [lia|]. exists c. now apply (k_y _ _ H _ _ _ Hac). }
  rewrite (bnd_some _ _ _ E1), (bnd_some _ _ _ E2). eexists. split; [reflexivity|]. split; [|split; reflexivity].
  assert (atm : forall i a c, at_ (map (both G T) cs) i a c -> exists a0 c0, at_ cs i a0 c0 /\ a = T a0 /\ c = T c0).
  { intros i a c Hi. apply nth_error_map_some in Hi as ([a0 c0] & Hi & E). injection E as -> ->. exists a0, c0. auto. }
  destruct H. split; cbn; try assumption; [congruence|congruence| | | | |].
  - rewrite map_length. exact Hlen.
  - intros i a c (a0 & c0 & Hi & -> & ->)%atm. pose proof (at_lt _ _ _ _ Hi). pose proof (inr i ltac:(lia)). rewrite R1, (k_s0 _ _ _ Hi).
    destruct (Nat.ltb_spec ((sbeg m + i) mod L) (0 + slen m)); [reflexivity|lia].
  - intros i a c (a0 & c0 & Hi & -> & ->)%atm. pose proof (at_lt _ _ _ _ Hi). pose proof (inr i ltac:(lia)). rewrite R2, (k_y0 _ _ _ Hi).
    destruct (Nat.ltb_spec ((sbeg m + i) mod L) (0 + slen m)); [reflexivity|lia].
  - intros i j a c a' c' (a0 & c0 & Hi & -> & ->)%atm (a1 & c1 & Hj & -> & ->)%atm. rewrite HT. now apply (k_ss0 _ _ _ _ _ _ Hi Hj).
  - intros i j a c a' c' (a0 & c0 & Hi & -> & ->)%atm (a1 & c1 & Hj & -> & ->)%atm Hij. rewrite HT. now apply (k_sy0 _ _ _ _ _ _ Hi Hj).
Qed.

(** ** One pass *)
Definition snext (first : bool) (cs : list (V * V)) (e : pass A G) : list (V * V) :=
  let cs1 := if stored G first e then
               (if Nat.eqb L 0 then []
                else if Nat.ltb (length cs) L then cs ++ [pair_of G e]
                else if restart then [pair_of G e]
                else tl cs ++ [pair_of G e])
             else cs in
  match pacc A G e with Some T => map (both G T) cs1 | None => cs1 end.

Lemma len0 m cs n : sholds m cs -> n = 0 -> restart = true -> sholds (set_slen A G m n) [].
Proof.
  intros H -> Rs. pose proof (k_restart _ _ H Rs). destruct H. split; cbn; auto; try lia.
  all: intros [|?] ? ?; discriminate || (intros ? ? ? ?; unfold at_; intros Hd; try (destruct i; discriminate)); try discriminate.
Qed.

Lemma supdate_spec first m cs e : sholds m cs ->
  exists m', supdate A G L restart first m e = Some m' /\
  sholds m' (if stored G first e then
               (if Nat.eqb L 0 then []
                else if Nat.ltb (length cs) L then cs ++ [pair_of G e]
                else if restart then [pair_of G e]
                else tl cs ++ [pair_of G e])
             else cs) /\
  supd A G m' = stored G first e /\
  sgam m' = if first || (stored G first e && supd A G m) then quotient G e else sgam m.
Proof.
  intros H. unfold supdate.
  set (y := qcomb A G (fq 1) (pginv A G e) (fq (-1)) (pgf1 A G e)). set (s := peta A G e).
  set (m0 := if first then _ else m).
  assert (Hm0 : sholds m0 cs) by (destruct first; [now apply gam_holds|exact H]).
  assert (Eu : supd A G m0 = supd A G m) by (destruct first; reflexivity).
  assert (Eg : sgam m0 = if first then quotient G e else sgam m) by (destruct first; reflexivity).
  set (test := _ && _ && _).
  assert (Et : test = stored G first e).
  { unfold test, stored, pair_of. fold s y. destruct first; [|reflexivity]. unfold m0. cbn [set_sgam LSR1Model.sgam]. reflexivity. }
  rewrite <- Et. clearbody m0. destruct test.
  2:{ exists (set_supd A G m0 false). split; [reflexivity|]. split; [now apply upd_holds|]. split; [reflexivity|].
      cbn [set_supd LSR1Model.sgam]. rewrite Eg. now destruct first. }
  set (m1 := if supd A G m0 then _ else m0).
  assert (Hm1 : sholds m1 cs) by (unfold m1; destruct (supd A G m0); [now apply gam_holds|exact Hm0]).
  assert (Eg1 : sgam m1 = if first || (true && supd A G m) then quotient G e else sgam m).
  { unfold m1. rewrite Eu. destruct (supd A G m); cbn; [now rewrite orb_true_r|]. rewrite Eg. now destruct first. }
  clearbody m1. clear m0 Hm0 Eu Eg Et.
  change (s, y) with (pair_of G e) in *.
  set (m2 := if restart && _ then _ else m1).
  pose proof (k_len _ _ Hm1) as Hlen. pose proof (k_le _ _ Hm1) as Hle.
  assert (fin : forall cs' m3, sholds m3 cs' -> sgam m3 = sgam m1 ->
    exists m', bnd (Some m3) (fun m => Some (set_supd A G m true)) = Some m' /\ sholds m' cs' /\ supd A G m' = true /\
      sgam m' = if first || (true && supd A G m) then quotient G e else sgam m).
  { intros cs' m3 H3 E3. exists (set_supd A G m3 true). split; [reflexivity|]. split; [now apply upd_holds|]. split; [reflexivity|].
    cbn. now rewrite E3. }
  destruct (Nat.eqb_spec L 0) as [L0|L0].
  - assert (Es : slen m2 = 0).
    { unfold m2. destruct (restart && _); cbn; lia. }
    rewrite Es, L0. cbn [Nat.ltb Nat.leb]. change (0 <? 0) with false. apply fin.
    + assert (cs = []) by (apply length_zero_iff_nil; lia). subst cs.
      unfold m2. destruct restart eqn:Rs; [|exact Hm1]. destruct (L <=? slen m1); cbn [andb]; [|exact Hm1]. now apply (len0 m1 []).
    + unfold m2. destruct (restart && _); reflexivity.
  - rewrite <- Hlen. destruct (Nat.ltb_spec (slen m1) L) as [Hlt|Hge].
    + assert (E2 : m2 = m1).
      { unfold m2. destruct (Nat.leb_spec L (slen m1)); [lia|]. now rewrite andb_false_r. }
      rewrite E2. destruct (Nat.ltb_spec (slen m1) L); [|lia].
      destruct (append_spec m1 cs s y Hm1 Hlt) as (m3 & E3 & H3 & G3 & _). rewrite E3. now apply fin.
    + assert (Hfull : slen m1 = L) by lia. destruct (Nat.leb_spec L (slen m1)) as [_|]; [|lia].
      destruct restart eqn:Rs.
      * unfold m2. cbn [andb]. destruct (Nat.leb_spec L (slen m1)) as [_|]; [|lia].
        cbn [set_slen LSR1Model.slen]. destruct (Nat.ltb_spec 0 L) as [Hlt|]; [|lia].
        destruct (append_spec (set_slen A G m1 0) [] s y) as (m3 & E3 & H3 & G3 & _); auto; [now apply (len0 m1 cs)|].
        rewrite E3. now apply fin.
      * assert (E2 : m2 = m1) by reflexivity. rewrite E2.
        destruct (Nat.ltb_spec (slen m1) L); [lia|]. destruct (Nat.ltb_spec 0 L) as [Hlt|]; [|lia].
        destruct (replace_spec m1 cs s y Hm1 Hfull Hlt Rs) as (m3 & E3 & H3 & G3 & _). rewrite E3. now apply fin.
Qed.

Lemma one_pass_spec first m cs e : sholds m cs ->
  (forall T, pacc A G e = Some T -> forall v w, met (T v) (T w) = met v w) ->
  exists m', one_pass A G L restart first m e = Some m' /\ sholds m' (snext first cs e) /\
  supd A G m' = stored G first e /\
  sgam m' = if first || (stored G first e && supd A G m) then quotient G e else sgam m.
Proof.
  intros H HT. unfold one_pass, snext.
  destruct (supdate_spec first m cs e H) as (m1 & E1 & H1 & U1 & G1). rewrite (bnd_some _ _ _ E1).
  destruct (pacc A G e) as [T|]; [|eauto].
  destruct (accept_spec m1 _ T H1 (HT T eq_refl)) as (m2 & E2 & H2 & G2 & U2). exists m2.
  split; [exact E2|]. split; [exact H2|]. split; congruence.
Qed.

Lemma smem0_holds u : sholds (smem0 A G L u) [].
Proof.
  split; cbn; rewrite ?repeat_length; auto; try lia.
  all: intros [|?] ? ?; try discriminate; intros; try discriminate; unfold at_ in *; destruct i; discriminate.
Qed.

Lemma passes_later l : forall k m cs, sholds m cs -> isometric G l ->
  exists m', passes A G L restart (S k) m l = Some m' /\ sholds m' (fold_left (snext false) l cs) /\
  sgam m' = scaling_from G (supd A G m) (sgam m) l.
Proof.
  induction l as [|e l IH]; intros k m cs H HT; cbn; [eauto|].
  destruct (one_pass_spec false m cs e H) as (m1 & E1 & H1 & U1 & G1).
  { intros T. apply HT. now left. }
  rewrite (bnd_some _ _ _ E1). destruct (IH (S k) m1 _ H1) as (m' & E & K & Eg).
  { intros e' T' Hin. apply HT. now right. }
  exists m'. split; [exact E|]. split; [exact K|]. rewrite Eg, U1, G1. reflexivity.
Qed.

Definition skept (l : list (pass A G)) : list (V * V) :=
  match l with [] => [] | e :: l => fold_left (snext false) l (snext true [] e) end.

Lemma passes_holds u l : isometric G l ->
  exists m, passes A G L restart 0 (smem0 A G L u) l = Some m /\ sholds m (skept l) /\ sgam m = gamma_of G l.
Proof.
  intros HT. destruct l as [|e l]; cbn.
  - exists (smem0 A G L u). split; [reflexivity|]. split; [apply smem0_holds|reflexivity].
  - destruct (one_pass_spec true (smem0 A G L u) [] e (smem0_holds u)) as (m1 & E1 & H1 & U1 & G1).
    { intros T. apply HT. now left. }
    rewrite (bnd_some _ _ _ E1). destruct (passes_later l 0 m1 _ H1) as (m' & E & K & Eg).
    { intros e' T' Hin. apply HT. now right. }
    exists m'. split; [exact E|]. split; [exact K|]. rewrite Eg, U1, G1. reflexivity.
Qed.

(** ** What is kept *)
Lemma keep_step (f : bool) cs e :
  snext f (lastn L cs) e = lastn L (after G f cs e) \/ restart = true.
Proof.
  destruct restart eqn:Rs; [now right|left]. unfold snext, after. rewrite Rs.
  assert (K : (if stored G f e then (if Nat.eqb L 0 then [] else if Nat.ltb (length (lastn L cs)) L then lastn L cs ++ [pair_of G e] else tl (lastn L cs) ++ [pair_of G e]) else lastn L cs)
    = lastn L (cs ++ (if stored G f e then [pair_of G e] else []))).
  { destruct (stored G f e); [|now rewrite app_nil_r].
    destruct (Nat.eqb_spec L 0) as [E|E]; [unfold lastn; rewrite E, Nat.sub_0_r; now rewrite skipn_all|].
    rewrite lastn_snoc by lia. now destruct (Nat.ltb (length (lastn L cs)) L). }
  rewrite K. destruct (pacc A G e); [now rewrite lastn_map|reflexivity].
Qed.

Lemma keep_fold l : restart = false -> forall cs, fold_left (snext false) l (lastn L cs) = lastn L (fold_left (after G false) l cs).
Proof.
  intros Rs. induction l as [|e l IH]; intros cs; cbn; [reflexivity|].
  destruct (keep_step false cs e) as [->|E]; [apply IH|congruence].
Qed.

Definition since (cs : list (V * V)) := skipn (L * ((length cs - 1) / L)) cs.
Lemma keep_restart (f : bool) cs e : restart = true -> 0 < L -> snext f (since cs) e = since (after G f cs e).
Proof.
  intros Rs HL. unfold snext, after. rewrite Rs.
  assert (K : (if stored G f e then (if Nat.eqb L 0 then [] else if Nat.ltb (length (since cs)) L then since cs ++ [pair_of G e] else [pair_of G e]) else since cs)
    = since (cs ++ (if stored G f e then [pair_of G e] else []))).
  { destruct (stored G f e); [|now rewrite app_nil_r].
    destruct (Nat.eqb_spec L 0) as [E|E]; [lia|]. unfold since. rewrite skipn_length, app_length. cbn [length].
    set (k := length cs). replace (k + 1 - 1) with k by lia.
    destruct (Nat.eq_dec k 0) as [K0|K0].
    + assert (Ecs : cs = []) by now apply length_zero_iff_nil. unfold k. subst cs. cbn [length].
      rewrite skipn_nil. cbn [app]. replace (0 - L * ((0 - 1) / L)) with 0 by lia.
      destruct (Nat.ltb_spec 0 L); [|lia]. rewrite Nat.div_0_l, Nat.mul_0_r by lia. reflexivity.
    + pose proof (Nat.div_mod (k - 1) L ltac:(lia)) as D1. pose proof (Nat.mod_upper_bound (k - 1) L ltac:(lia)) as D2.
      set (q := (k - 1) / L) in *. set (r := (k - 1) mod L) in *.
      destruct (Nat.ltb_spec (k - L * q) L) as [Hs|Hs].
      * assert (Eq : k / L = q) by (symmetry; apply Nat.div_unique with (S r); lia).
        rewrite Eq, skipn_app. fold k. replace (L * q - k) with 0 by lia. reflexivity.
      * assert (Eq : k / L = S q) by (symmetry; apply Nat.div_unique with 0; lia). rewrite Eq.
        replace (L * S q) with k by lia. rewrite skipn_app. unfold k. now rewrite skipn_all, Nat.sub_diag. }
  rewrite K. unfold since. destruct (pacc A G e); [|reflexivity].
  rewrite map_length, skipn_map. reflexivity.
Qed.
Lemma keep_fold_restart l : restart = true -> 0 < L -> forall cs, fold_left (snext false) l (since cs) = since (fold_left (after G false) l cs).
Proof.
  intros Rs HL. induction l as [|e l IH]; intros cs; cbn; [reflexivity|]. rewrite keep_restart by assumption. apply IH.
Qed.

Lemma none_fold l : L = 0 -> fold_left (snext false) l [] = [].
Proof.
  intros L0. induction l as [|e l IH]; [reflexivity|]. cbn [fold_left]. 
  assert (snext false [] e = []) as ->; [|exact IH].
  unfold snext. rewrite L0. cbn [Nat.eqb]. destruct (stored G false e), (pacc A G e); reflexivity.
Qed.

Lemma skept_kept l : skept l = kept G L restart l.
Proof.
  unfold skept, kept, pairs. destruct (Nat.eqb_spec L 0) as [L0|L0].
  - destruct l as [|e l]; [reflexivity|].
    assert (snext true [] e = []) as ->.
    { unfold snext. rewrite L0. cbn [Nat.eqb]. destruct (stored G true e), (pacc A G e); reflexivity. }
    now apply none_fold.
  - destruct restart eqn:Rs.
    + destruct l as [|e l]; [now rewrite skipn_nil|].
      change (skipn _ _) with (since (fold_left (after G false) l (after G true [] e))).
      rewrite <- keep_fold_restart by (auto; lia). f_equal. rewrite <- keep_restart by (auto; lia).
      unfold since. now rewrite skipn_nil.
    + destruct l as [|e l]; [reflexivity|]. rewrite <- keep_fold by auto. f_equal.
      destruct (keep_step true [] e) as [K|K]; [exact K|congruence].
Qed.

(** ** What the subproblem gets *)
Lemma ymgs_from_spec m cs : sholds m cs -> forall k i, i + k = length cs ->
  ymgs_from A G L m k i = Some (map (fun c => qaxpy A G (fopp (sgam m)) (fst c) (snd c)) (skipn i cs)).
Proof.
  intros H. induction k as [|k IH]; intros i Hi.
  - cbn. rewrite skipn_all2 by lia. reflexivity.
  - cbn [ymgs_from]. destruct (at_ex cs i ltac:(lia)) as (s & y & Hs).
    rewrite (Nat.add_comm i). rewrite (bnd_some _ _ _ (k_s _ _ H _ _ _ Hs)), (bnd_some _ _ _ (k_y _ _ H _ _ _ Hs)).
    rewrite (bnd_some _ _ _ (IH (S i) ltac:(lia))).
    assert (Es : skipn i cs = (s, y) :: skipn (S i) cs).
    { clear - Hs. revert cs Hs. unfold at_. induction i as [|i IH]; intros [|c cs] Hs; try discriminate.
      - now injection Hs as ->.
      - cbn [skipn nth_error] in *. now rewrite (IH _ Hs). }
    rewrite Es. reflexivity.
Qed.

Lemma represents_holds m cs : sholds m cs -> represents G L m (sgam m) cs.
Proof.
  intros H. pose proof (k_len _ _ H) as Hlen. split; [exact Hlen|]. split; [reflexivity|]. split.
  - unfold ymgs. rewrite (ymgs_from_spec m cs H) by lia. reflexivity.
  - intros i j Hi Hj. unfold pmgq, middle.
    destruct (at_ex cs i Hi) as (s & y & Hs). destruct (at_ex cs j Hj) as (s' & y' & Hs').
    rewrite Hs, Hs'. destruct (Nat.leb_spec j i) as [Hle|Hlt].
    + destruct (k_sy _ _ H _ _ _ _ _ _ Hs Hs' Hle) as [-> _]. rewrite (k_ss _ _ H _ _ _ _ _ _ Hs Hs'). reflexivity.
    + destruct (k_sy _ _ H _ _ _ _ _ _ Hs' Hs ltac:(lia)) as [_ ->]. rewrite (k_ss _ _ H _ _ _ _ _ _ Hs Hs'). reflexivity.
Qed.

Lemma run_represents u l : isometric G l ->
  exists m, passes A G L restart 0 (smem0 A G L u) l = Some m /\ represents G L m (gamma_of G l) (kept G L restart l).
Proof.
  intros HT. destruct (passes_holds u l HT) as (m & E & H & Eg). exists m. split; [exact E|].
  rewrite <- Eg, <- skept_kept. now apply represents_holds.
Qed.
End mem.

(** ** A second Run *)
Lemma rerun_fails {A : arith} (G : qspace A) L m : 0 < slen A G m -> ymgs A G L (smem_rerun A G L m) = None.
Proof.
  intros H. unfold ymgs. cbn. destruct (slen A G m) as [|k]; [lia|]. cbn [ymgs_from].
  assert (E : forall i, rd (repeat (@None (QV A G)) L) i = None).
  { intros i. unfold rd. destruct (nth_error (repeat None L) i) eqn:Ei; [|reflexivity].
    apply nth_error_In, repeat_spec in Ei. now rewrite Ei. }
  cbn [sS smem_rerun]. now rewrite E.
Qed.
