(** The handle table, block insertion and the level-1 routines. *)
From Coq Require Import List Bool Arith ZArith Lia Ring Ring_theory.
From Verif Require Import SparseModel SparseSpec SparseProofs SparseBuild.
Import ListNotations.

(** ** The handle table *)
Section table.
Context {K : scal}.
Local Open Scope Z_scope.
Definition tinv (t : table K) : Prop := (active K t <= length (slots K t))%nat.

Lemma vecset_len {X} (l : list X) i v l' : vecset l i v = Some l' -> length l' = length l.
Proof.
  unfold vecset. destruct (Z.ltb i 0); [discriminate|]. generalize (Z.to_nat i) as n. revert l'.
  induction l as [|x l IH]; intros l' n; cbn [lset]; [discriminate|]. destruct n as [|n].
  - intros E. injection E as <-. reflexivity.
  - destruct (lset l n v) as [l1|] eqn:E1; cbn [obind]; [|discriminate]. intros E. injection E as <-. cbn. f_equal. eapply IH. exact E1.
Qed.
Lemma lset_nth {X} (l : list X) : forall n v l' k, lset l n v = Some l' -> nth_error l' k = if Nat.eqb k n then Some v else nth_error l k.
Proof.
  induction l as [|x l IH]; intros n v l' k; cbn [lset]; [discriminate|]. destruct n as [|n].
  - intros E. injection E as <-. destruct k; reflexivity.
  - destruct (lset l n v) as [l1|] eqn:E1; cbn [obind]; [|discriminate]. intros E. injection E as <-.
    destruct k as [|k]; [reflexivity|]. cbn [nth_error Nat.eqb]. now apply IH.
Qed.
Lemma vecset_nth {X} (l : list X) i v l' k : vecset l i v = Some l' -> vecnth l' k = if Z.eqb k i then Some v else vecnth l k.
Proof.
  unfold vecset, vecnth. destruct (Z.ltb_spec i 0); [discriminate|]. intros E.
  destruct (Z.ltb_spec k 0); [destruct (Z.eqb_spec k i); [lia|reflexivity]|].
  rewrite (lset_nth _ _ _ _ _ E). destruct (Z.eqb_spec k i) as [->|]; [now rewrite Nat.eqb_refl|].
  destruct (Nat.eqb_spec (Z.to_nat k) (Z.to_nat i)); [lia|reflexivity].
Qed.
Lemma vecset_some {X} (l : list X) i x v : vecnth l i = Some x -> exists l', vecset l i v = Some l'.
Proof.
  unfold vecset, vecnth. destruct (Z.ltb i 0); [discriminate|]. intros E.
  destruct (lset_ok l (Z.to_nat i) v) as (l' & El & _); [apply nth_error_Some; congruence|]. eauto.
Qed.
Lemma vecnth_past {X} (l : list X) i : Z.of_nat (length l) <= i -> vecnth l i = None.
Proof. intros H. unfold vecnth. destruct (Z.ltb_spec i 0); [reflexivity|]. apply nth_error_None. lia. Qed.

Lemma insert_facts m t : tinv t -> exists t', table_insert K m t = (Z.of_nat (length (slots K t)), t') /\ tinv t'
  /\ slots K t' = slots K t ++ [Some m].
Proof.
  intros I. unfold table_insert. destruct (Nat.leb_spec (active K t) (length (slots K t))); [|unfold tinv in I; lia].
  eexists. split; [reflexivity|]. split; [|reflexivity]. unfold tinv. cbn. rewrite app_length. cbn. lia.
Qed.
Lemma remove_facts h t t' : tinv t -> usds K h t = Some t' -> tinv t' /\ length (slots K t') = length (slots K t)
  /\ forall k, k <> h -> table_get K k t' = table_get K k t.
Proof.
  intros I E. unfold usds, table_get in E. unfold table_remove in E.
  destruct (vecnth (slots K t) h) as [[s|]|] eqn:Ev; cbn [obind snd] in E; try discriminate. injection E as <-.
  destruct (vecset_some _ _ _ None Ev) as (l & El). rewrite El. split; [|split].
  - unfold tinv in *. cbn. rewrite (vecset_len _ _ _ _ El). lia.
  - cbn. now apply vecset_len in El.
  - intros k Hk. unfold table_get. cbn [slots]. rewrite (vecset_nth _ _ _ _ _ El). destruct (Z.eqb_spec k h); [contradiction|reflexivity].
Qed.
Lemma update_facts h f t t' : tinv t -> table_update K h f t = Some t' -> tinv t' /\ length (slots K t') = length (slots K t)
  /\ forall k, k <> h -> table_get K k t' = table_get K k t.
Proof.
  intros I E. unfold table_update in E. destruct (table_get K h t) as [s|]; cbn [obind] in E; [|discriminate].
  destruct (f s) as [s'|]; cbn [obind] in E; [|discriminate]. destruct (vecset (slots K t) h (Some s')) as [l|] eqn:El; cbn [obind] in E; [|discriminate].
  injection E as <-. split; [|split].
  - unfold tinv in *. cbn. rewrite (vecset_len _ _ _ _ El). lia.
  - cbn. now apply vecset_len in El.
  - intros k Hk. unfold table_get. cbn [slots]. rewrite (vecset_nth _ _ _ _ _ El). destruct (Z.eqb_spec k h); [contradiction|reflexivity].
Qed.

Lemma hstep_facts o t h t' : tinv t -> hstep o t = Some (h, t') -> tinv t' /\ (length (slots K t) <= length (slots K t'))%nat
  /\ forall k, k < Z.of_nat (length (slots K t)) -> ~ names k o -> table_get K k t' = table_get K k t.
Proof.
  intros I E. destruct o as [m|g|g f]; cbn [hstep] in E.
  - destruct (insert_facts m t I) as (t1 & E1 & I1 & S1). rewrite E1 in E. injection E as <- <-. split; [exact I1|].
    rewrite S1, app_length. split; [lia|]. intros k Hk _. unfold table_get, vecnth. destruct (Z.ltb_spec k 0); [reflexivity|].
    rewrite S1, nth_error_app1 by lia. reflexivity.
  - destruct (usds K g t) as [t1|] eqn:E1; [|discriminate]. injection E as _ <-.
    destruct (remove_facts g t t1 I E1) as (I1 & L1 & G1). split; [exact I1|]. split; [lia|]. intros k _ Hk. apply G1. intros ->. apply Hk. reflexivity.
  - destruct (table_update K g f t) as [t1|] eqn:E1; [|discriminate]. injection E as _ <-.
    destruct (update_facts g f t t1 I E1) as (I1 & L1 & G1). split; [exact I1|]. split; [lia|]. intros k _ Hk. apply G1. intros ->. apply Hk. reflexivity.
Qed.
Lemma history_facts os : forall t t', tinv t -> history os t = Some t' -> tinv t' /\ (length (slots K t) <= length (slots K t'))%nat
  /\ forall k, k < Z.of_nat (length (slots K t)) -> (forall o, In o os -> ~ names k o) -> table_get K k t' = table_get K k t.
Proof.
  induction os as [|o os IH]; intros t t' I E; cbn [history] in E.
  - injection E as <-. split; [exact I|]. split; [lia|]. reflexivity.
  - destruct (hstep o t) as [[h t1]|] eqn:E1; [|discriminate]. destruct (hstep_facts o t h t1 I E1) as (I1 & L1 & G1).
    destruct (IH t1 t' I1 E) as (I2 & L2 & G2). split; [exact I2|]. split; [lia|]. intros k Hk Hn.
    rewrite G2, G1; auto; [apply Hn; now left|lia|]. intros o' Ho'. apply Hn. now right.
Qed.

Lemma handles before m t1 : history before (table0 K) = Some t1 ->
  exists h t2, hstep (Create m) t1 = Some (h, t2) /\ 0 <= h /\ table_get K h t1 = None /\ table_get K h t2 = Some m
  /\ (forall k, k <> h -> table_get K k t2 = table_get K k t1)
  /\ forall after t3, history after t2 = Some t3 -> (forall o, In o after -> ~ names h o) -> table_get K h t3 = Some m.
Proof.
  intros E. destruct (history_facts before (table0 K) t1) as (I1 & _ & _); [unfold tinv; cbn; lia|exact E|].
  destruct (insert_facts m t1 I1) as (t2 & E2 & I2 & S2). exists (Z.of_nat (length (slots K t1))), t2.
  assert (G : table_get K (Z.of_nat (length (slots K t1))) t2 = Some m).
  { unfold table_get, vecnth. destruct (Z.ltb_spec (Z.of_nat (length (slots K t1))) 0); [lia|].
    rewrite S2, Nat2Z.id, nth_error_app2, Nat.sub_diag by lia. reflexivity. }
  split; [cbn [hstep]; now rewrite E2|]. split; [lia|]. split.
  { unfold table_get. rewrite vecnth_past by lia. reflexivity. }
  split; [exact G|]. split.
  - intros k Hk. unfold table_get, vecnth. destruct (Z.ltb_spec k 0); [reflexivity|]. rewrite S2.
    destruct (Z.lt_ge_cases k (Z.of_nat (length (slots K t1)))).
    + rewrite nth_error_app1 by lia. reflexivity.
    + assert (E' : nth_error (slots K t1 ++ [Some m]) (Z.to_nat k) = None) by (apply nth_error_None; rewrite app_length; cbn; lia).
      assert (E'' : nth_error (slots K t1) (Z.to_nat k) = None) by (apply nth_error_None; lia). now rewrite E', E''.
  - intros after t3 E3 Hn. destruct (history_facts after t2 t3 I2 E3) as (_ & _ & G3). rewrite G3; auto. rewrite S2, app_length. cbn. lia.
Qed.

(** Destroying a live matrix is always defined, and frees its handle. *)
Lemma destroy_live before h t1 s : history before (table0 K) = Some t1 -> table_get K h t1 = Some s ->
  exists t2, hstep (Destroy h) t1 = Some (0, t2) /\ table_get K h t2 = None /\ forall k, k <> h -> table_get K k t2 = table_get K k t1.
Proof.
  intros E G. destruct (history_facts before (table0 K) t1) as (I1 & _ & _); [unfold tinv; cbn; lia|exact E|].
  destruct (usds K h t1) as [t2|] eqn:Eu.
  - exists t2. destruct (remove_facts h t1 t2 I1 Eu) as (_ & _ & G2). cbn [hstep]. rewrite Eu. split; [reflexivity|]. split; [|exact G2].
    unfold usds in Eu. rewrite G in Eu. cbn [obind] in Eu. injection Eu as <-. unfold table_remove. unfold table_get in G |- *.
    destruct (vecnth (slots K t1) h) as [o|] eqn:Ev; [|discriminate]. subst o. cbn [snd slots].
    destruct (vecset_some _ _ _ None Ev) as (l & El). rewrite El. rewrite (vecset_nth _ _ _ _ _ El), Z.eqb_refl. reflexivity.
  - unfold usds in Eu. rewrite G in Eu. discriminate.
Qed.

(** n rounds of creation and destruction leave n empty slots. *)
Fixpoint rounds (m : smat K) (n : nat) (i : Z) : list hop :=
  match n with O => [] | S n => Create m :: Destroy i :: rounds m n (i + 1) end.
Lemma rounds_grow m n : forall l, history (rounds m n (Z.of_nat (length l))) (mkT K l 0) = Some (mkT K (l ++ repeat None n) 0).
Proof.
  induction n as [|n IH]; intros l; cbn [rounds history].
  - cbn. now rewrite app_nil_r.
  - cbn [hstep]. unfold table_insert. cbn [active slots Nat.leb].
    unfold usds, table_get, table_remove. cbn [slots active].
    assert (Ev : vecnth (l ++ [Some m]) (Z.of_nat (length l)) = Some (Some m)).
    { unfold vecnth. destruct (Z.ltb_spec (Z.of_nat (length l)) 0); [lia|]. rewrite Nat2Z.id, nth_error_app2, Nat.sub_diag by lia. reflexivity. }
    rewrite Ev. cbn [obind snd].
    assert (Es : vecset (l ++ [Some m]) (Z.of_nat (length l)) None = Some (l ++ [None])).
    { unfold vecset. destruct (Z.ltb_spec (Z.of_nat (length l)) 0); [lia|]. rewrite Nat2Z.id. clear. induction l as [|x l IH]; [reflexivity|].
      cbn [length app lset]. rewrite IH. reflexivity. }
    rewrite Es. cbn [pred]. replace (Z.of_nat (length l) + 1) with (Z.of_nat (length (l ++ [@None (smat K)]))) by (rewrite app_length; cbn; lia).
    rewrite IH. f_equal. f_equal. rewrite <- app_assoc. reflexivity.
Qed.
End table.

(** ** Block insertion *)
Section block.
Context {K : scal}.
Local Open Scope Z_scope.
Lemma each_app {X Y} (l l' : list Y) (body : Y -> X -> option X) x : each (l ++ l') body x = obind (each l body x) (each l' body).
Proof. revert x. induction l as [|y l IH]; intros x; [reflexivity|]. cbn [app each]. destruct (body y x); cbn [obind]; [apply IH|reflexivity]. Qed.

Lemma insert_each_app (l l' : list (triplet K)) m : insert_entries K (l ++ l') m = obind (insert_entries K l m) (insert_entries K l').
Proof. apply each_app. Qed.

Lemma range_S n : range (S n) = 0 :: map (fun a => a + 1) (range n).
Proof. unfold range. cbn [seq map]. f_equal. rewrite <- seq_shift, !map_map. apply map_ext. intros a. lia. Qed.
Lemma inner (val : vmem K) (i cs : Z) (B : Z -> K) n : forall j0 r m, (forall c, 0 <= c < Z.of_nat n -> val (r + c * cs) = Some (B c)) ->
  zfor n j0 (fun j mr => let '(m, r) := mr in obind (val r) (fun v => obind (insert_entry K v i j m) (fun c => Some (snd c, r + cs)))) (m, r)
  = obind (insert_entries K (map (fun c => (B c, i, j0 + c)) (range n)) m) (fun m => Some (m, r + Z.of_nat n * cs)).
Proof.
  revert B. induction n as [|n IH]; intros B j0 r m Hv.
  - cbn. now rewrite Z.add_0_r.
  - cbn [zfor]. pose proof (Hv 0 ltac:(lia)) as H0. rewrite Z.mul_0_l, Z.add_0_r in H0. rewrite H0. cbn [obind].
    unfold range. cbn [seq map]. unfold insert_entries. cbn [each]. change (Z.of_nat 0) with 0. rewrite Z.add_0_r.
    destruct (insert_entry K (B 0) i j0 m) as [[code m1]|]; cbn [obind snd]; [|reflexivity].
    rewrite (IH (fun c => B (c + 1)) (j0 + 1) (r + cs) m1).
    + replace (r + cs + Z.of_nat n * cs) with (r + Z.of_nat (S n) * cs) by lia. f_equal. unfold insert_entries. f_equal.
      rewrite <- seq_shift, !map_map. unfold range. rewrite map_map. apply map_ext. intros a. f_equal; [f_equal; f_equal|]; lia.
    + intros c Hc. replace (r + cs + c * cs) with (r + (c + 1) * cs) by lia. apply Hv. lia.
Qed.

Lemma outer (val : vmem K) (l : nat) (rs cs j0 : Z) (B : Z -> Z -> K) n : forall i0 r m,
  (forall a c, 0 <= a < Z.of_nat n -> 0 <= c < Z.of_nat l -> val (r + a * (Z.of_nat l * cs + rs) + c * cs) = Some (B a c)) ->
  zfor n i0 (fun i mr => obind (zfor l j0 (fun j mr =>
      let '(m, r) := mr in obind (val r) (fun v => obind (insert_entry K v i j m) (fun c => Some (snd c, r + cs)))) mr)
      (fun mr => Some (fst mr, snd mr + rs))) (m, r)
  = obind (insert_entries K (flat_map (fun a => map (fun c => (B a c, i0 + a, j0 + c)) (range l)) (range n)) m)
      (fun m => Some (m, r + Z.of_nat n * (Z.of_nat l * cs + rs))).
Proof.
  revert B. induction n as [|n IH]; intros B i0 r m Hv.
  - cbn. now rewrite Z.add_0_r.
  - cbn [zfor]. rewrite (inner val i0 cs (B 0) l).
    + rewrite range_S. cbn [flat_map]. rewrite insert_each_app, Z.add_0_r.
      destruct (insert_entries K (map (fun c => (B 0 c, i0, j0 + c)) (range l)) m) as [m1|]; cbn [obind fst snd]; [|reflexivity].
      rewrite (IH (fun a => B (a + 1)) (i0 + 1) (r + Z.of_nat l * cs + rs) m1).
      * replace (r + Z.of_nat l * cs + rs + Z.of_nat n * (Z.of_nat l * cs + rs)) with (r + Z.of_nat (S n) * (Z.of_nat l * cs + rs)) by lia.
        f_equal. f_equal. rewrite !flat_map_concat_map. f_equal.
        rewrite map_map. apply map_ext. intros a. apply map_ext. intros c.
        f_equal. f_equal. lia.
      * intros a c Ha Hc. replace (r + Z.of_nat l * cs + rs + a * (Z.of_nat l * cs + rs) + c * cs) with (r + (a + 1) * (Z.of_nat l * cs + rs) + c * cs) by lia.
        apply Hv; lia.
    + intros c Hc. specialize (Hv 0 c ltac:(lia) Hc). rewrite Z.mul_0_l, Z.add_0_r in Hv. exact Hv.
Qed.

Lemma diagonal_block (val : vmem K) rs cs I (B : Z -> Z -> K) m k l : (0 < k)%nat -> (0 < l)%nat ->
  bk K m = Z.of_nat k -> bl K m = Z.of_nat l ->
  (forall a c, 0 <= a < Z.of_nat k -> 0 <= c < Z.of_nat l -> val (a * rs + c * cs) = Some (B a c)) ->
  insert_block K val (rs - Z.of_nat l * cs) cs I I m = insert_entries K (place k l I I B) m.
Proof.
  intros Hk Hl Ek El Hv. unfold insert_block, startK, startL. rewrite Ek, El.
  destruct (Z.eqb_spec (Z.of_nat k) 0); [lia|]. destruct (Z.eqb_spec (Z.of_nat l) 0); [lia|]. cbn [obind].
  replace (Z.to_nat ((I + 1) * Z.of_nat k - I * Z.of_nat k)) with k by lia.
  replace (Z.to_nat ((I + 1) * Z.of_nat l - I * Z.of_nat l)) with l by lia.
  rewrite (outer val l (rs - Z.of_nat l * cs) cs (I * Z.of_nat l) B k).
  - fold (place k l I I B). destruct (insert_entries K (place k l I I B) m); reflexivity.
  - intros a c Ha Hc. rewrite <- (Hv a c Ha Hc). f_equal. lia.
Qed.

(** Nothing is inserted for a block below the diagonal, and for variable blocks. *)
Lemma below_block (val : vmem K) rs cs I J m : bk K m <> 0 -> 0 < bl K m -> J < I -> insert_block K val rs cs I J m = Some m.
Proof.
  intros Hk Hl HIJ. unfold insert_block, startK, startL.
  destruct (Z.eqb_spec (bk K m) 0); [contradiction|]. destruct (Z.eqb_spec (bl K m) 0); [lia|]. cbn [obind].
  replace (Z.to_nat ((J + 1) * bl K m - I * bl K m)) with O by nia. cbn [zfor].
  generalize (Z.to_nat ((I + 1) * bk K m - I * bk K m)) as q. generalize (I * bk K m) as i. generalize 0 at 1 as r.
  intros r i q. revert r i. induction q as [|q IH]; intros r i; [reflexivity|]. cbn [zfor obind fst snd]. apply IH.
Qed.
Lemma prefix_len a l : length (prefix a l) = S (length l).
Proof. revert a. induction l as [|x l IH]; intros a; [reflexivity|]. cbn [prefix length]. now rewrite IH. Qed.
Lemma var_block (val : vmem K) rs cs k l I J : 0 <= I < Z.of_nat (length k) -> 0 <= J < Z.of_nat (length l) -> I <= Z.of_nat (length l) ->
  insert_block K val rs cs I J (var_block_begin K k l) = Some (var_block_begin K k l).
Proof.
  intros HI HJ HIl. unfold insert_block. set (m := var_block_begin K k l). unfold startK, startL.
  change (bk K m) with 0. change (bl K m) with 0. cbn [Z.eqb].
  change (bK K m) with (prefix 0 k). change (bL K m) with (repeat 0 (S (length l))).
  rewrite !(vecnth_ok (prefix 0 k) _ 0) by (rewrite prefix_len; lia).
  rewrite !(vecnth_ok (repeat 0 (S (length l))) _ 0) by (rewrite repeat_length; lia). cbn [obind].
  rewrite !nth_repeat_any by lia. cbn [Z.sub Z.add Z.opp Z.to_nat zfor].
  generalize (Z.to_nat (nth (Z.to_nat (I + 1)) (prefix 0 k) 0 - nth (Z.to_nat I) (prefix 0 k) 0)) as q.
  generalize (nth (Z.to_nat I) (prefix 0 k) 0) as i. generalize 0 at 1 as r.
  intros r i q. revert r i. induction q as [|q IH]; intros r i; [reflexivity|]. cbn [zfor obind fst snd]. apply IH.
Qed.
End block.

(** ** Level 1 *)
Section level1.
Context {K : scal} (L : lawful K).
Local Lemma Kring : ring_theory (@s0 K) s1 sadd smul ssub sopp eq.
Proof. exact (law_ring K L). Qed.
Add Ring Kr5 : Kring.
Local Open Scope Z_scope.
Infix "+'" := (@sadd K) (at level 50, left associativity).
Infix "*'" := (@smul K) (at level 40, left associativity).
Notation "0'" := (@s0 K).
Local Notation off := base_of.
Local Notation inr := index_ok.
Lemma adr3 one b inc k : ybase one b inc + k * inc = b + (k - off one) * inc.
Proof. destruct one; unfold ybase, base_of; lia. Qed.

Section with_y.
Context (y : vmem K) (b inc : Z) (n : nat) (one : bool) (g : Z -> K) (Hinc : inc <> 0) (Hy : view y b inc n g).
Lemma usdot_ok cj xi : (forall p, In p xi -> inr n one (snd p)) ->
  usdot K cj xi y b inc one = Some (lsum (map (fun p => cj (fst p) *' g (snd p - off one)) xi)).
Proof.
  intros H. unfold usdot.
  assert (G : forall acc, each xi (fun p t => obind (y (ybase one b inc + snd p * inc)) (fun yv => Some (sadd t (smul (cj (fst p)) yv)))) acc
    = Some (acc +' lsum (map (fun p => cj (fst p) *' g (snd p - off one)) xi))).
  { induction xi as [|p xi IH]; intros acc; cbn [each map lsum]; [f_equal; ring|].
    rewrite adr3, Hy by (apply H; now left). cbn [obind]. rewrite IH by (intros q Hq; apply H; now right). f_equal. ring. }
  rewrite G. f_equal. ring.
Qed.
Lemma usga_ok idx : (forall k, In k idx -> inr n one k) -> usga K idx y b inc one = Some (map (fun k => g (k - off one)) idx).
Proof.
  induction idx as [|k idx IH]; intros H; [reflexivity|]. cbn [usga map].
  rewrite adr3, Hy by (apply H; now left). cbn [obind]. rewrite IH by (intros q Hq; apply H; now right). reflexivity.
Qed.
End with_y.

Lemma usgz_ok y0 b inc n one idx : inc <> 0 -> NoDup idx -> (forall k, In k idx -> inr n one k) -> forall y g, Y y0 b inc n y g ->
  exists y', usgz K idx y b inc one = Some (map (fun k => g (k - off one)) idx, y')
   /\ Y y0 b inc n y' (fun i => if existsb (Z.eqb (i + off one)) idx then 0' else g i).
Proof.
  intros Hi. induction idx as [|k idx IH]; intros ND H y g HY.
  - exists y. split; [reflexivity|]. exact HY.
  - inversion ND; subst. cbn [usgz map]. rewrite !adr3. pose proof (H k (or_introl eq_refl)) as Hk. unfold index_ok in Hk.
    rewrite (proj1 HY _ Hk). cbn [obind].
    destruct (vset_Y y0 b inc n Hi y g _ 0' HY Hk) as (y1 & E1 & HY1). rewrite E1. cbn [obind].
    destruct (IH ltac:(assumption) (fun q Hq => H q (or_intror Hq)) y1 _ HY1) as (y2 & E2 & HY2). rewrite E2. cbn [obind fst snd].
    exists y2. split.
    + f_equal. f_equal. f_equal. apply map_ext_in. intros q Hq. destruct (Z.eqb_spec (k - off one) (q - off one)); [|reflexivity].
      exfalso. assert (k = q) by lia. subst q. contradiction.
    + eapply Y_ext; [|exact HY2]. intros i Hi'. cbv beta. cbn [existsb].
      destruct (Z.eqb_spec (k - off one) i), (Z.eqb_spec (i + off one) k); try lia; cbn [orb]; [|reflexivity].
      destruct (existsb _ idx); reflexivity.
Qed.

Lemma ussc_ok y0 b inc n one xi : inc <> 0 -> (forall p, In p xi -> inr n one (snd p)) -> forall y g, Y y0 b inc n y g ->
  exists y', ussc K xi y b inc one = Some y' /\ Y y0 b inc n y' (scattered one xi g).
Proof.
  intros Hi. unfold ussc. induction xi as [|p xi IH]; intros H y g HY.
  - exists y. split; [reflexivity|]. exact HY.
  - cbn [each]. rewrite adr3. pose proof (H p (or_introl eq_refl)) as Hk. unfold index_ok in Hk.
    destruct (vset_Y y0 b inc n Hi y g _ (fst p) HY Hk) as (y1 & E1 & HY1). rewrite E1. cbn [obind].
    destruct (IH (fun q Hq => H q (or_intror Hq)) y1 _ HY1) as (y2 & E2 & HY2). exists y2. split; [exact E2|].
    eapply Y_ext; [|exact HY2]. intros i _. unfold scattered. cbn [fold_left]. f_equal.
    destruct (Z.eqb_spec (snd p - off one) i), (Z.eqb_spec (snd p) (i + off one)); try lia; reflexivity.
Qed.
End level1.
