(** Products with a finished matrix. *)
From Coq Require Import List Bool Arith ZArith Lia Ring Ring_theory.
From Verif Require Import SparseModel SparseSpec SparseProofs SparseBuild.
Import ListNotations.

Section proofs.
Context {K : scal} (L : lawful K).
Local Lemma Kring : ring_theory (@s0 K) s1 sadd smul ssub sopp eq.
Proof. exact (law_ring K L). Qed.
Add Ring Kr3 : Kring.
Local Open Scope Z_scope.
Infix "+'" := (@sadd K) (at level 50, left associativity).
Infix "*'" := (@smul K) (at level 40, left associativity).
Notation "0'" := (@s0 K).

Section product.
Context (ps : list prop) (M N : nat) (ts : list (triplet K)).
Context (Hher : hermitian ps = false).
Context (Hst : triangular ps || symmetric ps = true -> M = N).
Context (Hex : triangular ps || symmetric ps = true -> exists t, In t ts /\ in_range (base ps) M N t).
Context (m : smat K) (Hm : build ps M N ts = Some m).

Let dg (i : Z) : K := if has UnitDiag ps then s1 else inserted (base ps) ts i i.
Lemma built : wf m M N /\ stat K m = Valid
  /\ is_tri K m = triangular ps /\ is_sym K m = symmetric ps /\ ltri K m = has LowerTri ps
  /\ (forall i j, 0 <= i < Z.of_nat M -> 0 <= j < Z.of_nat N ->
      coef m i j = if (triangular ps || symmetric ps) && Z.eqb i j then 0' else inserted (base ps) ts i j)
  /\ (triangular ps || symmetric ps = true -> length (diag K m) = M /\ forall i, 0 <= i < Z.of_nat M ->
        nth (Z.to_nat i) (diag K m) 0' = dg i).
Proof.
  destruct (build_ok L ps M N ts Hher Hst Hex) as (m' & E & H). rewrite Hm in E. injection E as <-. exact H.
Qed.

Lemma dense_split i j : 0 <= i < Z.of_nat M -> 0 <= j < Z.of_nat N ->
  dense ps ts i j = coef m i j +' (if triangular ps || symmetric ps then if Z.eqb i j then dg i else 0' else 0')
     +' (if symmetric ps then coef m j i else 0').
Proof.
  intros Hi Hj. destruct built as (_ & _ & _ & _ & _ & C & _).
  unfold dense. destruct (triangular ps || symmetric ps) eqn:Es.
  - pose proof (Hst eq_refl) as EMN. rewrite !C by lia. rewrite (Z.eqb_sym j i).
    destruct (Z.eqb_spec i j) as [->|Hne]; cbn [andb].
    + unfold dg. destruct (symmetric ps); ring.
    + destruct (symmetric ps); ring.
  - apply orb_false_elim in Es as [_ Es']. rewrite Es'. rewrite C by lia. cbn [andb]. ring.
Qed.

Lemma orb_sym_true a b : b = true -> a || b = true.
Proof. intros ->. apply orb_true_r. Qed.

(** The three parts of a product, plain. *)
Lemma plain_ok h alpha x bx incx f y0 by_ incy y g : additive h -> incy <> 0 -> view x bx incx N f ->
  Y y0 by_ incy M y g ->
  exists y', obind (nondiag K h m alpha x bx incx by_ incy y) (fun y =>
     obind (if is_tri K m || is_sym K m then mult_diag K h m alpha x bx incx by_ incy y else Some y) (fun y =>
     if is_sym K m then nondiag_trans K h m alpha x bx incx by_ incy y else Some y)) = Some y'
  /\ Y y0 by_ incy M y' (fun i => g i +' alpha *' sumto N (fun j => h (dense ps ts i j) *' f j)).
Proof.
  intros Hh Hi Hx Hy. destruct built as (W & _ & Et & Es & _ & C & D). rewrite Et, Es. pose proof dense_split as DS.
  destruct (nondiag_ok L h m M N alpha x bx incx f y0 by_ incy Hh W Hi Hx y g Hy) as (y1 & E1 & H1). rewrite E1. cbn [obind].
  destruct (triangular ps || symmetric ps) eqn:Est.
  - destruct (D eq_refl) as [Dl Dn]. pose proof (Hst eq_refl) as EMN.
    assert (Hx' : view x bx incx M f) by (rewrite EMN; exact Hx).
    destruct (mult_diag_ok L h m alpha x bx incx f y0 by_ incy M Hi Hx' Dl y1 _ H1) as (y2 & E2 & H2). rewrite E2. cbn [obind].
    destruct (symmetric ps) eqn:Esy.
    + assert (H2' : Y y0 by_ incy N y2 (fun i => g i +' alpha *' sumto N (fun j => h (coef m i j) *' f j)
         +' alpha *' (h (nth (Z.to_nat i) (diag K m) 0') *' f i))) by (rewrite <- EMN at 1; exact H2).
      destruct (nondiag_trans_ok L h m M N alpha x bx incx f y0 by_ incy Hh W Hi Hx' y2 _ H2') as (y3 & E3 & H3).
      exists y3. split; [exact E3|]. rewrite EMN at 1. eapply Y_ext; [|exact H3]. intros i Hi'. cbv beta.
      rewrite Dn by lia. rewrite EMN.
      rewrite (sumto_ext L N (fun j => h (dense ps ts i j) *' f j)
        (fun j => h (coef m i j) *' f j +' (if Z.eqb i j then h (dg i) *' f j else 0') +' h (coef m j i) *' f j)).
      * rewrite !(sumto_add L), (sumto_single L N i (fun j => h (dg i) *' f j)) by lia. ring.
      * intros j Hj. rewrite DS by lia. cbv iota. rewrite !Hh.
        destruct (Z.eqb i j); [ring|]. rewrite (additive_0 L h) by exact Hh. ring.
    + exists y2. split; [reflexivity|]. eapply Y_ext; [|exact H2]. intros i Hi'. cbv beta.
      rewrite Dn by lia.
      rewrite (sumto_ext L N (fun j => h (dense ps ts i j) *' f j)
        (fun j => h (coef m i j) *' f j +' (if Z.eqb i j then h (dg i) *' f j else 0'))).
      * rewrite !(sumto_add L), (sumto_single L N i (fun j => h (dg i) *' f j)) by lia. ring.
      * intros j Hj. rewrite DS by lia. cbv iota. rewrite !Hh. rewrite (additive_0 L h) by exact Hh.
        destruct (Z.eqb i j); [ring|]. rewrite (additive_0 L h) by exact Hh. ring.
  - apply orb_false_elim in Est as Es'. destruct Es' as [_ Esy]. rewrite Esy in *. cbn [obind].
    exists y1. split; [reflexivity|]. eapply Y_ext; [|exact H1]. intros i Hi'. cbv beta. f_equal. f_equal.
    apply (sumto_ext L). intros j Hj. rewrite DS by lia. cbv iota. f_equal. f_equal. ring.
Qed.

Lemma trans_ok h alpha x bx incx f y0 by_ incy y g : additive h -> incy <> 0 -> view x bx incx M f ->
  Y y0 by_ incy N y g ->
  exists y', obind (nondiag_trans K h m alpha x bx incx by_ incy y) (fun y =>
     obind (if is_tri K m || is_sym K m then mult_diag K h m alpha x bx incx by_ incy y else Some y) (fun y =>
     if is_sym K m then nondiag K h m alpha x bx incx by_ incy y else Some y)) = Some y'
  /\ Y y0 by_ incy N y' (fun i => g i +' alpha *' sumto M (fun j => h (dense ps ts j i) *' f j)).
Proof.
  intros Hh Hi Hx Hy. destruct built as (W & _ & Et & Es & _ & C & D). rewrite Et, Es. pose proof dense_split as DS.
  destruct (nondiag_trans_ok L h m M N alpha x bx incx f y0 by_ incy Hh W Hi Hx y g Hy) as (y1 & E1 & H1). rewrite E1. cbn [obind].
  destruct (triangular ps || symmetric ps) eqn:Est.
  - destruct (D eq_refl) as [Dl Dn]. pose proof (Hst eq_refl) as EMN.
    assert (Hx' : view x bx incx N f) by (rewrite <- EMN; exact Hx).
    assert (H1' : Y y0 by_ incy M y1 (fun j => g j +' alpha *' sumto M (fun i => h (coef m i j) *' f i))) by (rewrite EMN at 1; exact H1).
    destruct (mult_diag_ok L h m alpha x bx incx f y0 by_ incy M Hi Hx Dl y1 _ H1') as (y2 & E2 & H2). rewrite E2. cbn [obind].
    destruct (symmetric ps) eqn:Esy.
    + destruct (nondiag_ok L h m M N alpha x bx incx f y0 by_ incy Hh W Hi Hx' y2 _ H2) as (y3 & E3 & H3).
      exists y3. split; [exact E3|]. rewrite <- EMN at 1. eapply Y_ext; [|exact H3]. intros i Hi'. cbv beta.
      rewrite Dn by lia. rewrite EMN.
      rewrite (sumto_ext L N (fun j => h (dense ps ts j i) *' f j)
        (fun j => h (coef m j i) *' f j +' (if Z.eqb i j then h (dg i) *' f j else 0') +' h (coef m i j) *' f j)).
      * rewrite !(sumto_add L), (sumto_single L N i (fun j => h (dg i) *' f j)) by lia. ring.
      * intros j Hj. rewrite DS by lia. cbv iota. rewrite !Hh. rewrite (Z.eqb_sym i j).
        destruct (Z.eqb_spec j i) as [->|]; [ring|]. rewrite (additive_0 L h) by exact Hh. ring.
    + exists y2. split; [reflexivity|]. rewrite <- EMN at 1. eapply Y_ext; [|exact H2]. intros i Hi'. cbv beta.
      rewrite Dn by lia.
      rewrite (sumto_ext L M (fun j => h (dense ps ts j i) *' f j)
        (fun j => h (coef m j i) *' f j +' (if Z.eqb i j then h (dg i) *' f j else 0'))).
      * rewrite !(sumto_add L), (sumto_single L M i (fun j => h (dg i) *' f j)) by lia. ring.
      * intros j Hj. rewrite DS by lia. cbv iota. rewrite !Hh. rewrite (additive_0 L h) by exact Hh. rewrite (Z.eqb_sym i j).
        destruct (Z.eqb_spec j i) as [->|]; [ring|]. rewrite (additive_0 L h) by exact Hh. ring.
  - apply orb_false_elim in Est as Es'. destruct Es' as [_ Esy]. rewrite Esy in *. cbn [obind].
    exists y1. split; [reflexivity|]. eapply Y_ext; [|exact H1]. intros i Hi'. cbv beta. f_equal. f_equal.
    apply (sumto_ext L). intros j Hj. rewrite DS by lia. cbv iota. f_equal. f_equal. ring.
Qed.

Lemma usmv_Y t alpha x bx incx f y0 by_ incy y g : incy <> 0 -> view x bx incx (op_cols t M N) f ->
  Y y0 by_ incy (op_rows t M N) y g ->
  exists y', usmv K t alpha m x bx incx y by_ incy = Some (0, y')
  /\ Y y0 by_ incy (op_rows t M N) y' (fun i => g i +' alpha *' sumto (op_cols t M N) (fun j => op t (dense ps ts) i j *' f j)).
Proof.
  intros Hi Hx Hy. unfold usmv. destruct built as (_ & V & _). unfold is_valid. rewrite V. cbn [negb].
  destruct t; cbn [op_rows op_cols] in *; unfold op.
  - destruct (plain_ok (idc K) alpha x bx incx f y0 by_ incy y g) as (y' & E & H); auto; [now apply additive_id|].
    unfold mult_vec. rewrite E. exists y'. split; [reflexivity|]. exact H.
  - destruct (trans_ok (idc K) alpha x bx incx f y0 by_ incy y g) as (y' & E & H); auto; [now apply additive_id|].
    unfold mult_vec_trans. rewrite E. exists y'. split; [reflexivity|]. exact H.
  - destruct (trans_ok sconj alpha x bx incx f y0 by_ incy y g) as (y' & E & H); auto; [now apply additive_conj|].
    unfold mult_vec_conj. rewrite E. exists y'. split; [reflexivity|]. exact H.
Qed.

Lemma usmv_ok t alpha x bx incx f by_ incy y g : incy <> 0 -> view x bx incx (op_cols t M N) f ->
  view y by_ incy (op_rows t M N) g ->
  exists y', usmv K t alpha m x bx incx y by_ incy = Some (0, y')
  /\ view y' by_ incy (op_rows t M N) (fun i => g i +' alpha *' sumto (op_cols t M N) (fun j => op t (dense ps ts) i j *' f j))
  /\ same_outside y y' by_ incy (op_rows t M N).
Proof.
  intros Hi Hx Hy. destruct (usmv_Y t alpha x bx incx f y by_ incy y g Hi Hx) as (y' & E & V & S).
  - split; [exact Hy|]. intros a _. reflexivity.
  - eauto.
Qed.

(** Products with several right-hand sides. *)
Lemma usmm_ok o t nrhs alpha b ldb B c ldc G :
  (match o with ColMajor => Z.of_nat (op_rows t M N) <= ldc | RowMajor => Z.of_nat nrhs <= ldc end) ->
  0 < ldc ->
  (forall i k, 0 <= i < Z.of_nat (op_cols t M N) -> 0 <= k < Z.of_nat nrhs ->
     b (match o with ColMajor => i + k * ldb | RowMajor => i * ldb + k end) = Some (B i k)) ->
  (forall i k, 0 <= i < Z.of_nat (op_rows t M N) -> 0 <= k < Z.of_nat nrhs ->
     c (match o with ColMajor => i + k * ldc | RowMajor => i * ldc + k end) = Some (G i k)) ->
  exists c', usmm K o t nrhs alpha m b ldb c ldc = Some (0, c')
  /\ (forall i k, 0 <= i < Z.of_nat (op_rows t M N) -> 0 <= k < Z.of_nat nrhs ->
     c' (match o with ColMajor => i + k * ldc | RowMajor => i * ldc + k end)
     = Some (G i k +' alpha *' sumto (op_cols t M N) (fun j => op t (dense ps ts) i j *' B j k)))
  /\ (forall a, (forall i k, 0 <= i < Z.of_nat (op_rows t M N) -> 0 <= k < Z.of_nat nrhs ->
       a <> match o with ColMajor => i + k * ldc | RowMajor => i * ldc + k end) -> c' a = c a).
Proof.
  intros Hld Hpos HB HG. unfold usmm. destruct built as (_ & V & _). unfold is_valid. rewrite V. cbn [negb].
  set (n := op_rows t M N) in *. set (q := op_cols t M N) in *.
  set (at_ := fun i k => match o with ColMajor => i + k * ldc | RowMajor => i * ldc + k end).
  assert (Inj : forall i k i' k', 0 <= i < Z.of_nat n -> 0 <= k < Z.of_nat nrhs -> 0 <= i' < Z.of_nat n -> 0 <= k' < Z.of_nat nrhs ->
    at_ i k = at_ i' k' -> i = i' /\ k = k').
  { intros i k i' k' H1 H2 H3 H4 E. unfold at_ in E. destruct o; [|].
    - assert (i = i') by (apply Z.le_antisymm; [destruct (Z.lt_ge_cases i' i); [exfalso; nia|lia]|destruct (Z.lt_ge_cases i i'); [exfalso; nia|lia]]). subst. lia.
    - assert (k = k') by (apply Z.le_antisymm; [destruct (Z.lt_ge_cases k' k); [exfalso; nia|lia]|destruct (Z.lt_ge_cases k k'); [exfalso; nia|lia]]). subst. lia. }
  destruct (zfor_inv (X := vmem K) (fun k c1 =>
      (forall i l, 0 <= i < Z.of_nat n -> 0 <= l < Z.of_nat nrhs -> c1 (at_ i l) =
         Some (if Z.ltb l k then G i l +' alpha *' sumto q (fun j => op t (dense ps ts) i j *' B j l) else G i l))
      /\ (forall a, (forall i l, 0 <= i < Z.of_nat n -> 0 <= l < Z.of_nat nrhs -> a <> at_ i l) -> c1 a = c a))
    (fun i (c0 : vmem K) => obind (match o with RowMajor => usmv K t alpha m b i ldb c0 i ldc
               | ColMajor => usmv K t alpha m b (i * ldb) 1 c0 (i * ldc) 1 end) (fun r => Some (snd r))) nrhs 0 c) as (c' & E & H1 & H2).
  - split; [|intros; reflexivity]. intros i l Hi Hl. destruct (Z.ltb_spec l 0); [lia|]. unfold at_. now apply HG.
  - intros k c1 Hk [I1 I2].
    assert (Step : exists c2, (match o with RowMajor => usmv K t alpha m b k ldb c1 k ldc
               | ColMajor => usmv K t alpha m b (k * ldb) 1 c1 (k * ldc) 1 end) = Some (0, c2)
       /\ (forall i, 0 <= i < Z.of_nat n -> c2 (at_ i k) = Some (G i k +' alpha *' sumto q (fun j => op t (dense ps ts) i j *' B j k)))
       /\ (forall a, (forall i, 0 <= i < Z.of_nat n -> a <> at_ i k) -> c2 a = c1 a)).
    { destruct o.
      - destruct (usmv_ok t alpha b k ldb (fun j => B j k) k ldc c1 (fun i => G i k)) as (c2 & E2 & V2 & S2); [lia| | |].
        + intros j Hj. specialize (HB j k Hj ltac:(lia)). cbv beta iota in HB. rewrite <- HB. f_equal. lia.
        + intros i Hi. specialize (I1 i k Hi ltac:(lia)). rewrite Z.ltb_irrefl in I1. rewrite <- I1. f_equal. unfold at_. lia.
        + exists c2. split; [exact E2|]. split.
          * intros i Hi. etransitivity; [|exact (V2 i Hi)]. f_equal. unfold at_. lia.
          * intros a Ha. apply S2. intros i Hi E. apply (Ha i Hi). unfold at_. lia.
      - destruct (usmv_ok t alpha b (k * ldb) 1 (fun j => B j k) (k * ldc) 1 c1 (fun i => G i k)) as (c2 & E2 & V2 & S2); [lia| | |].
        + intros j Hj. specialize (HB j k Hj ltac:(lia)). cbv beta iota in HB. rewrite <- HB. f_equal. lia.
        + intros i Hi. specialize (I1 i k Hi ltac:(lia)). rewrite Z.ltb_irrefl in I1. rewrite <- I1. f_equal. unfold at_. lia.
        + exists c2. split; [exact E2|]. split.
          * intros i Hi. etransitivity; [|exact (V2 i Hi)]. f_equal. unfold at_. lia.
          * intros a Ha. apply S2. intros i Hi E. apply (Ha i Hi). unfold at_. lia. }
    destruct Step as (c2 & E2 & V2 & S2). rewrite E2. cbn [obind snd]. exists c2. split; [reflexivity|]. split.
    + intros i l Hi Hl. destruct (Z.eq_dec l k) as [->|Hne].
      * destruct (Z.ltb_spec k (k + 1)); [|lia]. now apply V2.
      * rewrite S2, I1 by (auto || (intros i' Hi' E'; destruct (Inj i l i' k Hi Hl Hi' ltac:(lia) E'); lia)).
        destruct (Z.ltb_spec l k), (Z.ltb_spec l (k + 1)); try lia; reflexivity.
    + intros a Ha. rewrite S2 by (intros i Hi; apply Ha; [exact Hi|lia]). now apply I2.
  - rewrite E. cbn [obind]. exists c'. split; [reflexivity|]. split; [|exact H2].
    intros i k Hi Hk. fold (at_ i k). rewrite H1 by assumption. destruct (Z.ltb_spec k (0 + Z.of_nat nrhs)); [reflexivity|lia].
Qed.
End product.
End proofs.

(** ** Products with dense matrices *)
Section dense.
Context {K : scal} (L : lawful K).
Local Lemma Kring2 : ring_theory (@s0 K) s1 sadd smul ssub sopp eq.
Proof. exact (law_ring K L). Qed.
Add Ring Kr6 : Kring2.
Local Open Scope Z_scope.
Infix "+'" := (@sadd K) (at level 50, left associativity).
Infix "*'" := (@smul K) (at level 40, left associativity).
Notation "0'" := (@s0 K).

Lemma zeros_at len a : 0 <= a < len -> zeros K len a = Some 0'.
Proof. intros H. unfold zeros. destruct (Z.leb_spec 0 a), (Z.ltb_spec a len); try lia. reflexivity. Qed.
Lemma zeros_bycols r c : bycols (zeros K (Z.of_nat r * Z.of_nat c)) r c (fun _ _ => 0').
Proof. intros i j Hi Hj. apply zeros_at. nia. Qed.

Lemma get_transpose_ok cj r c a (A : Z -> Z -> K) : bycols a r c A ->
  succeeds (get_transpose K cj r c a) (fun t => bycols t c r (fun i j => cj (A j i))).
Proof.
  intros HA. unfold get_transpose, succeeds.
  set (P := fun (i : Z) (j : Z) (res : vmem K) => forall p q, 0 <= p < Z.of_nat c -> 0 <= q < Z.of_nat r ->
     exists v, res (p + q * Z.of_nat c) = Some v /\ (q < i \/ (q = i /\ p < j) -> v = cj (A q p))).
  destruct (zfor_inv (X := vmem K) (fun i res => P i 0 res)
    (fun i res => zfor c 0 (fun j (res : vmem K) => obind (a (i + j * Z.of_nat r)) (fun v => vset K res (j + i * Z.of_nat c) (cj v))) res)
    r 0 (zeros K (Z.of_nat r * Z.of_nat c))) as (t & E & H).
  - intros p q Hp Hq. exists 0'. split; [apply zeros_at; nia|]. intros [|]; lia.
  - intros i res Hi Hr.
    destruct (zfor_inv (X := vmem K) (fun j res => P i j res)
      (fun j (res : vmem K) => obind (a (i + j * Z.of_nat r)) (fun v => vset K res (j + i * Z.of_nat c) (cj v))) c 0 res) as (res' & E' & H').
    + exact Hr.
    + intros j res1 Hj H1. rewrite HA by lia. cbn [obind]. unfold vset.
      destruct (H1 j i ltac:(lia) ltac:(lia)) as (v0 & Ev0 & _). rewrite Ev0. eexists; split; [reflexivity|].
      intros p q Hp Hq. cbv beta. destruct (Z.eqb_spec (p + q * Z.of_nat c) (j + i * Z.of_nat c)) as [Ea|Ea].
      * assert (q = i) by (apply Z.le_antisymm; [destruct (Z.lt_ge_cases i q); [exfalso; nia|lia]|destruct (Z.lt_ge_cases q i); [exfalso; nia|lia]]). subst q.
        assert (p = j) by lia. subst p. eexists; split; [reflexivity|]. reflexivity.
      * destruct (H1 p q Hp Hq) as (v & Ev & Hv). exists v. split; [exact Ev|]. intros [Hd|[-> Hd]]; apply Hv; [now left|right].
        split; [reflexivity|]. assert (p <> j) by (intros ->; apply Ea; reflexivity). lia.
    + exists res'. split; [exact E'|]. intros p q Hp Hq. destruct (H' p q Hp Hq) as (v & Ev & Hv). exists v. split; [exact Ev|].
      intros [Hd|[_ Hd]]; [|lia]. apply Hv. destruct (Z.eq_dec q i); [right|left]; lia.
  - exists t. split; [exact E|]. intros i j Hi Hj. destruct (H i j Hi Hj) as (v & Ev & Hv). rewrite Ev, Hv by lia. reflexivity.
Qed.

Section mat.
Context (ps : list prop) (M N : nat) (ts : list (triplet K)).
Context (Hher : hermitian ps = false).
Context (Hst : triangular ps || symmetric ps = true -> M = N).
Context (Hex : triangular ps || symmetric ps = true -> exists t, In t ts /\ in_range (base ps) M N t).
Context (m : smat K) (Hm : build ps M N ts = Some m).

Lemma dims : rows K m = M /\ cols K m = N.
Proof. destruct (built L ps M N ts Hher Hst Hex m Hm) as (W & _). split; apply W. Qed.

Lemma sparse_times_ok c b (B : Z -> Z -> K) : (0 < M)%nat -> bycols b N c B ->
  succeeds (sparse_times K m c b) (fun r => bycols r M c (fun i k => sumto N (fun j => dense ps ts i j *' B j k))).
Proof.
  intros HM HB. unfold sparse_times, succeeds. destruct dims as [-> ->].
  destruct (usmm_ok L ps M N ts Hher Hst Hex m Hm ColMajor NoTrans c s1 b (Z.of_nat N) B
    (zeros K (Z.of_nat M * Z.of_nat c)) (Z.of_nat M) (fun _ _ => 0')) as (c' & E & H & _).
  - cbn. lia.
  - lia.
  - cbn [op_cols]. intros i k Hi Hk. now apply HB.
  - cbn [op_rows]. intros i k Hi Hk. now apply (zeros_bycols M c).
  - rewrite E. cbn [obind snd]. exists c'. split; [reflexivity|]. intros i k Hi Hk. rewrite (H i k Hi Hk). f_equal.
    cbn [op_cols op]. ring.
Qed.

Lemma times_sparse_ok (cplx : bool) r a (A : Z -> Z -> K) : (0 < N)%nat -> bycols a r M A ->
  succeeds (times_sparse K (if cplx then sconj else idc K) (if cplx then ConjTrans else Trans) r a m)
    (fun res => bycols res r N (fun i k => sumto M (fun j => A i j *' dense ps ts j k))).
Proof.
  intros HN HA. unfold times_sparse, succeeds. destruct dims as [-> ->].
  set (cj := if cplx then sconj else idc K). set (t := if cplx then ConjTrans else Trans).
  assert (Er : op_rows t M N = N) by (unfold t; now destruct cplx). assert (Ec : op_cols t M N = M) by (unfold t; now destruct cplx).
  destruct (get_transpose_ok cj r M a A HA) as (a1 & E1 & H1). rewrite E1. cbn [obind].
  destruct (usmm_ok L ps M N ts Hher Hst Hex m Hm ColMajor t r s1 a1 (Z.of_nat M) (fun i j => cj (A j i))
    (zeros K (Z.of_nat N * Z.of_nat r)) (Z.of_nat N) (fun _ _ => 0')) as (c1 & E & H & _).
  - cbn. rewrite Er. lia.
  - lia.
  - rewrite Ec. intros i k Hi Hk. now apply H1.
  - rewrite Er. intros i k Hi Hk. now apply (zeros_bycols N r).
  - rewrite E. cbn [obind snd]. rewrite Er in H.
    destruct (get_transpose_ok cj N r c1 (fun i k => 0' +' s1 *' sumto (op_cols t M N) (fun j => op t (dense ps ts) i j *' cj (A k j)))) as (c2 & E2 & H2).
    { intros i k Hi Hk. now apply H. }
    exists c2. split; [exact E2|]. intros i k Hi Hk. rewrite (H2 i k Hi Hk). f_equal. rewrite Ec.
    replace (0' +' s1 *' sumto M (fun j => op t (dense ps ts) k j *' cj (A i j))) with (sumto M (fun j => op t (dense ps ts) k j *' cj (A i j))) by ring.
    unfold cj, t. destruct cplx; cbn [op].
    + assert (cs : forall n (f : Z -> K), sconj (sumto n f) = sumto n (fun j => sconj (f j))).
      { induction n as [|n IH]; intros f; [apply (additive_0 L sconj), additive_conj; exact L|]. rewrite !(sumto_S L), (law_conj_add K L), IH. reflexivity. }
      rewrite cs. apply (sumto_ext L). intros j _. rewrite (law_conj_mul K L), !(law_conj_conj K L). ring.
    + unfold idc. apply (sumto_ext L). intros j _. ring.
Qed.
End mat.
End dense.
