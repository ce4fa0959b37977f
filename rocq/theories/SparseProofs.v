(** Sums, and the effect of the product loops. *)
From Coq Require Import List Bool Arith ZArith Lia Ring Ring_theory.
From Verif Require Import SparseModel SparseSpec.
Import ListNotations.

Section proofs.
Context {K : scal} (L : lawful K).
Local Lemma Kring : ring_theory (@s0 K) s1 sadd smul ssub sopp eq.
Proof. exact (law_ring K L). Qed.
Add Ring Kr : Kring.
Local Open Scope Z_scope.
Infix "+'" := (@sadd K) (at level 50, left associativity).
Infix "*'" := (@smul K) (at level 40, left associativity).
Notation "0'" := (@s0 K).

(** ** Sums *)
Lemma lsum_app (a b : list K) : lsum (a ++ b) = lsum a +' lsum b.
Proof. induction a as [|x a IH]; cbn [lsum app]; [ring|]. rewrite IH. ring. Qed.

Lemma sumto_S n (f : Z -> K) : sumto (S n) f = sumto n f +' f (Z.of_nat n).
Proof. unfold sumto. rewrite seq_S, map_app, lsum_app. cbn [map lsum Nat.add]. ring. Qed.
Lemma sumto_ext n (f g : Z -> K) : (forall k, 0 <= k < Z.of_nat n -> f k = g k) -> sumto n f = sumto n g.
Proof.
  induction n as [|n IH]; intros H; [reflexivity|]. rewrite !sumto_S, IH, H by lia || (intros; apply H; lia).
  reflexivity.
Qed.
Lemma sumto_add n (f g : Z -> K) : sumto n (fun k => f k +' g k) = sumto n f +' sumto n g.
Proof. induction n as [|n IH]; [cbn; ring|]. rewrite !sumto_S, IH. ring. Qed.
Lemma sumto_scale n a (f : Z -> K) : sumto n (fun k => a *' f k) = a *' sumto n f.
Proof. induction n as [|n IH]; [cbn; ring|]. rewrite !sumto_S, IH. ring. Qed.
Lemma sumto_zero n : sumto n (fun _ => 0') = 0'.
Proof. induction n as [|n IH]; [reflexivity|]. rewrite sumto_S, IH. ring. Qed.
Lemma sumto_single n c (v : Z -> K) : 0 <= c < Z.of_nat n -> sumto n (fun k => if Z.eqb c k then v k else 0') = v c.
Proof.
  induction n as [|n IH]; [lia|]. intros H. rewrite sumto_S.
  destruct (Z.eqb_spec c (Z.of_nat n)) as [E|E].
  - rewrite (sumto_ext n _ (fun _ => 0')), sumto_zero, <- E; [ring|].
    intros k Hk. destruct (Z.eqb_spec c k); [lia|reflexivity].
  - rewrite IH by lia. ring.
Qed.

(** ** Additive maps: identity and conjugation *)
Definition additive (h : K -> K) : Prop := forall x y, h (x +' y) = h x +' h y.
Lemma additive_0 h : additive h -> h 0' = 0'.
Proof.
  intros H. assert (E : h 0' = h 0' +' h 0') by (rewrite <- H; f_equal; ring).
  replace (h 0') with (h 0' +' h 0' +' sopp (h 0')) at 1 by ring. rewrite <- E. ring.
Qed.
Lemma additive_id : additive (idc K).
Proof. intros x y. reflexivity. Qed.
Lemma additive_conj : additive sconj.
Proof. exact (law_conj_add K L). Qed.

(** ** Rows *)
Definition rowcoef (r : list (K * Z)) (j : Z) : K := lsum (map fst (filter (fun p => Z.eqb (snd p) j) r)).
Definition row_in (N : nat) (r : list (K * Z)) : Prop := forall p, In p r -> 0 <= snd p < Z.of_nat N.

Lemma rowcoef_cons v c r j : rowcoef ((v, c) :: r) j = (if Z.eqb c j then v else 0') +' rowcoef r j.
Proof. unfold rowcoef. cbn [filter snd]. destruct (Z.eqb c j); cbn [map lsum fst]; ring. Qed.
Lemma rowcoef_app r v c j : rowcoef (r ++ [(v, c)]) j = rowcoef r j +' (if Z.eqb c j then v else 0').
Proof.
  unfold rowcoef. rewrite filter_app, map_app, lsum_app. cbn [filter snd].
  destruct (Z.eqb c j); cbn [map lsum fst]; ring.
Qed.

Lemma dot_coef h N r (f : Z -> K) : additive h -> row_in N r ->
  lsum (map (fun p => h (fst p) *' f (snd p)) r) = sumto N (fun j => h (rowcoef r j) *' f j).
Proof.
  intros Hh. induction r as [|[v c] r IH]; intros Hr.
  - cbn [map lsum]. rewrite (sumto_ext N _ (fun _ => 0')), sumto_zero; [reflexivity|].
    intros j _. change (rowcoef [] j) with 0'. rewrite (additive_0 h) by exact Hh. ring.
  - cbn [map lsum fst snd]. rewrite IH by (intros p Hp; apply Hr; now right).
    rewrite (sumto_ext N (fun j => h (rowcoef ((v, c) :: r) j) *' f j)
      (fun j => (if Z.eqb c j then h v *' f j else 0') +' h (rowcoef r j) *' f j)).
    + rewrite sumto_add, (sumto_single N c (fun j => h v *' f j)); [reflexivity|]. apply (Hr (v, c)). now left.
    + intros j _. rewrite rowcoef_cons, Hh. destruct (Z.eqb c j); [ring|]. rewrite (additive_0 h) by exact Hh. ring.
Qed.

Lemma adr1 (b inc c : Z) : (if Z.eqb inc 1 then b + c else b + c * inc) = b + c * inc.
Proof. destruct (Z.eqb_spec inc 1) as [->|]; lia. Qed.
Lemma adr2 (b inc c : Z) : (if Z.eqb inc 1 then b + c else b + inc * c) = b + c * inc.
Proof. destruct (Z.eqb_spec inc 1) as [->|]; lia. Qed.

Lemma sp_dot_acc h r x b inc N f : row_in N r -> view x b inc N f -> forall acc,
  each r (fun p sum => obind (x (if Z.eqb inc 1 then b + snd p else b + snd p * inc)) (fun xv => Some (sadd sum (smul (h (fst p)) xv)))) acc
  = Some (acc +' lsum (map (fun p => h (fst p) *' f (snd p)) r)).
Proof.
  intros Hr Hx. induction r as [|p r IH]; intros acc; cbn [each map lsum]; [f_equal; ring|].
  rewrite adr1, Hx by (apply Hr; now left). cbn [obind]. rewrite IH by (intros q Hq; apply Hr; now right).
  f_equal. ring.
Qed.
Lemma sp_dot_ok h r x b inc N f : additive h -> row_in N r -> view x b inc N f ->
  sp_dot K h r x b inc = Some (sumto N (fun j => h (rowcoef r j) *' f j)).
Proof.
  intros Hh Hr Hx. unfold sp_dot. rewrite (sp_dot_acc h r x b inc N f Hr Hx). f_equal.
  rewrite (dot_coef h N) by assumption. ring.
Qed.

(** ** Updating a strided vector *)
Section vector.
Context (y0 : vmem K) (b inc : Z) (n : nat) (Hinc : inc <> 0).
Definition Y (y : vmem K) (g : Z -> K) : Prop := view y b inc n g /\ same_outside y0 y b inc n.
Lemma Y_ext y g g' : (forall k, 0 <= k < Z.of_nat n -> g k = g' k) -> Y y g -> Y y g'.
Proof. intros E [V S]. split; [|exact S]. intros k Hk. rewrite <- E by exact Hk. now apply V. Qed.

Lemma adr_inj k k' : b + k * inc = b + k' * inc -> k = k'.
Proof. intros E. apply Z.mul_reg_r with inc; lia. Qed.
Lemma vset_Y y g k v : Y y g -> 0 <= k < Z.of_nat n ->
  exists y', vset K y (b + k * inc) v = Some y' /\ Y y' (fun i => if Z.eqb k i then v else g i).
Proof.
  intros [V S] Hk. unfold vset. rewrite (V k Hk). eexists; split; [reflexivity|]. split.
  - intros i Hi. cbv beta. destruct (Z.eqb_spec (b + i * inc) (b + k * inc)) as [E|E].
    + apply adr_inj in E. subst i. now rewrite Z.eqb_refl.
    + destruct (Z.eqb_spec k i) as [->|]; [congruence|]. now apply V.
  - intros a Ha. cbv beta. destruct (Z.eqb_spec a (b + k * inc)) as [E|E]; [now apply Ha in E|]. now apply S.
Qed.
Lemma vadd_Y y g k v : Y y g -> 0 <= k < Z.of_nat n ->
  exists y', vadd K y (b + k * inc) v = Some y' /\ Y y' (fun i => g i +' (if Z.eqb k i then v else 0')).
Proof.
  intros H Hk. unfold vadd. rewrite (proj1 H k Hk). cbn [obind].
  destruct (vset_Y y g k (g k +' v) H Hk) as (y' & E & H'). exists y'. split; [exact E|].
  eapply Y_ext; [|exact H']. intros i _. cbv beta. destruct (Z.eqb_spec k i) as [->|]; [reflexivity|ring].
Qed.

Lemma sp_axpy_ok h a r : additive h -> row_in n r -> forall y g, Y y g ->
  exists y', sp_axpy K h a r b inc y = Some y' /\ Y y' (fun k => g k +' a *' h (rowcoef r k)).
Proof.
  intros Hh. unfold sp_axpy. induction r as [|[v c] r IH]; intros Hr y g Hy; cbn [each].
  - exists y. split; [reflexivity|]. eapply Y_ext; [|exact Hy]. intros k _. cbv beta. change (rowcoef [] k) with 0'.
    rewrite (additive_0 h) by exact Hh. ring.
  - cbn [fst snd]. rewrite adr2.
    destruct (vadd_Y y g c (a *' h v) Hy (Hr (v, c) (or_introl eq_refl))) as (y1 & E1 & H1). rewrite E1. cbn [obind].
    destruct (IH (fun p Hp => Hr p (or_intror Hp)) y1 _ H1) as (y2 & E2 & H2). exists y2. split; [exact E2|].
    eapply Y_ext; [|exact H2]. intros k _. cbv beta. rewrite rowcoef_cons, Hh.
    destruct (Z.eqb c k); [ring|]. rewrite (additive_0 h) by exact Hh. ring.
Qed.
End vector.

(** ** The loops over the rows *)
Lemma zfor_inv {X} (P : Z -> X -> Prop) body k : forall i x, P i x ->
  (forall j x, i <= j < i + Z.of_nat k -> P j x -> exists x', body j x = Some x' /\ P (j + 1) x') ->
  exists x', zfor k i body x = Some x' /\ P (i + Z.of_nat k) x'.
Proof.
  induction k as [|k IH]; intros i x H0 Hb.
  - exists x. rewrite Z.add_0_r. auto.
  - destruct (Hb i x ltac:(lia) H0) as (x1 & E1 & H1). cbn [zfor]. rewrite E1. cbn [obind].
    destruct (IH (i + 1) x1 H1) as (x2 & E2 & H2).
    + intros j x' Hj. apply Hb. lia.
    + exists x2. split; [exact E2|]. replace (i + Z.of_nat (S k)) with (i + 1 + Z.of_nat k) by lia. exact H2.
Qed.
Lemma zdown_inv {X} (P : Z -> X -> Prop) body k : forall x, P (Z.of_nat k) x ->
  (forall j x, 0 <= j < Z.of_nat k -> P (j + 1) x -> exists x', body j x = Some x' /\ P j x') ->
  exists x', zdown k body x = Some x' /\ P 0 x'.
Proof.
  induction k as [|k IH]; intros x H0 Hb.
  - exists x. auto.
  - destruct (Hb (Z.of_nat k) x ltac:(lia)) as (x1 & E1 & H1).
    { replace (Z.of_nat k + 1) with (Z.of_nat (S k)) by lia. exact H0. }
    cbn [zdown]. rewrite E1. cbn [obind]. apply IH; [exact H1|]. intros j x' Hj. apply Hb. lia.
Qed.

(** The matrix stored off the diagonal. *)
Definition row (m : smat K) (i : Z) : list (K * Z) := nth (Z.to_nat i) (S_ K m) [].
Definition coef (m : smat K) (i j : Z) : K := rowcoef (row m i) j.
Record wf (m : smat K) (M N : nat) : Prop := {
  wf_rows : rows K m = M; wf_cols : cols K m = N; wf_S : length (S_ K m) = M;
  wf_in : forall i, 0 <= i < Z.of_nat M -> row_in N (row m i) }.

Lemma vecnth_row m M N i : wf m M N -> 0 <= i < Z.of_nat M -> vecnth (S_ K m) i = Some (row m i).
Proof.
  intros W Hi. unfold vecnth, row. destruct (Z.ltb_spec i 0); [lia|]. apply nth_error_nth'.
  rewrite (wf_S _ _ _ W). lia.
Qed.

Lemma nondiag_ok h m M N alpha x bx incx f y0 by_ incy : additive h -> wf m M N -> incy <> 0 -> view x bx incx N f ->
  forall y g, Y y0 by_ incy M y g ->
  exists y', nondiag K h m alpha x bx incx by_ incy y = Some y'
    /\ Y y0 by_ incy M y' (fun i => g i +' alpha *' sumto N (fun j => h (coef m i j) *' f j)).
Proof.
  intros Hh W Hi Hx y g Hy. unfold nondiag. rewrite (wf_rows _ _ _ W).
  destruct (zfor_inv (fun k y => Y y0 by_ incy M y (fun i => g i +' if Z.ltb i k then alpha *' sumto N (fun j => h (coef m i j) *' f j) else 0'))
    (fun i y => obind (vecnth (S_ K m) i) (fun r => obind (sp_dot K h r x bx incx) (fun d =>
     vadd K y (if Z.eqb incy 1 then by_ + i else by_ + i * incy) (smul alpha d)))) M 0 y) as (y' & E & H').
  - eapply Y_ext; [|exact Hy]. intros i Hi'. cbv beta. destruct (Z.ltb_spec i 0); [lia|]. ring.
  - intros i y1 Hi' H1. rewrite (vecnth_row m M N) by (assumption || lia). cbn [obind].
    rewrite (sp_dot_ok h (row m i) x bx incx N f); [|exact Hh|apply (wf_in _ _ _ W); lia|exact Hx]. cbn [obind]. rewrite adr1.
    destruct (vadd_Y y0 by_ incy M Hi y1 _ i (alpha *' sumto N (fun j => h (rowcoef (row m i) j) *' f j)) H1 ltac:(lia)) as (y2 & E2 & H2).
    exists y2. split; [exact E2|]. eapply Y_ext; [|exact H2]. intros k Hk. cbv beta.
    destruct (Z.eqb_spec i k) as [->|Hne].
    + rewrite Z.ltb_irrefl. destruct (Z.ltb_spec k (k + 1)); [|lia]. unfold coef. ring.
    + destruct (Z.ltb_spec k i), (Z.ltb_spec k (i + 1)); try lia; ring.
  - exists y'. split; [exact E|]. eapply Y_ext; [|exact H']. intros i Hi'. cbv beta. destruct (Z.ltb_spec i (0 + Z.of_nat M)); [reflexivity|lia].
Qed.

Lemma nondiag_trans_ok h m M N alpha x bx incx f y0 by_ incy : additive h -> wf m M N -> incy <> 0 -> view x bx incx M f ->
  forall y g, Y y0 by_ incy N y g ->
  exists y', nondiag_trans K h m alpha x bx incx by_ incy y = Some y'
    /\ Y y0 by_ incy N y' (fun j => g j +' alpha *' sumto M (fun i => h (coef m i j) *' f i)).
Proof.
  intros Hh W Hi Hx y g Hy. unfold nondiag_trans. rewrite (wf_rows _ _ _ W).
  assert (G : exists st, zfor M 0 (fun i st => let '(y, X) := st in
     obind (vecnth (S_ K m) i) (fun r => obind (x X) (fun xv =>
     obind (sp_axpy K h (smul alpha xv) r by_ incy y) (fun y => Some (y, X + incx))))) (y, bx) = Some st
     /\ Y y0 by_ incy N (fst st) (fun j => g j +' alpha *' sumto M (fun i => h (coef m i j) *' f i))).
  - destruct (zfor_inv (fun k st => snd st = bx + k * incx
       /\ Y y0 by_ incy N (fst st) (fun j => g j +' alpha *' sumto (Z.to_nat k) (fun i => h (coef m i j) *' f i)))
      (fun i st => let '(y, X) := st in
       obind (vecnth (S_ K m) i) (fun r => obind (x X) (fun xv =>
       obind (sp_axpy K h (smul alpha xv) r by_ incy y) (fun y => Some (y, X + incx))))) M 0 (y, bx)) as (st & E & _ & H').
    + split; [cbn [snd]; lia|]. eapply Y_ext; [|exact Hy]. intros i Hi'. cbv beta. cbn. ring.
    + intros i [y1 X] Hi' (EX & H1). cbn [fst snd] in *. subst X. rewrite (vecnth_row m M N) by (assumption || lia). cbn [obind].
      rewrite Hx by lia. cbn [obind].
      destruct (sp_axpy_ok y0 by_ incy N Hi h (alpha *' f i) (row m i) Hh (wf_in _ _ _ W i ltac:(lia)) y1 _ H1) as (y2 & E2 & H2).
      rewrite E2. cbn [obind]. eexists; split; [reflexivity|]. cbn [fst snd]. split; [lia|].
      eapply Y_ext; [|exact H2]. intros k Hk. cbv beta. replace (Z.to_nat (i + 1)) with (S (Z.to_nat i)) by lia.
      rewrite sumto_S. rewrite Z2Nat.id by lia. unfold coef. ring.
    + exists st. split; [exact E|]. eapply Y_ext; [|exact H']. intros j Hj. cbv beta. now rewrite Z.add_0_l, Nat2Z.id.
  - destruct G as (st & E & H'). rewrite E. cbn [obind]. eauto.
Qed.

Lemma mult_diag_each h alpha x bx incx f y0 by_ incy n : incy <> 0 -> view x bx incx n f ->
  forall ds k y g, 0 <= k -> k + Z.of_nat (length ds) <= Z.of_nat n -> Y y0 by_ incy n y g ->
  exists st, each ds (fun d st => let '(y, X, Yp) := st in
     obind (x X) (fun xv => obind (vadd K y Yp (smul (smul alpha (h d)) xv)) (fun y => Some (y, X + incx, Yp + incy))))
     (y, bx + k * incx, by_ + k * incy) = Some st
   /\ Y y0 by_ incy n (fst (fst st)) (fun i => g i +' if Z.leb k i && Z.ltb i (k + Z.of_nat (length ds))
        then alpha *' h (nth (Z.to_nat (i - k)) ds 0') *' f i else 0').
Proof.
  intros Hi Hx ds. induction ds as [|d ds IH]; intros k y g Hk Hn Hy; cbn [each length] in *.
  - eexists; split; [reflexivity|]. cbn [fst]. eapply Y_ext; [|exact Hy]. intros i _.
    destruct (Z.leb_spec k i), (Z.ltb_spec i (k + Z.of_nat 0)); cbn [andb]; try lia; ring.
  - rewrite Hx by lia. cbn [obind].
    destruct (vadd_Y y0 by_ incy n Hi y g k (alpha *' h d *' f k) Hy ltac:(lia)) as (y1 & E1 & H1). rewrite E1. cbn [obind].
    replace (bx + k * incx + incx) with (bx + (k + 1) * incx) by lia. replace (by_ + k * incy + incy) with (by_ + (k + 1) * incy) by lia.
    destruct (IH (k + 1) y1 _ ltac:(lia) ltac:(lia) H1) as (st & E & H'). exists st. split; [exact E|].
    eapply Y_ext; [|exact H']. intros i Hi'. cbv beta.
    destruct (Z.eqb_spec k i) as [<-|Hne].
    + destruct (Z.leb_spec (k + 1) k); [lia|]. cbn [andb].
      destruct (Z.leb_spec k k); [|lia]. destruct (Z.ltb_spec k (k + Z.of_nat (S (length ds)))); [|lia]. cbn [andb].
      rewrite Z.sub_diag. cbn [Z.to_nat nth]. ring.
    + destruct (Z.leb_spec (k + 1) i), (Z.leb_spec k i); try lia; cbn [andb]; [|ring].
      replace (k + 1 + Z.of_nat (length ds)) with (k + Z.of_nat (S (length ds))) by lia.
      destruct (Z.ltb_spec i (k + Z.of_nat (S (length ds)))); [|ring].
      replace (Z.to_nat (i - k)) with (S (Z.to_nat (i - (k + 1)))) by lia. cbn [nth]. ring.
Qed.
Lemma mult_diag_ok h m alpha x bx incx f y0 by_ incy n : incy <> 0 -> view x bx incx n f -> length (diag K m) = n ->
  forall y g, Y y0 by_ incy n y g ->
  exists y', mult_diag K h m alpha x bx incx by_ incy y = Some y'
    /\ Y y0 by_ incy n y' (fun i => g i +' alpha *' (h (nth (Z.to_nat i) (diag K m) 0') *' f i)).
Proof.
  intros Hi Hx Hd y g Hy. unfold mult_diag.
  destruct (mult_diag_each h alpha x bx incx f y0 by_ incy n Hi Hx (diag K m) 0 y g ltac:(lia) ltac:(lia) Hy) as (st & E & H').
  rewrite !Z.mul_0_l, !Z.add_0_r in E. rewrite E. cbn [obind]. eexists; split; [reflexivity|].
  eapply Y_ext; [|exact H']. intros i Hi'. cbv beta. rewrite Hd.
  destruct (Z.leb_spec 0 i), (Z.ltb_spec i (0 + Z.of_nat n)); try lia. cbn [andb]. rewrite Z.sub_0_r. ring.
Qed.
End proofs.
