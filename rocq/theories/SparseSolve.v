(** Triangular solves. *)
From Coq Require Import List Bool Arith ZArith Lia Ring Ring_theory.
From Verif Require Import SparseModel SparseSpec SparseProofs SparseBuild SparseProduct.
Import ListNotations.

Section proofs.
Context {K : scal} (L : lawful K).
Local Lemma Kring : ring_theory (@s0 K) s1 sadd smul ssub sopp eq.
Proof. exact (law_ring K L). Qed.
Add Ring Kr4 : Kring.
Local Open Scope Z_scope.
Infix "+'" := (@sadd K) (at level 50, left associativity).
Infix "*'" := (@smul K) (at level 40, left associativity).
Notation "0'" := (@s0 K).

Lemma div_ok (x y : K) : y <> 0' -> y *' sdiv x y = x.
Proof. intros H. rewrite <- (law_div K L x y H) at 2. ring. Qed.
Lemma conj_nz (d : K) : d <> 0' -> sconj d <> 0'.
Proof.
  intros H E. apply H. rewrite <- (law_conj_conj K L d), E. apply (additive_0 L sconj). exact (additive_conj L).
Qed.

(** Changing one entry of a vector. *)
Lemma sumto_upd n (a g : Z -> K) p v : 0 <= p < Z.of_nat n ->
  sumto n (fun j => a j *' (if Z.eqb p j then v else g j)) +' a p *' g p = sumto n (fun j => a j *' g j) +' a p *' v.
Proof.
  intros Hp. rewrite <- (sumto_single L n p (fun j => a j *' g j)) by exact Hp.
  rewrite <- (sumto_single L n p (fun j => a j *' v)) at 1 by exact Hp.
  rewrite <- !(sumto_add L). apply (sumto_ext L). intros j _. destruct (Z.eqb_spec p j); [subst j|]; ring.
Qed.

Section solve.
Context (m : smat K) (n : nat) (W : wf m n n) (d : Z -> K).
Context (Dl : length (diag K m) = n) (Dn : forall i, 0 <= i < Z.of_nat n -> nth (Z.to_nat i) (diag K m) 0' = d i).
Context (C0 : forall i, 0 <= i < Z.of_nat n -> coef m i i = 0').
Context (Dz : forall i, 0 <= i < Z.of_nat n -> d i <> 0').
Context (x0 : vmem K) (b inc : Z) (Hinc : inc <> 0) (f : Z -> K).
Notation YY := (Y x0 b inc n).

(** Row p of the matrix times the vector g. *)
Definition rowprod (p : Z) (g : Z -> K) : K := sumto n (fun j => coef m p j *' g j) +' d p *' g p.
(** Column k of the (conjugated) matrix, rows in D only. *)
Definition colprod (h : K -> K) (D : Z -> bool) (k : Z) (g : Z -> K) : K :=
  sumto n (fun i => if D i then h (coef m i k) *' g i else 0') +' (if D k then h (d k) *' g k else 0').

Definition PN (D : Z -> bool) (x : vmem K) : Prop := exists g, YY x g
  /\ forall k, 0 <= k < Z.of_nat n -> if D k then rowprod k g = f k else g k = f k.
Lemma stepN (D : Z -> bool) p x : 0 <= p < Z.of_nat n -> D p = false ->
  (forall k, 0 <= k < Z.of_nat n -> D k = true -> coef m k p = 0') -> PN D x ->
  exists x', obind (x (b + p * inc)) (fun xi => obind (vecnth (S_ K m) p) (fun r =>
     obind (sp_dot K (idc K) r x b inc) (fun s => obind (vecnth (diag K m) p) (fun di =>
      vset K x (b + p * inc) (sdiv (ssub xi s) di))))) = Some x'
  /\ PN (fun k => D k || Z.eqb k p) x'.
Proof.
  intros Hp Dp Hz (g & HY & Hg). rewrite (proj1 HY p Hp). cbn [obind].
  rewrite (vecnth_row m n n) by (assumption || lia). cbn [obind].
  rewrite (sp_dot_ok L (idc K) (row m p) x b inc n g (additive_id (K := K)) (wf_in _ _ _ W p Hp) (proj1 HY)). cbn [obind].
  rewrite (vecnth_ok _ p 0') by lia. rewrite Dn by lia. cbn [obind].
  change (sumto n (fun j => idc K (rowcoef (row m p) j) *' g j)) with (sumto n (fun j => coef m p j *' g j)).
  set (v := sdiv (ssub (g p) (sumto n (fun j => coef m p j *' g j))) (d p)).
  destruct (vset_Y x0 b inc n Hinc x g p v HY Hp) as (x' & E & HY'). exists x'. split; [exact E|].
  eexists. split; [exact HY'|]. cbv beta. intros k Hk.
  assert (U := sumto_upd n (fun j => coef m k j) g p v Hp). cbv beta in U.
  destruct (Z.eqb_spec k p) as [->|Hne].
  - rewrite orb_true_r. unfold rowprod. rewrite Z.eqb_refl. rewrite C0 in U by exact Hp.
    replace (sumto n (fun j => coef m p j *' (if Z.eqb p j then v else g j))) with (sumto n (fun j => coef m p j *' g j)).
    + unfold v. rewrite div_ok by (apply Dz; exact Hp). specialize (Hg p Hp). rewrite Dp in Hg. rewrite Hg. ring.
    + transitivity (sumto n (fun j => coef m p j *' g j) +' 0' *' v); [ring|]. rewrite <- U. ring.
  - rewrite orb_false_r. specialize (Hg k Hk). destruct (Z.eqb_spec p k); [lia|]. destruct (D k) eqn:Dk; [|exact Hg].
    unfold rowprod in *. destruct (Z.eqb_spec p k); [lia|]. rewrite <- Hg. f_equal. rewrite (Hz k Hk Dk) in U.
    transitivity (sumto n (fun j => coef m k j *' (if Z.eqb p j then v else g j)) +' 0' *' g p); [ring|]. rewrite U. ring.
Qed.

Definition PT (h : K -> K) (D : Z -> bool) (x : vmem K) : Prop := exists g, YY x g
  /\ forall k, 0 <= k < Z.of_nat n -> colprod h D k g +' (if D k then 0' else g k) = f k.
Lemma stepT (h : K -> K) (D : Z -> bool) p x : additive h -> (forall c, c <> 0' -> h c <> 0') ->
  0 <= p < Z.of_nat n -> D p = false ->
  (forall k, 0 <= k < Z.of_nat n -> D k = true -> coef m p k = 0') -> PT h D x ->
  exists x', obind (x (b + p * inc)) (fun xj => obind (vecnth (diag K m) p) (fun dj =>
     obind (vset K x (b + p * inc) (sdiv xj (h dj))) (fun x => obind (x (b + p * inc)) (fun xj =>
     obind (vecnth (S_ K m) p) (fun r => sp_axpy K h (sopp xj) r b inc x))))) = Some x'
  /\ PT h (fun k => D k || Z.eqb k p) x'.
Proof.
  intros Hh Hhz Hp Dp Hz (g & HY & Hg). rewrite (proj1 HY p Hp). cbn [obind].
  rewrite (vecnth_ok _ p 0') by lia. rewrite Dn by lia. cbn [obind].
  set (v := sdiv (g p) (h (d p))).
  destruct (vset_Y x0 b inc n Hinc x g p v HY Hp) as (x1 & E1 & HY1). rewrite E1. cbn [obind].
  rewrite (proj1 HY1 p Hp). cbn [obind]. rewrite Z.eqb_refl. rewrite (vecnth_row m n n) by (assumption || lia). cbn [obind].
  destruct (sp_axpy_ok L x0 b inc n Hinc h (sopp v) (row m p) Hh (wf_in _ _ _ W p Hp) x1 _ HY1) as (x2 & E2 & HY2).
  exists x2. split; [exact E2|]. eexists. split; [exact HY2|]. cbv beta.
  change (rowcoef (row m p)) with (coef m p).
  set (g' := fun k => (if Z.eqb p k then v else g k) +' sopp v *' h (coef m p k)).
  intros k Hk. change (colprod h (fun q => D q || Z.eqb q p) k g' +' (if D k || Z.eqb k p then 0' else g' k) = f k).
  assert (h0 : h 0' = 0') by (apply (additive_0 L h); exact Hh).
  assert (Gp : g' p = v) by (unfold g'; rewrite Z.eqb_refl, C0, h0 by exact Hp; ring).
  assert (GD : forall q, 0 <= q < Z.of_nat n -> D q = true -> g' q = g q).
  { intros q Hq Dq. unfold g'. destruct (Z.eqb_spec p q) as [<-|]; [congruence|]. rewrite Hz, h0 by auto. ring. }
  rewrite <- (Hg k Hk). unfold colprod.
  rewrite (sumto_ext L n (fun i => if D i || Z.eqb i p then h (coef m i k) *' g' i else 0')
     (fun i => (if D i then h (coef m i k) *' g i else 0') +' (if Z.eqb p i then h (coef m i k) *' v else 0'))).
  - rewrite (sumto_add L), (sumto_single L n p (fun i => h (coef m i k) *' v)) by exact Hp.
    destruct (Z.eqb_spec k p) as [->|Hne].
    + rewrite Dp, orb_true_r, Gp, C0, h0 by exact Hp. unfold v. rewrite (div_ok (g p)) by (apply Hhz, Dz; exact Hp). ring.
    + rewrite orb_false_r. destruct (D k) eqn:Dk.
      * rewrite GD, (Hz k) by auto. rewrite h0. ring.
      * unfold g'. destruct (Z.eqb_spec p k); [lia|]. ring.
  - intros i Hi. rewrite (Z.eqb_sym p i). destruct (Z.eqb_spec i p) as [->|Hne].
    + rewrite Dp, Gp. cbn [orb]. ring.
    + rewrite orb_false_r. destruct (D i) eqn:Di; [rewrite GD by auto|]; ring.
Qed.

(** Dividing every entry by alpha. *)
Lemma scale_up alpha : alpha <> 0' -> forall x g, YY x g ->
  exists x', zfor n 0 (fun i x => obind (x (b + i * inc)) (fun xi => vset K x (b + i * inc) (sdiv xi alpha))) x = Some x'
   /\ exists g', YY x' g' /\ forall k, 0 <= k < Z.of_nat n -> alpha *' g' k = g k.
Proof.
  intros Ha x g HY.
  destruct (zfor_inv (X := vmem K) (fun k x => exists g', YY x g' /\ forall i, 0 <= i < Z.of_nat n -> if Z.ltb i k then alpha *' g' i = g i else g' i = g i)
    (fun i x => obind (x (b + i * inc)) (fun xi => vset K x (b + i * inc) (sdiv xi alpha))) n 0 x) as (x' & E & g' & HY' & Hg').
  - exists g. split; [exact HY|]. intros i Hi. destruct (Z.ltb_spec i 0); [lia|reflexivity].
  - intros k x1 Hk (g1 & HY1 & Hg1). rewrite (proj1 HY1 k ltac:(lia)). cbn [obind].
    destruct (vset_Y x0 b inc n Hinc x1 g1 k (sdiv (g1 k) alpha) HY1 ltac:(lia)) as (x2 & E2 & HY2).
    exists x2. split; [exact E2|]. eexists. split; [exact HY2|]. intros i Hi. cbv beta. specialize (Hg1 i Hi).
    destruct (Z.eqb_spec k i) as [->|Hne].
    + rewrite Z.ltb_irrefl in Hg1. destruct (Z.ltb_spec i (i + 1)); [|lia]. rewrite div_ok by exact Ha. exact Hg1.
    + destruct (Z.ltb_spec i k), (Z.ltb_spec i (k + 1)); try lia; exact Hg1.
  - exists x'. split; [exact E|]. exists g'. split; [exact HY'|]. intros k Hk. specialize (Hg' k Hk).
    destruct (Z.ltb_spec k (0 + Z.of_nat n)); [exact Hg'|lia].
Qed.
Lemma scale_down alpha : alpha <> 0' -> forall x g, YY x g ->
  exists x', zdown n (fun i x => obind (x (b + i * inc)) (fun xi => vset K x (b + i * inc) (sdiv xi alpha))) x = Some x'
   /\ exists g', YY x' g' /\ forall k, 0 <= k < Z.of_nat n -> alpha *' g' k = g k.
Proof.
  intros Ha x g HY.
  destruct (zdown_inv (X := vmem K) (fun k x => exists g', YY x g' /\ forall i, 0 <= i < Z.of_nat n -> if Z.leb k i then alpha *' g' i = g i else g' i = g i)
    (fun i x => obind (x (b + i * inc)) (fun xi => vset K x (b + i * inc) (sdiv xi alpha))) n x) as (x' & E & g' & HY' & Hg').
  - exists g. split; [exact HY|]. intros i Hi. destruct (Z.leb_spec (Z.of_nat n) i); [lia|reflexivity].
  - intros k x1 Hk (g1 & HY1 & Hg1). rewrite (proj1 HY1 k ltac:(lia)). cbn [obind].
    destruct (vset_Y x0 b inc n Hinc x1 g1 k (sdiv (g1 k) alpha) HY1 ltac:(lia)) as (x2 & E2 & HY2).
    exists x2. split; [exact E2|]. eexists. split; [exact HY2|]. intros i Hi. cbv beta. specialize (Hg1 i Hi).
    destruct (Z.eqb_spec k i) as [->|Hne].
    + destruct (Z.leb_spec (i + 1) i); [lia|]. destruct (Z.leb_spec i i); [|lia]. rewrite div_ok by exact Ha. exact Hg1.
    + destruct (Z.leb_spec (k + 1) i), (Z.leb_spec k i); try lia; exact Hg1.
  - exists x'. split; [exact E|]. exists g'. split; [exact HY'|]. intros k Hk. specialize (Hg' k Hk).
    destruct (Z.leb_spec 0 k); [exact Hg'|lia].
Qed.

(** The whole solves. *)
Context (x : vmem K) (Hx : YY x f).
Lemma PN_ext D D' z : (forall k, 0 <= k < Z.of_nat n -> D k = D' k) -> PN D z -> PN D' z.
Proof. intros E (g & HY & Hg). exists g. split; [exact HY|]. intros k Hk. rewrite <- E by exact Hk. now apply Hg. Qed.
Lemma PT_ext h D D' z : (forall k, 0 <= k < Z.of_nat n -> D k = D' k) -> PT h D z -> PT h D' z.
Proof.
  intros E (g & HY & Hg). exists g. split; [exact HY|]. intros k Hk. rewrite <- (Hg k Hk). unfold colprod. rewrite (E k Hk).
  f_equal. f_equal. apply (sumto_ext L). intros i Hi. now rewrite (E i Hi).
Qed.

Context (Htri : forall i j, 0 <= i < Z.of_nat n -> 0 <= j < Z.of_nat n -> (if ltri K m then i < j else j < i) -> coef m i j = 0').
Lemma tri_solve_ok alpha : alpha <> 0' -> is_tri K m = true ->
  exists x', tri_solve K m alpha x b inc = Some (0, x')
   /\ exists g, YY x' g /\ forall k, 0 <= k < Z.of_nat n -> alpha *' rowprod k g = f k.
Proof.
  intros Ha Ht. unfold tri_solve. destruct (seqb alpha s0) eqn:E0; [apply (law_eqb K L) in E0; contradiction|].
  rewrite Ht. cbn [negb]. rewrite (wf_rows _ _ _ W).
  set (body := fun i x => obind _ _). set (scale := fun i x => obind (x (b + i * inc)) _).
  assert (Fin : forall x1, PN (fun _ => true) x1 -> exists g1, YY x1 g1 /\ forall k, 0 <= k < Z.of_nat n -> rowprod k g1 = f k).
  { intros x1 (g & HY & Hg). exists g. split; [exact HY|]. exact Hg. }
  assert (Lin : forall g g', (forall k, 0 <= k < Z.of_nat n -> alpha *' g' k = g k) ->
     forall k, 0 <= k < Z.of_nat n -> alpha *' rowprod k g' = rowprod k g).
  { intros g g' H k Hk. unfold rowprod. rewrite <- (H k Hk).
    rewrite (sumto_ext L n (fun j => coef m k j *' g j) (fun j => alpha *' (coef m k j *' g' j))).
    - rewrite (sumto_scale L). ring.
    - intros j Hj. rewrite <- (H j Hj). ring. }
  assert (Start : forall D, (forall k, 0 <= k < Z.of_nat n -> D k = false) -> PN D x).
  { intros D HD. exists f. split; [exact Hx|]. intros k Hk. now rewrite HD. }
  destruct (ltri K m) eqn:El.
  - destruct (zfor_inv (X := Z -> option K) (fun i z => PN (fun k => Z.ltb k i) z) body n 0 x) as (x1 & E1 & H1).
    + apply Start. intros k Hk. destruct (Z.ltb_spec k 0); [lia|reflexivity].
    + intros i z Hi Hz. destruct (stepN (fun k => Z.ltb k i) i z ltac:(lia)) as (z' & Ez & Hz'); auto.
      * apply Z.ltb_irrefl.
      * intros k Hk Dk. apply Z.ltb_lt in Dk. apply Htri; lia.
      * exists z'. split; [exact Ez|]. eapply PN_ext; [|exact Hz']. intros k Hk. cbv beta.
        destruct (Z.ltb_spec k i), (Z.eqb_spec k i), (Z.ltb_spec k (i + 1)); try lia; reflexivity.
    + rewrite E1. cbn [obind]. apply (PN_ext _ (fun _ => true)) in H1; [|intros k Hk; destruct (Z.ltb_spec k (0 + Z.of_nat n)); [reflexivity|lia]].
      destruct (Fin x1 H1) as (g1 & HY1 & Hg1). destruct (seqb alpha s1) eqn:Ea.
      * apply (law_eqb K L) in Ea. subst alpha. exists x1. split; [reflexivity|]. exists g1. split; [exact HY1|].
        intros k Hk. rewrite Hg1 by exact Hk. ring.
      * destruct (scale_up alpha Ha x1 g1 HY1) as (x2 & E2 & g2 & HY2 & Hg2). unfold scale. rewrite E2. cbn [obind].
        exists x2. split; [reflexivity|]. exists g2. split; [exact HY2|]. intros k Hk. rewrite (Lin g1 g2) by assumption. now apply Hg1.
  - destruct (zdown_inv (X := Z -> option K) (fun i z => PN (fun k => Z.leb i k) z) body n x) as (x1 & E1 & H1).
    + apply Start. intros k Hk. destruct (Z.leb_spec (Z.of_nat n) k); [lia|reflexivity].
    + intros i z Hi Hz. destruct (stepN (fun k => Z.leb (i + 1) k) i z ltac:(lia)) as (z' & Ez & Hz'); auto.
      * apply Z.leb_gt. lia.
      * intros k Hk Dk. apply Z.leb_le in Dk. apply Htri; lia.
      * exists z'. split; [exact Ez|]. eapply PN_ext; [|exact Hz']. intros k Hk. cbv beta.
        destruct (Z.leb_spec (i + 1) k), (Z.eqb_spec k i), (Z.leb_spec i k); try lia; reflexivity.
    + rewrite E1. cbn [obind]. apply (PN_ext _ (fun _ => true)) in H1; [|intros k Hk; destruct (Z.leb_spec 0 k); [reflexivity|lia]].
      destruct (Fin x1 H1) as (g1 & HY1 & Hg1). destruct (seqb alpha s1) eqn:Ea.
      * apply (law_eqb K L) in Ea. subst alpha. exists x1. split; [reflexivity|]. exists g1. split; [exact HY1|].
        intros k Hk. rewrite Hg1 by exact Hk. ring.
      * destruct (scale_down alpha Ha x1 g1 HY1) as (x2 & E2 & g2 & HY2 & Hg2). unfold scale. rewrite E2. cbn [obind].
        exists x2. split; [reflexivity|]. exists g2. split; [exact HY2|]. intros k Hk. rewrite (Lin g1 g2) by assumption. now apply Hg1.
Qed.

Lemma tri_solve_trans_ok h alpha : additive h -> (forall c, c <> 0' -> h c <> 0') -> 0 < inc -> alpha <> 0' -> is_tri K m = true ->
  exists x', tri_solve_trans K h m alpha x b inc = Some (0, x')
   /\ exists g, YY x' g /\ forall k, 0 <= k < Z.of_nat n ->
        alpha *' (sumto n (fun i => h (coef m i k) *' g i) +' h (d k) *' g k) = f k.
Proof.
  intros Hh Hhz Hpos Ha Ht. unfold tri_solve_trans. rewrite Ht. cbn [negb].
  destruct (Z.ltb_spec 0 inc); [|lia]. cbn [negb]. rewrite (wf_rows _ _ _ W).
  set (body := fun j x => obind _ _). set (scale := fun i x => obind (x (b + i * inc)) (fun xi => vset _ _ _ _)).
  assert (Start : forall D, (forall k, 0 <= k < Z.of_nat n -> D k = false) -> PT h D x).
  { intros D HD. exists f. split; [exact Hx|]. intros k Hk. unfold colprod. rewrite HD by exact Hk.
    rewrite (sumto_ext L n _ (fun _ => 0')), (sumto_zero L); [ring|]. intros i Hi. now rewrite HD. }
  assert (Main : exists x1, (if ltri K m then zdown n body x else zfor n 0 body x) = Some x1 /\ PT h (fun _ => true) x1).
  { destruct (ltri K m) eqn:El.
    - destruct (zdown_inv (X := Z -> option K) (fun i z => PT h (fun k => Z.leb i k) z) body n x) as (x1 & E1 & H1).
      + apply Start. intros k Hk. destruct (Z.leb_spec (Z.of_nat n) k); [lia|reflexivity].
      + intros i z Hi Hz. destruct (stepT h (fun k => Z.leb (i + 1) k) i z Hh Hhz ltac:(lia)) as (z' & Ez & Hz'); auto.
        * apply Z.leb_gt. lia.
        * intros k Hk Dk. apply Z.leb_le in Dk. apply Htri; lia.
        * exists z'. split; [exact Ez|]. eapply PT_ext; [|exact Hz']. intros k Hk. cbv beta.
          destruct (Z.leb_spec (i + 1) k), (Z.eqb_spec k i), (Z.leb_spec i k); try lia; reflexivity.
      + exists x1. split; [exact E1|]. eapply PT_ext; [|exact H1]. intros k Hk. cbv beta. destruct (Z.leb_spec 0 k); [reflexivity|lia].
    - destruct (zfor_inv (X := Z -> option K) (fun i z => PT h (fun k => Z.ltb k i) z) body n 0 x) as (x1 & E1 & H1).
      + apply Start. intros k Hk. destruct (Z.ltb_spec k 0); [lia|reflexivity].
      + intros i z Hi Hz. destruct (stepT h (fun k => Z.ltb k i) i z Hh Hhz ltac:(lia)) as (z' & Ez & Hz'); auto.
        * apply Z.ltb_irrefl.
        * intros k Hk Dk. apply Z.ltb_lt in Dk. apply Htri; lia.
        * exists z'. split; [exact Ez|]. eapply PT_ext; [|exact Hz']. intros k Hk. cbv beta.
          destruct (Z.ltb_spec k i), (Z.eqb_spec k i), (Z.ltb_spec k (i + 1)); try lia; reflexivity.
      + exists x1. split; [exact E1|]. eapply PT_ext; [|exact H1]. intros k Hk. cbv beta. destruct (Z.ltb_spec k (0 + Z.of_nat n)); [reflexivity|lia]. }
  destruct Main as (x1 & E1 & g1 & HY1 & Hg1). rewrite E1. cbn [obind].
  assert (Hg1' : forall k, 0 <= k < Z.of_nat n -> sumto n (fun i => h (coef m i k) *' g1 i) +' h (d k) *' g1 k = f k).
  { intros k Hk. rewrite <- (Hg1 k Hk). unfold colprod. ring. }
  destruct (seqb alpha s1) eqn:Ea.
  - apply (law_eqb K L) in Ea. subst alpha. exists x1. split; [reflexivity|]. exists g1. split; [exact HY1|].
    intros k Hk. rewrite Hg1' by exact Hk. ring.
  - destruct (scale_down alpha Ha x1 g1 HY1) as (x2 & E2 & g2 & HY2 & Hg2). unfold scale. rewrite E2. cbn [obind].
    exists x2. split; [reflexivity|]. exists g2. split; [exact HY2|]. intros k Hk. rewrite <- (Hg1' k Hk), <- (Hg2 k Hk).
    rewrite (sumto_ext L n (fun i => h (coef m i k) *' g1 i) (fun i => alpha *' (h (coef m i k) *' g2 i))).
    + rewrite (sumto_scale L). ring.
    + intros i Hi. rewrite <- (Hg2 i Hi). ring.
Qed.
End solve.

Section built.
Context (ps : list prop) (n : nat) (ts : list (triplet K)).
Context (Hher : hermitian ps = false) (Hsym : symmetric ps = false) (Htri : triangular ps = true).
Context (Hex : exists t, In t ts /\ in_range (base ps) n n t).
Context (Hlow : forall i j, 0 <= i < Z.of_nat n -> 0 <= j < Z.of_nat n ->
   (if has LowerTri ps then i < j else j < i) -> dense ps ts i j = 0').
Context (Hnz : forall i, 0 <= i < Z.of_nat n -> dense ps ts i i <> 0').
Context (m : smat K) (Hm : build ps n n ts = Some m).

Lemma ussv_ok t alpha x b inc f : alpha <> 0' -> 0 < inc -> view x b inc n f ->
  exists x' z, ussv K t alpha m x b inc = Some (0, x') /\ view x' b inc n z /\ same_outside x x' b inc n
   /\ forall k, 0 <= k < Z.of_nat n -> alpha *' sumto n (fun j => op t (dense ps ts) k j *' z j) = f k.
Proof.
  intros Ha Hinc Hx.
  assert (Hst : triangular ps || symmetric ps = true) by (now rewrite Htri).
  destruct (built L ps n n ts Hher (fun _ => eq_refl) (fun _ => Hex) m Hm) as (W & V & Et & Es & El & C & D).
  destruct (D Hst) as [Dl Dn]. set (dg := fun i => if has UnitDiag ps then s1 else inserted (base ps) ts i i) in *.
  assert (DS := dense_split L ps n n ts Hher (fun _ => eq_refl) (fun _ => Hex) m Hm). rewrite Hst, Hsym in DS.
  assert (Cii : forall i, 0 <= i < Z.of_nat n -> coef m i i = 0') by (intros i Hi; rewrite C, Hst, Z.eqb_refl by exact Hi; reflexivity).
  assert (Dii : forall i, 0 <= i < Z.of_nat n -> dense ps ts i i = dg i).
  { intros i Hi. rewrite DS, Cii, Z.eqb_refl by exact Hi. unfold dg. ring. }
  assert (Dz : forall i, 0 <= i < Z.of_nat n -> dg i <> 0') by (intros i Hi; rewrite <- Dii by exact Hi; now apply Hnz).
  assert (Tr : forall i j, 0 <= i < Z.of_nat n -> 0 <= j < Z.of_nat n -> (if ltri K m then i < j else j < i) -> coef m i j = 0').
  { intros i j Hi Hj Hij. rewrite El in Hij. rewrite <- (Hlow i j Hi Hj Hij), DS by assumption.
    destruct (Z.eqb_spec i j) as [->|]; [destruct (has LowerTri ps); lia|]. ring. }
  assert (HY : Y x b inc n x f) by (split; [exact Hx|intros a _; reflexivity]).
  unfold ussv, is_valid. rewrite V. cbn [negb].
  destruct t.
  - destruct (tri_solve_ok m n W dg Dl Dn Cii Dz x b inc ltac:(lia) f x HY Tr alpha Ha) as (x' & E & z & [V' S'] & H'); [now rewrite Et|].
    exists x', z. split; [exact E|]. split; [exact V'|]. split; [exact S'|]. intros k Hk. rewrite <- (H' k Hk). f_equal. unfold rowprod.
    rewrite <- (sumto_single L n k (fun j => dg k *' z j)) by exact Hk. rewrite <- (sumto_add L). apply (sumto_ext L). intros j Hj.
    unfold op. rewrite DS by assumption. fold (dg k). destruct (Z.eqb k j); ring.
  - destruct (tri_solve_trans_ok m n W dg Dl Dn Cii Dz x b inc ltac:(lia) f x HY Tr (idc K) alpha (additive_id (K := K)) (fun c H => H) Hinc Ha) as (x' & E & z & [V' S'] & H'); [now rewrite Et|].
    exists x', z. split; [exact E|]. split; [exact V'|]. split; [exact S'|]. intros k Hk. rewrite <- (H' k Hk). f_equal.
    rewrite <- (sumto_single L n k (fun j => idc K (dg k) *' z j)) by exact Hk. rewrite <- (sumto_add L). apply (sumto_ext L). intros j Hj.
    unfold op. rewrite DS by assumption. unfold idc. fold (dg j). rewrite (Z.eqb_sym k j). destruct (Z.eqb_spec j k) as [->|]; ring.
  - destruct (tri_solve_trans_ok m n W dg Dl Dn Cii Dz x b inc ltac:(lia) f x HY Tr sconj alpha (additive_conj L) conj_nz Hinc Ha) as (x' & E & z & [V' S'] & H'); [now rewrite Et|].
    exists x', z. split; [exact E|]. split; [exact V'|]. split; [exact S'|]. intros k Hk. rewrite <- (H' k Hk). f_equal.
    rewrite <- (sumto_single L n k (fun j => sconj (dg k) *' z j)) by exact Hk. rewrite <- (sumto_add L). apply (sumto_ext L). intros j Hj.
    assert (c0 : sconj 0' = 0') by (apply (additive_0 L sconj); exact (additive_conj L)).
    unfold op. rewrite DS by assumption. fold (dg j). rewrite (Z.eqb_sym k j). rewrite !(law_conj_add K L), c0.
    destruct (Z.eqb_spec j k) as [->|]; rewrite ?c0; ring.
Qed.

(** Several right-hand sides. *)
Lemma ussm_ok o t nrhs alpha c ldc F : alpha <> 0' -> 0 < ldc ->
  (match o with ColMajor => Z.of_nat n <= ldc | RowMajor => Z.of_nat nrhs <= ldc end) ->
  (forall i k, 0 <= i < Z.of_nat n -> 0 <= k < Z.of_nat nrhs ->
     c (match o with ColMajor => i + k * ldc | RowMajor => i * ldc + k end) = Some (F i k)) ->
  exists c' Zs, ussm K o t nrhs alpha m c ldc = Some (0, c')
  /\ (forall i k, 0 <= i < Z.of_nat n -> 0 <= k < Z.of_nat nrhs ->
     c' (match o with ColMajor => i + k * ldc | RowMajor => i * ldc + k end) = Some (Zs i k))
  /\ (forall i k, 0 <= i < Z.of_nat n -> 0 <= k < Z.of_nat nrhs ->
       alpha *' sumto n (fun j => op t (dense ps ts) i j *' Zs j k) = F i k)
  /\ (forall a, (forall i k, 0 <= i < Z.of_nat n -> 0 <= k < Z.of_nat nrhs ->
       a <> match o with ColMajor => i + k * ldc | RowMajor => i * ldc + k end) -> c' a = c a).
Proof.
  intros Ha Hpos Hld HF. unfold ussm.
  destruct (built L ps n n ts Hher (fun _ => eq_refl) (fun _ => Hex) m Hm) as (_ & V & _). unfold is_valid. rewrite V. cbn [negb].
  set (at_ := fun i k => match o with ColMajor => i + k * ldc | RowMajor => i * ldc + k end).
  assert (Inj : forall i k i' k', 0 <= i < Z.of_nat n -> 0 <= k < Z.of_nat nrhs -> 0 <= i' < Z.of_nat n -> 0 <= k' < Z.of_nat nrhs ->
    at_ i k = at_ i' k' -> i = i' /\ k = k').
  { intros i k i' k' H1 H2 H3 H4 E. unfold at_ in E. destruct o; [|].
    - assert (i = i') by (apply Z.le_antisymm; [destruct (Z.lt_ge_cases i' i); [exfalso; nia|lia]|destruct (Z.lt_ge_cases i i'); [exfalso; nia|lia]]). subst. lia.
    - assert (k = k') by (apply Z.le_antisymm; [destruct (Z.lt_ge_cases k' k); [exfalso; nia|lia]|destruct (Z.lt_ge_cases k k'); [exfalso; nia|lia]]). subst. lia. }
  destruct (zfor_inv (X := vmem K) (fun k c1 => exists Zs,
      (forall i l, 0 <= i < Z.of_nat n -> 0 <= l < Z.of_nat nrhs -> c1 (at_ i l) = Some (if Z.ltb l k then Zs i l else F i l))
      /\ (forall i l, 0 <= i < Z.of_nat n -> 0 <= l < k -> alpha *' sumto n (fun j => op t (dense ps ts) i j *' Zs j l) = F i l)
      /\ (forall a, (forall i l, 0 <= i < Z.of_nat n -> 0 <= l < Z.of_nat nrhs -> a <> at_ i l) -> c1 a = c a))
    (fun i (c0 : vmem K) => obind (match o with RowMajor => ussv K t alpha m c0 i ldc
               | ColMajor => ussv K t alpha m c0 (i * ldc) 1 end) (fun r => Some (snd r))) nrhs 0 c) as (c' & E & Zs & H1 & H2 & H3).
  - exists F. split; [|split; [intros; lia|intros; reflexivity]]. intros i l Hi Hl. destruct (Z.ltb_spec l 0); [lia|]. unfold at_. now apply HF.
  - intros k c1 Hk (Zs & I1 & I2 & I3).
    assert (Step : exists c2 z, (match o with RowMajor => ussv K t alpha m c1 k ldc | ColMajor => ussv K t alpha m c1 (k * ldc) 1 end) = Some (0, c2)
       /\ (forall i, 0 <= i < Z.of_nat n -> c2 (at_ i k) = Some (z i))
       /\ (forall i, 0 <= i < Z.of_nat n -> alpha *' sumto n (fun j => op t (dense ps ts) i j *' z j) = F i k)
       /\ (forall a, (forall i, 0 <= i < Z.of_nat n -> a <> at_ i k) -> c2 a = c1 a)).
    { destruct o.
      - destruct (ussv_ok t alpha c1 k ldc (fun i => F i k) Ha ltac:(lia)) as (c2 & z & E2 & V2 & S2 & Q2).
        + intros i Hi. specialize (I1 i k Hi ltac:(lia)). rewrite Z.ltb_irrefl in I1. rewrite <- I1. f_equal. unfold at_. lia.
        + exists c2, z. split; [exact E2|]. split; [|split; [exact Q2|]].
          * intros i Hi. etransitivity; [|exact (V2 i Hi)]. f_equal. unfold at_. lia.
          * intros a Ha'. apply S2. intros i Hi E. apply (Ha' i Hi). unfold at_. lia.
      - destruct (ussv_ok t alpha c1 (k * ldc) 1 (fun i => F i k) Ha ltac:(lia)) as (c2 & z & E2 & V2 & S2 & Q2).
        + intros i Hi. specialize (I1 i k Hi ltac:(lia)). rewrite Z.ltb_irrefl in I1. rewrite <- I1. f_equal. unfold at_. lia.
        + exists c2, z. split; [exact E2|]. split; [|split; [exact Q2|]].
          * intros i Hi. etransitivity; [|exact (V2 i Hi)]. f_equal. unfold at_. lia.
          * intros a Ha'. apply S2. intros i Hi E. apply (Ha' i Hi). unfold at_. lia. }
    destruct Step as (c2 & z & E2 & V2 & Q2 & S2). rewrite E2. cbn [obind snd]. exists c2. split; [reflexivity|].
    exists (fun i l => if Z.eqb l k then z i else Zs i l). split; [|split].
    + intros i l Hi Hl. cbv beta. destruct (Z.eqb_spec l k) as [->|Hne].
      * destruct (Z.ltb_spec k (k + 1)); [|lia]. now apply V2.
      * rewrite S2, I1 by (auto || (intros i' Hi' E'; destruct (Inj i l i' k Hi Hl Hi' ltac:(lia) E'); lia)).
        destruct (Z.ltb_spec l k), (Z.ltb_spec l (k + 1)); try lia; reflexivity.
    + intros i l Hi Hl. destruct (Z.eqb_spec l k) as [->|Hne]; [now apply Q2|]. apply I2; lia.
    + intros a Ha'. rewrite S2 by (intros i Hi; apply Ha'; [exact Hi|lia]). now apply I3.
  - rewrite E. cbn [obind]. exists c', Zs. split; [reflexivity|]. split; [|split; [|exact H3]].
    + intros i k Hi Hk. fold (at_ i k). rewrite H1 by assumption. destruct (Z.ltb_spec k (0 + Z.of_nat nrhs)); [reflexivity|lia].
    + intros i k Hi Hk. apply H2; lia.
Qed.
End built.
End proofs.
