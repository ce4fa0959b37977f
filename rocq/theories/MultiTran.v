(** Proofs about the settings, TranHInvTran and the dimensions of products of manifolds. *)
From Coq Require Import List Arith Bool QArith Reals Lia Lra.
From Verif Require Import Arith MultiModel MultiSpec MultiProofs.
Import ListNotations.

Section flags.
Context {A : arith} {E : Type}.
Notation mani := (mani A E).
Notation prod := (MultiModel.prod A E).
Lemma nth_upd {T} (l : list T) j v d k :
  nth k (list_upd l j v) d = if Nat.eqb k j && (j <? length l)%nat then v else nth k l d.
Proof.
  revert j k. induction l as [|a l IH]; intros j k.
  - cbn [list_upd length]. rewrite Bool.andb_comm. destruct j; reflexivity.
  - destruct j as [|j]; destruct k as [|k]; cbn [list_upd nth length]; try reflexivity.
    rewrite IH. reflexivity.
Qed.
Lemma upd_len {T} (l : list T) j v : length (list_upd l j v) = length l.
Proof. revert j. induction l as [|a l IH]; intros [|j]; cbn; auto. Qed.
(** One step of the extrinsic loop. *)
Definition ebody (f : mani -> bool -> E -> E -> E) (x eta result : nat) (ps : prod * store E) (t : nat * mani * nat) : prod * store E :=
  let p1 := set_flag A E (fst ps) (fst (fst t)) false in
  let st1 := st_write E (snd ps) result (snd t)
       (op2 E (f (snd (fst t)) (flag A E p1 (fst (fst t)))) (comp E (snd ps x) (snd t)) (comp E (snd ps eta) (snd t))) in
  (set_flag A E p1 (fst (fst t)) true, st1).
Lemma flag_false (p : prod) i : flag A E (set_flag A E p i false) i = false.
Proof.
  unfold flag, set_flag. cbn [p_flags]. rewrite nth_upd, Nat.eqb_refl. cbn [andb].
  destruct (i <? length (p_flags p))%nat eqn:H; [reflexivity|].
  apply Nat.ltb_ge in H. apply nth_overflow. exact H.
Qed.
Lemma ebody_snd f x eta result : forall L p st,
  snd (fold_left (ebody f x eta result) L (p, st)) =
  fold_left (fun st t => st_write E st result (snd t) (op2 E (f (snd (fst t)) false) (comp E (st x) (snd t)) (comp E (st eta) (snd t)))) L st.
Proof.
  induction L as [|t L IH]; intros p st; [reflexivity|].
  cbn [fold_left]. unfold ebody at 2. cbn [fst snd]. rewrite flag_false. apply IH.
Qed.
Lemma ebody_fst f x eta result : forall L p st,
  let p' := fst (fold_left (ebody f x eta result) L (p, st)) in
  p_manis p' = p_manis p /\ p_pows p' = p_pows p /\ p_intr p' = p_intr p /\ length (p_flags p') = length (p_flags p) /\
  forall i, (i < length (p_flags p))%nat ->
    nth i (p_flags p') false = nth i (p_flags p) false || existsb (fun t => Nat.eqb i (fst (fst t))) L.
Proof.
  induction L as [|t L IH]; intros p st; cbv zeta.
  - cbn. repeat split. intros i Hi. rewrite orb_false_r. reflexivity.
  - cbn [fold_left]. unfold ebody at 2 4 6 8 10. cbn [fst snd].
    match goal with |- context [fold_left _ L (?p1, ?st1)] => pose proof (IH p1 st1) as H end. cbv zeta in H.
    destruct H as (H1 & H2 & H3 & H4 & H5).
    assert (EL : length (p_flags (set_flag A E (set_flag A E p (fst (fst t)) false) (fst (fst t)) true)) = length (p_flags p)).
    { unfold set_flag. cbn [p_flags]. rewrite !upd_len. reflexivity. }
    rewrite EL in *.
    split; [rewrite H1; reflexivity|]. split; [rewrite H2; reflexivity|]. split; [rewrite H3; reflexivity|].
    split; [rewrite H4; reflexivity|].
    intros i Hi. rewrite (H5 i Hi). cbn [existsb]. unfold set_flag. cbn [p_flags].
    rewrite nth_upd, upd_len, nth_upd.
    destruct (Nat.eqb_spec i (fst (fst t))) as [Ei|Ni]; cbn [andb orb]; [|reflexivity].
    subst i. apply Nat.ltb_lt in Hi. rewrite Hi. rewrite orb_true_r. reflexivity.
Qed.
Lemma steps_exists : forall (ms : list mani) cs i0 s i, length ms = length cs ->
  existsb (fun t => Nat.eqb (i0 + i) (fst (fst t))) (steps ms i0 s cs) = (0 <? nth i cs 0)%nat.
Proof.
  assert (GE : forall (ms : list mani) cs i0 s k, (k < i0)%nat -> existsb (fun t => Nat.eqb k (fst (fst t))) (steps ms i0 s cs) = false).
  { induction ms as [|m ms IH]; intros cs i0 s k Hk; destruct cs as [|c cs]; try reflexivity.
    cbn [steps]. rewrite existsb_app, IH by lia. rewrite orb_false_r.
    apply not_true_iff_false. rewrite existsb_exists. intros [t [Ht He]]. rewrite in_map_iff in Ht.
    destruct Ht as [j [<- _]]. cbn in He. apply Nat.eqb_eq in He. lia. }
  induction ms as [|m ms IH]; intros cs i0 s i L; destruct cs as [|c cs]; try discriminate.
  - destruct i; reflexivity.
  - cbn [steps]. rewrite existsb_app. destruct i as [|i].
    + rewrite GE by lia. rewrite orb_false_r, Nat.add_0_r. cbn [nth].
      destruct c as [|c]; [reflexivity|]. cbn [seq map existsb fst]. rewrite Nat.eqb_refl. reflexivity.
    + rewrite (Nat.add_succ_r i0 i), <- (Nat.add_succ_l i0 i), IH by (cbn in L; lia). cbn [nth].
      match goal with |- existsb ?f ?l || _ = _ => assert (EF : existsb f l = false); [|rewrite EF; reflexivity] end.
      apply not_true_iff_false. rewrite existsb_exists. intros [t [Ht He]]. rewrite in_map_iff in Ht.
      destruct Ht as [j [<- _]]. cbn [fst snd] in He. apply Nat.eqb_eq in He. lia.
Qed.
End flags.

(** ** TranHInvTran *)
Section sums.
Local Open Scope R_scope.
Lemma rsum_ext n f g : (forall k, (k < n)%nat -> f k = g k) -> rsum n f = rsum n g.
Proof. induction n as [|n IH]; intros H; cbn; [reflexivity|]. rewrite IH, H; auto. Qed.
Lemma rsum_plus n f g : rsum n (fun k => f k + g k) = rsum n f + rsum n g.
Proof. induction n as [|n IH]; cbn; [lra|]. rewrite IH. lra. Qed.
Lemma rsum_mull n c f : rsum n (fun k => c * f k) = c * rsum n f.
Proof. induction n as [|n IH]; cbn; [lra|]. rewrite IH. lra. Qed.
Lemma rsum_mulr n c f : rsum n (fun k => f k * c) = rsum n f * c.
Proof. induction n as [|n IH]; cbn; [lra|]. rewrite IH. lra. Qed.
Lemma rsum_zero n : rsum n (fun _ => 0) = 0.
Proof. induction n as [|n IH]; cbn; [reflexivity|]. rewrite IH. lra. Qed.
Lemma rsum_swap n m (f : nat -> nat -> R) : rsum n (fun k => rsum m (fun l => f k l)) = rsum m (fun l => rsum n (fun k => f k l)).
Proof.
  induction n as [|n IH]; cbn; [symmetry; apply rsum_zero|].
  rewrite IH, <- rsum_plus. reflexivity.
Qed.
End sums.

Section tran.
Variables P Q : nat -> rmat.
(** The block a coordinate lies in and where that block starts. *)
Fixpoint find_blk (lens : list nat) (a s r : nat) : option (nat * nat * nat) :=
  match lens with
  | [] => None
  | l :: lens => if (s <=? r)%nat && (r <? s + l)%nat then Some (a, s, l) else find_blk lens (S a) (s + l) r
  end.
Lemma find_low : forall lens a s r, (r < s)%nat -> find_blk lens a s r = None.
Proof.
  induction lens as [|l lens IH]; intros a s r H; cbn [find_blk]; [reflexivity|].
  replace (s <=? r)%nat with false by (symmetry; apply Nat.leb_gt; exact H). cbn. apply IH. lia.
Qed.
Lemma find_start : forall lens a s r a' o l, find_blk lens a s r = Some (a', o, l) -> (s <= o)%nat.
Proof.
  induction lens as [|l lens IH]; intros a s r a' o l'; cbn [find_blk]; [discriminate|].
  destruct ((s <=? r)%nat && (r <? s + l)%nat); [intros H; injection H; intros; lia|]. intros H. apply IH in H. lia.
Qed.
Definition QH (lens : list nat) (a s : nat) (H : rmat) : rmat := fun r c =>
  match find_blk lens a s r with
  | Some (a', o, l) => rsum l (fun k => (Q a' (r - o)%nat k * H (o + k)%nat c)%R)
  | None => H r c
  end.
Definition HP (lens : list nat) (a s : nat) (H : rmat) : rmat := fun r c =>
  match find_blk lens a s c with
  | Some (a', o, l) => rsum l (fun k => (H r (o + k)%nat * P a' k (c - o)%nat)%R)
  | None => H r c
  end.
Fixpoint proc (lens : list nat) (a s : nat) (H : rmat) : rmat :=
  match lens with
  | [] => H
  | l :: lens => proc lens (S a) (s + l) (left_block s l (Q a) (right_block s l (P a) H))
  end.
Lemma proc_ok : forall lens a s H r c, proc lens a s H r c = QH lens a s (HP lens a s H) r c.
Proof.
  induction lens as [|l lens IH]; intros a s H r c; [reflexivity|].
  cbn [proc]. rewrite IH. unfold QH. cbn [find_blk].
  assert (RH : forall r' c', (s + l <= c')%nat -> right_block s l (P a) H r' c' = H r' c').
  { intros r' c' Hc. unfold right_block. replace (c' <? s + l)%nat with false by (symmetry; apply Nat.ltb_ge; exact Hc).
    rewrite andb_false_r. reflexivity. }
  assert (LH : forall M r' c', (s + l <= r')%nat -> left_block s l (Q a) M r' c' = M r' c').
  { intros M r' c' Hc. unfold left_block. replace (r' <? s + l)%nat with false by (symmetry; apply Nat.ltb_ge; exact Hc).
    rewrite andb_false_r. reflexivity. }
  destruct ((s <=? r)%nat && (r <? s + l)%nat) eqn:Er.
  - assert (Hr : (s <= r < s + l)%nat).
    { apply andb_true_iff in Er. rewrite Nat.leb_le, Nat.ltb_lt in Er. exact Er. }
    rewrite find_low by lia. unfold HP. cbn [find_blk].
    destruct ((s <=? c)%nat && (c <? s + l)%nat) eqn:Ec.
    + assert (Hc : (s <= c < s + l)%nat).
      { apply andb_true_iff in Ec. rewrite Nat.leb_le, Nat.ltb_lt in Ec. exact Ec. }
      rewrite find_low by lia. unfold left_block. rewrite Er. apply rsum_ext. intros k Hk. f_equal.
      unfold right_block. rewrite Ec. reflexivity.
    + destruct (find_blk lens (S a) (s + l) c) as [[[b o] lb]|] eqn:Ef.
      * pose proof (find_start _ _ _ _ _ _ _ Ef) as Ho.
        transitivity (rsum lb (fun q => rsum l (fun k => Q a (r - s)%nat k * (H (s + k)%nat (o + q)%nat * P b q (c - o)%nat))%R)).
        { apply rsum_ext. intros q Hq. unfold left_block. rewrite Er, <- rsum_mulr. apply rsum_ext. intros k Hk.
          rewrite RH by lia. ring. }
        rewrite rsum_swap. apply rsum_ext. intros k Hk. rewrite rsum_mull. reflexivity.
      * unfold left_block. rewrite Er. apply rsum_ext. intros k Hk. f_equal.
        unfold right_block. rewrite Ec. reflexivity.
  - assert (Hr : (r < s \/ s + l <= r)%nat).
    { apply andb_false_iff in Er. rewrite Nat.leb_gt, Nat.ltb_ge in Er. exact Er. }
    assert (G : forall r', (r' = r \/ (s + l <= r')%nat) ->
      HP lens (S a) (s + l) (left_block s l (Q a) (right_block s l (P a) H)) r' c = HP (l :: lens) a s H r' c).
    { intros r' Hr'.
      assert (NL : forall M c', left_block s l (Q a) M r' c' = M r' c').
      { intros M c'. destruct Hr' as [->|Hr']; [|apply LH; exact Hr']. unfold left_block. rewrite Er. reflexivity. }
      unfold HP. cbn [find_blk]. destruct ((s <=? c)%nat && (c <? s + l)%nat) eqn:Ec.
      - assert (Hc : (s <= c < s + l)%nat).
        { apply andb_true_iff in Ec. rewrite Nat.leb_le, Nat.ltb_lt in Ec. exact Ec. }
        rewrite find_low by lia. rewrite NL. unfold right_block. rewrite Ec. reflexivity.
      - destruct (find_blk lens (S a) (s + l) c) as [[[b o] lb]|] eqn:Ef.
        + pose proof (find_start _ _ _ _ _ _ _ Ef) as Ho. apply rsum_ext. intros q Hq.
          rewrite NL, RH by lia. reflexivity.
        + rewrite NL. unfold right_block. rewrite Ec. reflexivity. }
    destruct (find_blk lens (S a) (s + l) r) as [[[b o] lb]|] eqn:Ef.
    + pose proof (find_start _ _ _ _ _ _ _ Ef) as Ho. apply rsum_ext. intros k Hk. f_equal. apply G. right. lia.
    + apply G. left. reflexivity.
Qed.
Lemma fold_add l : forall s, fold_left Nat.add l s = (s + fold_left Nat.add l 0)%nat.
Proof. induction l as [|a l IH]; intros s; cbn; [lia|]. rewrite IH, (IH a). lia. Qed.
Lemma offset_cons l lens j : offset (l :: lens) (S j) = (l + offset lens j)%nat.
Proof. unfold offset. cbn [firstn fold_left]. rewrite fold_add. reflexivity. Qed.
Lemma find_offset : forall lens a0 s a r, (a < length lens)%nat ->
  (s + offset lens a <= r < s + offset lens a + nth a lens 0)%nat ->
  find_blk lens a0 s r = Some ((a0 + a)%nat, (s + offset lens a)%nat, nth a lens 0%nat).
Proof.
  induction lens as [|l lens IH]; intros a0 s a r Ha Hr; [cbn in Ha; lia|].
  destruct a as [|a].
  - unfold offset in *. cbn [firstn fold_left nth] in *. cbn [find_blk].
    replace ((s <=? r)%nat && (r <? s + l)%nat) with true.
    + do 3 f_equal; lia.
    + symmetry. apply andb_true_iff. rewrite Nat.leb_le, Nat.ltb_lt. lia.
  - rewrite offset_cons in *. cbn [nth] in *. cbn [find_blk].
    replace ((s <=? r)%nat && (r <? s + l)%nat) with false.
    + rewrite (IH (S a0) (s + l)%nat a r); [|cbn in Ha; lia|lia]. do 3 f_equal; lia.
    + symmetry. apply andb_false_iff. rewrite Nat.ltb_ge. right. lia.
Qed.
Lemma blocks_congr s l M H H' : (forall r c, H r c = H' r c) -> forall r c,
  left_block s l M H r c = left_block s l M H' r c /\ right_block s l M H r c = right_block s l M H' r c.
Proof.
  intros HH r c. unfold left_block, right_block. split; [destruct ((s <=? r)%nat && _)|destruct ((s <=? c)%nat && _)];
  try apply HH; apply rsum_ext; intros k Hk; rewrite HH; reflexivity.
Qed.
Lemma proc_congr : forall lens a s H H', (forall r c, H r c = H' r c) -> forall r c, proc lens a s H r c = proc lens a s H' r c.
Proof.
  induction lens as [|l lens IH]; intros a s H H' HH r c; [apply HH|]. cbn [proc]. apply IH. intros r' c'.
  apply blocks_congr. intros r2 c2. apply blocks_congr. exact HH.
Qed.
Variables hinv tranh : nat -> nat -> nat -> rmat -> rmat.
Hypothesis Hinv : forall j s l H r c, hinv j s (s + l)%nat H r c = right_block s l (P j) H r c.
Hypothesis Htran : forall j s l H r c, tranh j s (s + l)%nat H r c = left_block s l (Q j) H r c.
Lemma tran_fold : forall rest pre s H r c,
  snd (fold_left (fun st j => let start := fst st in let end_ := (start + nth j (pre ++ rest) 0)%nat in
     (end_, tranh j start end_ (hinv j start end_ (snd st)))) (seq (length pre) (length rest)) (s, H)) r c =
  proc rest (length pre) s H r c.
Proof.
  induction rest as [|l rest IH]; intros pre s H r c; [reflexivity|].
  cbn [length seq fold_left]. cbv zeta. cbn [fst snd].
  assert (EN : nth (length pre) (pre ++ l :: rest) 0%nat = l) by (rewrite app_nth2, Nat.sub_diag by lia; reflexivity).
  rewrite EN. specialize (IH (pre ++ [l])). rewrite app_length in IH. cbn [length] in IH. rewrite Nat.add_1_r, <- app_assoc in IH.
  cbn [app] in IH. cbv zeta in IH. rewrite IH. cbn [proc]. apply proc_congr. intros r' c'.
  rewrite Htran. apply blocks_congr. intros r2 c2. apply Hinv.
Qed.
End tran.
Lemma fold_snd {S X} (g : nat -> S -> S) : forall (L : list X) (h : X -> nat) s,
  fold_left (fun s t => g (h t) s) L s = fold_left (fun s j => g j s) (map h L) s.
Proof. induction L as [|t L IH]; intros h s; cbn; [reflexivity|apply IH]. Qed.

(** ** Dimensions *)
Section dims.
Context {A : arith} {E : Type}.
Notation mani := (mani A E).
Definition nsum (l : list nat) : nat := fold_left Nat.add l 0%nat.
Lemma dim_gen (d : mani -> nat) p : forall ms cs pre pp s0 acc,
  length ms = length cs -> length pre = length pp ->
  p_manis p = pre ++ ms -> p_pows p = pp ++ pows_from s0 cs ->
  fold_left (fun acc i => acc + (nth (S i) (p_pows p) 0 - nth i (p_pows p) 0) *
      match nth_error (p_manis p) i with Some m => d m | None => 0 end)%nat
    (seq (length pre) (length ms)) acc = (acc + nsum (map (fun mc => snd mc * d (fst mc)) (combine ms cs)))%nat.
Proof.
  induction ms as [|m ms IH]; intros cs pre pp s0 acc L1 L2 Hm Hp; [cbn; lia|].
  destruct cs as [|c cs]; [discriminate|]. cbn [seq length fold_left].
  assert (E1 : nth_error (p_manis p) (length pre) = Some m) by (rewrite Hm, nth_error_app2, Nat.sub_diag by lia; reflexivity).
  assert (E2 : nth (length pre) (p_pows p) 0%nat = s0).
  { rewrite Hp, L2, <- (Nat.add_0_r (length pp)), app_nth2_plus. reflexivity. }
  assert (E3 : nth (S (length pre)) (p_pows p) 0%nat = (s0 + c)%nat).
  { rewrite Hp, L2, <- Nat.add_1_r, app_nth2_plus. cbn [pows_from nth]. destruct cs; reflexivity. }
  rewrite E1, E2, E3.
  specialize (IH cs (pre ++ [m]) (pp ++ [s0]) (s0 + c)%nat).
  rewrite !app_length in IH. cbn [length] in IH. rewrite Nat.add_1_r in IH. rewrite IH.
  - cbn [combine map fst snd]. unfold nsum. cbn [fold_left]. rewrite (fold_add _ (0 + c * d m)). lia.
  - cbn in L1. lia.
  - lia.
  - rewrite <- app_assoc. exact Hm.
  - rewrite <- app_assoc. exact Hp.
Qed.
Lemma components_sum (d : mani -> nat) : forall ms flags cs, length ms = length cs -> length ms = length flags ->
  nsum (map (fun c => d (fst c)) (components ms flags cs)) = nsum (map (fun mc => snd mc * d (fst mc))%nat (combine ms cs)).
Proof.
  induction ms as [|m ms IH]; intros flags cs L1 L2; destruct cs as [|c cs]; destruct flags as [|b bs]; try discriminate; [reflexivity|].
  cbn [components combine map fst snd]. rewrite map_app. unfold nsum in *. rewrite fold_left_app. cbn [fold_left].
  rewrite fold_add, (fold_add _ (0 + c * d m)), IH by (cbn in *; lia). f_equal.
  clear. induction c as [|c IHc]; [reflexivity|]. cbn [repeat map fold_left fst]. rewrite fold_add, IHc. lia.
Qed.
Lemma dim_ok (d : mani -> nat) ms flags cs : length ms = length cs -> length ms = length flags ->
  dim_of A E d (make ms flags cs) = nsum (map (fun c => d (fst c)) (components ms flags cs)).
Proof.
  intros L1 L2. rewrite components_sum by assumption. unfold dim_of.
  exact (dim_gen d (make ms flags cs) ms cs [] [] 0 0 L1 eq_refl eq_refl eq_refl).
Qed.
Lemma total_ok (ms : list mani) flags cs : length ms = length cs -> length ms = length flags ->
  total_manis (make ms flags cs) = length (components ms flags cs).
Proof.
  intros L1 L2.
  assert (G : total_manis (make ms flags cs) = dim_of A E (fun _ => 1%nat) (make ms flags cs)).
  { unfold total_manis, dim_of. cbn [make p_manis p_pows].
    assert (H : forall l acc, (forall i, In i l -> (i < length ms)%nat) ->
      fold_left (fun acc i => acc + (nth (S i) (pows_from 0 cs) 0 - nth i (pows_from 0 cs) 0))%nat l acc =
      fold_left (fun acc i => acc + (nth (S i) (pows_from 0 cs) 0 - nth i (pows_from 0 cs) 0) *
        match nth_error ms i with Some _ => 1 | None => 0 end)%nat l acc).
    { induction l as [|i l IH]; intros acc Hl; [reflexivity|]. cbn [fold_left].
      destruct (nth_error ms i) eqn:En; [rewrite Nat.mul_1_r; apply IH; intros; apply Hl; right; assumption|].
      apply nth_error_None in En. specialize (Hl i (or_introl eq_refl)). lia. }
    apply H. intros i Hi. apply in_seq in Hi. lia. }
  rewrite G, dim_ok by assumption. unfold nsum. clear. generalize (components ms flags cs). intros C.
  assert (H : forall s, fold_left Nat.add (map (fun _ : mani * bool => 1%nat) C) s = (s + length C)%nat).
  { induction C as [|c C IH]; intros s; cbn; [lia|]. rewrite IH. lia. }
  rewrite H. reflexivity.
Qed.
End dims.

(** ** The extrinsic Retraction and InvRetraction *)
Section extr.
Context {A : arith} {E : Type}.
Notation mani := (mani A E).
Variables (ms : list mani) (flags : list bool) (cs : list nat).
Hypothesis L1 : length ms = length cs.
Hypothesis L2 : length ms = length flags.
Notation comps := (components ms flags cs).
Notation pr b := (mkProd ms flags (pows_from 0 cs) b).
Lemma ploop_ebody f x eta result st :
  ploop A E (pr false) (fun i m j ps =>
      let p1 := set_flag A E (fst ps) i false in
      let st1 := st_write E (snd ps) result j
                   (op2 E (f m (flag A E p1 i)) (comp E (snd ps x) j) (comp E (snd ps eta) j)) in
      (set_flag A E p1 i true, st1)) (pr false, st) =
  fold_left (ebody f x eta result) (steps ms 0 0 cs) (pr false, st).
Proof. rewrite ploop_steps by exact L1. reflexivity. Qed.
Lemma extr_store f st x eta result xs es :
  x <> result -> eta <> result -> st x = full xs -> st eta = full es ->
  length xs = length comps -> length es = length comps -> length (st result) = length comps ->
  forall k, snd (prod_op2 A E f (pr false) st x eta result) k =
    if Nat.eqb k result then full (map2 (fun c => f (fst c) false) comps xs es) else st k.
Proof.
  intros N N2 Hx He Lx Le Lr k. unfold prod_op2. cbn [p_intr]. rewrite ploop_ebody, ebody_snd.
  pose proof (op2_loop' ms flags cs L1 L2 (fun c => op2 E (f (fst c) false)) (fun c => f (fst c) false) false st x eta result xs es
    (fun _ _ _ => eq_refl) N N2 Hx He Lx Le Lr k) as H.
  rewrite <- H, ploop_steps by exact L1. reflexivity.
Qed.
Lemma extr_flags f st x eta result :
  let p' := fst (prod_op2 A E f (pr false) st x eta result) in
  p_manis p' = ms /\ p_pows p' = pows_from 0 cs /\ p_intr p' = false /\ length (p_flags p') = length flags /\
  forall i, (i < length flags)%nat -> nth i (p_flags p') false = nth i flags false || (0 <? nth i cs 0)%nat.
Proof.
  cbv zeta. unfold prod_op2. cbn [p_intr]. rewrite ploop_ebody.
  pose proof (ebody_fst f x eta result (steps ms 0 0 cs) (pr false) (new_memory E st result)) as H. cbv zeta in H.
  destruct H as (H1 & H2 & H3 & H4 & H5). repeat split; try assumption.
  intros i Hi. rewrite (H5 i Hi). cbn [p_flags]. f_equal. exact (steps_exists ms cs 0 0 i L1).
Qed.
Lemma intr_store f st x eta result xs es :
  x <> result -> eta <> result -> st x = full xs -> st eta = full es ->
  length xs = length comps -> length es = length comps -> length (st result) = length comps ->
  fst (prod_op2 A E f (pr true) st x eta result) = pr true /\
  forall k, snd (prod_op2 A E f (pr true) st x eta result) k =
    if Nat.eqb k result then full (map2 (fun c => f (fst c) (snd c)) comps xs es) else st k.
Proof.
  intros N N2 Hx He Lx Le Lr. split; [reflexivity|]. intros k.
  exact (op2_loop' ms flags cs L1 L2 (fun c => op2 E (f (fst c) (snd c))) (fun c => f (fst c) (snd c)) true st x eta result xs es
    (fun _ _ _ => eq_refl) N N2 Hx He Lx Le Lr k).
Qed.
Lemma tran_ok (P Q : nat -> rmat) (hinv tranh : nat -> nat -> nat -> rmat -> rmat) b lens st H :
  (forall j s l M r c, hinv j s (s + l)%nat M r c = right_block s l (P j) M r c) ->
  (forall j s l M r c, tranh j s (s + l)%nat M r c = left_block s l (Q j) M r c) ->
  length lens = length comps ->
  forall ja jb r c, (ja < length lens)%nat -> (jb < length lens)%nat ->
  (offset lens ja <= r < offset lens ja + nth ja lens 0)%nat -> (offset lens jb <= c < offset lens jb + nth jb lens 0)%nat ->
  prod_tran hinv tranh (pr b) lens st H H H r c =
  rsum (nth ja lens 0%nat) (fun k => Q ja (r - offset lens ja)%nat k *
    rsum (nth jb lens 0%nat) (fun l => st H (offset lens ja + k)%nat (offset lens jb + l)%nat * P jb l (c - offset lens jb)%nat))%R.
Proof.
  intros HI HT LL ja jb r c Ha Hb Hr Hc. unfold prod_tran. rewrite Nat.eqb_refl. rewrite ploop_steps by exact L1.
  etransitivity; [apply (f_equal (fun X : nat * rmat => snd X r c)); exact (fold_snd (fun j s => let start := fst s in
      let end_ := (start + nth j lens 0)%nat in (end_, tranh j start end_ (hinv j start end_ (snd s)))) (steps ms 0 0 cs) snd (0%nat, st H))|].
  rewrite steps_index by exact L1. rewrite (components_length ms flags cs 0 0 L1 L2), <- LL.
  etransitivity; [exact (tran_fold P Q hinv tranh HI HT lens [] 0 (st H) r c)|].
  etransitivity; [exact (proc_ok P Q lens 0 0 (st H) r c)|].
  unfold QH. rewrite (find_offset lens 0 0 ja r Ha Hr). cbn [Nat.add]. apply rsum_ext. intros k Hk. f_equal.
  unfold HP. rewrite (find_offset lens 0 0 jb c Hb Hc). reflexivity.
Qed.
End extr.
