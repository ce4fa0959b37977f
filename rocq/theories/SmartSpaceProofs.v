(** Proofs about the copy-on-write storage model. *)
From stdpp Require Import gmap list.
From Coq Require Import ZArith Lia.
From Verif Require Import SmartSpaceModel SmartSpaceSpec.
Open Scope nat_scope.

Section proofs.
Context {V FV : Type}.
Notation obj := (@obj FV).
Notation st := (@st V FV).
Notation op := (@op V).

Implicit Types (s : st) (o src : obj).

(** Number of live objects whose counter is at address [c]. *)
Definition ind o (c : nat) : nat := if decide (o_share o = Some c) then 1 else 0.
Definition owners (m : gmap nat obj) (c : nat) : nat :=
  size (filter (fun p => o_share p.2 = Some c) m).

Definition ind_opt (x : option obj) (c : nat) : nat :=
  match x with Some o => ind o c | None => 0 end.

Lemma owners_delete m n c : owners (delete n m) c + ind_opt (m !! n) c = owners m c.
Proof.
  unfold owners, ind_opt, ind. rewrite map_filter_delete.
  destruct (m !! n) as [o|] eqn:E.
  - destruct (decide (o_share o = Some c)) as [H|H].
    + rewrite map_size_delete_Some.
      2:{ exists o. apply map_filter_lookup_Some. auto. }
      assert (size (filter (fun p : nat * obj => o_share p.2 = Some c) m) <> 0).
      { intros H0. apply map_size_empty_inv in H0.
        assert (filter (fun p : nat * obj => o_share p.2 = Some c) m !! n = Some o) as HH
          by (apply map_filter_lookup_Some; auto).
        rewrite H0, lookup_empty in HH. discriminate. }
      lia.
    + rewrite map_size_delete_None; [lia|].
      apply map_filter_lookup_None. right. intros x Hx. rewrite E in Hx. injection Hx as <-. exact H.
  - rewrite map_size_delete_None; [lia|].
    apply map_filter_lookup_None. left. exact E.
Qed.

Lemma owners_insert m n o c :
  owners (<[n := o]> m) c + ind_opt (m !! n) c = owners m c + ind o c.
Proof.
  pose proof (owners_delete (<[n:=o]> m) n c) as H1.
  pose proof (owners_delete m n c) as H2.
  rewrite delete_insert_delete, lookup_insert in H1. simpl in H1. lia.
Qed.

Lemma owners_pos m n o c :
  m !! n = Some o -> o_share o = Some c -> 0 < owners m c.
Proof.
  intros H1 H2. pose proof (owners_delete m n c) as H. rewrite H1 in H. simpl in H.
  unfold ind in H. rewrite decide_True in H by exact H2. lia.
Qed.

Lemma owners_zero m c : (forall n o, m !! n = Some o -> o_share o <> Some c) -> owners m c = 0.
Proof.
  intros H. unfold owners. apply map_size_empty_iff. apply map_filter_empty_iff.
  intros n o Hn. simpl. eauto.
Qed.

Lemma owners_ex m c : 0 < owners m c -> exists n o, m !! n = Some o /\ o_share o = Some c.
Proof.
  intros H. unfold owners in H.
  destruct (map_choose (filter (fun p : nat * obj => o_share p.2 = Some c) m)) as (n & o & Hn).
  - intros H0. rewrite H0, map_size_empty in H. lia.
  - apply map_filter_lookup_Some in Hn. simpl in Hn. destruct Hn. eauto.
Qed.

(** If [c] has one owner only, it is the one we know. *)
Lemma owners_one m n o c n' o' :
  owners m c = 1 -> m !! n = Some o -> o_share o = Some c ->
  m !! n' = Some o' -> o_share o' = Some c -> n = n'.
Proof.
  intros H1 Hn Hc Hn' Hc'. destruct (decide (n = n')) as [|Hne]; [assumption|exfalso].
  pose proof (owners_delete m n c) as H. rewrite Hn in H. simpl in H. unfold ind in H.
  rewrite decide_True in H by exact Hc.
  assert (0 < owners (delete n m) c); [|lia].
  apply (owners_pos _ n' o' c); [rewrite lookup_delete_ne by congruence; exact Hn' | exact Hc'].
Qed.

(** The invariant: pointers are paired, counters count, nothing is leaked. *)
Record wf_obj s o : Prop := {
  wf_len : o_len o = volume (o_size o);
  wf_mem : (o_share o = None /\ o_space o = None) \/
           exists c d k l, o_share o = Some c /\ o_space o = Some d /\
             counts s !! c = Some k /\ datas s !! d = Some l /\ length l = o_len o
}.

Record Inv s : Prop := {
  inv_wf : forall n o, objs s !! n = Some o -> wf_obj s o;
  inv_pair : forall n1 n2 o1 o2 c, objs s !! n1 = Some o1 -> objs s !! n2 = Some o2 ->
      o_share o1 = Some c -> o_share o2 = Some c -> o_space o1 = o_space o2;
  inv_pair' : forall n1 n2 o1 o2 d, objs s !! n1 = Some o1 -> objs s !! n2 = Some o2 ->
      o_space o1 = Some d -> o_space o2 = Some d -> o_share o1 = o_share o2;
  inv_count : forall c k, counts s !! c = Some k -> k = Z.of_nat (owners (objs s) c) /\ (0 < k)%Z;
  inv_data : forall d l, datas s !! d = Some l -> exists n o, objs s !! n = Some o /\ o_space o = Some d;
  inv_nc : forall c k, counts s !! c = Some k -> c < next s;
  inv_nd : forall d l, datas s !! d = Some l -> d < next s
}.

Lemma Inv_init : Inv init_st.
Proof.
  constructor; simpl; intros; rewrite lookup_empty in *; discriminate.
Qed.


(** Abstraction: the value of an object. *)
Definition absv s o : val V := (o_size o, o_space o ≫= fun d => datas s !! d).
Definition abs s : gmap nat (val V) := absv s <$> objs s.

(** Everything except object [n] is untouched. *)
Definition frame s s' (n : nat) : Prop :=
  forall n', n' <> n -> objs s' !! n' = objs s !! n' /\ forall o', objs s !! n' = Some o' -> absv s' o' = absv s o'.

Lemma frame_refl s n : frame s s n.
Proof. intros n' _; auto. Qed.

Lemma frame_trans s1 s2 s3 n : frame s1 s2 n -> frame s2 s3 n -> frame s1 s3 n.
Proof.
  intros H1 H2 n' Hn'. destruct (H1 n' Hn') as [A1 B1]. destruct (H2 n' Hn') as [A2 B2].
  split; [congruence|]. intros o' Ho'. rewrite (B2 o'), (B1 o'); congruence.
Qed.

Lemma abs_frame s s' n o' :
  frame s s' n -> objs s' !! n = Some o' -> abs s' = <[n := absv s' o']> (abs s).
Proof.
  intros HF Ho. apply map_eq. intros i. unfold abs.
  destruct (decide (i = n)) as [->|Hne].
  - rewrite lookup_insert, lookup_fmap, Ho. reflexivity.
  - rewrite lookup_insert_ne by congruence. rewrite !lookup_fmap.
    destruct (HF i Hne) as [H1 H2]. rewrite H1.
    destruct (objs s !! i) as [oi|] eqn:E; [|reflexivity]. simpl. f_equal. apply H2. reflexivity.
Qed.

Lemma abs_frame_del s s' n :
  frame s s' n -> objs s' !! n = None -> abs s' = delete n (abs s).
Proof.
  intros HF Ho. apply map_eq. intros i. unfold abs.
  destruct (decide (i = n)) as [->|Hne].
  - rewrite lookup_delete, lookup_fmap, Ho. reflexivity.
  - rewrite lookup_delete_ne by congruence. rewrite !lookup_fmap.
    destruct (HF i Hne) as [H1 H2]. rewrite H1.
    destruct (objs s !! i) as [oi|] eqn:E; [|reflexivity]. simpl. f_equal. apply H2. reflexivity.
Qed.

(** *** Primitive transitions *)

Definition set_mem o (sz : shape) (len : nat) (c d : option nat) : obj :=
  mkObj sz len c d (o_cache o).

(** Give up the memory of object [n]. *)
Definition rel s n o : st :=
  let o' := set_mem o (o_size o) (o_len o) None None in
  match o_share o, o_space o with
  | Some c, Some d =>
      match counts s !! c with
      | Some k => if (1 <? k)%Z
                  then mkSt (<[c := (k - 1)%Z]> (counts s)) (datas s) (<[n := o']> (objs s)) (next s)
                  else mkSt (delete c (counts s)) (delete d (datas s)) (<[n := o']> (objs s)) (next s)
      | None => s
      end
  | _, _ => mkSt (counts s) (datas s) (<[n := o']> (objs s)) (next s)
  end.

Definition acq_fresh s n o (l : list (option V)) : st :=
  mkSt (<[S (next s) := 1%Z]> (counts s)) (<[next s := l]> (datas s))
       (<[n := set_mem o (o_size o) (o_len o) (Some (S (next s))) (Some (next s))]> (objs s))
       (S (S (next s))).

Definition acq_share s n o src : st :=
  mkSt (match o_share src with
        | Some c => match counts s !! c with
                    | Some k => <[c := (k + 1)%Z]> (counts s) | None => counts s end
        | None => counts s end)
       (datas s) (<[n := set_mem o (o_size src) (o_len src) (o_share src) (o_space src)]> (objs s)) (next s).

Definition upd s (d : nat) (l : list (option V)) : st :=
  mkSt (counts s) (<[d := l]> (datas s)) (objs s) (next s).

Definition upd_obj s n o : st := mkSt (counts s) (datas s) (<[n := o]> (objs s)) (next s).

(** Facts about an object with memory. *)
Lemma inv_mem s n o c :
  Inv s -> objs s !! n = Some o -> o_share o = Some c ->
  exists d k l, o_space o = Some d /\ counts s !! c = Some k /\ datas s !! d = Some l /\ length l = o_len o /\ k = Z.of_nat (owners (objs s) c) /\ (0 < k)%Z.
Proof.
  intros HI Ho Hc. destruct (inv_wf s HI n o Ho) as [Hl [[H1 _]|(c' & d & k & l & H1 & H2 & H3 & H4 & H5)]].
  - congruence.
  - rewrite Hc in H1. injection H1 as <-. destruct (inv_count s HI c k H3). eauto 10.
Qed.

Lemma inv_share_space s n o d :
  Inv s -> objs s !! n = Some o -> o_space o = Some d ->
  exists c, o_share o = Some c.
Proof.
  intros HI Ho Hd. destruct (inv_wf s HI n o Ho) as [Hl [[H1 H2]|(c' & d' & k & l & H1 & H2 & H3 & H4 & H5)]].
  - congruence.
  - eauto.
Qed.

(** Changing things an object does not point to keeps it well-formed. *)
Lemma wf_obj_ext s s' o :
  wf_obj s o ->
  (forall c, o_share o = Some c -> is_Some (counts s !! c) -> is_Some (counts s' !! c)) ->
  (forall d, o_space o = Some d -> datas s' !! d = datas s !! d) -> wf_obj s' o.
Proof.
  intros [H1 H2] Hc Hd. split; [exact H1|]. destruct H2 as [H2|(c & d & k & l & H2 & H3 & H4 & H5 & H6)]; [left; exact H2|].
  right. destruct (Hc c H2) as [k' Hk']; [eauto|].
  exists c, d, k', l. rewrite (Hd d H3). auto 10.
Qed.

Lemma wf_obj_ext' s s' o :
  wf_obj s o ->
  (forall c, o_share o = Some c -> is_Some (counts s !! c) -> is_Some (counts s' !! c)) ->
  (forall d l, o_space o = Some d -> datas s !! d = Some l -> exists l', datas s' !! d = Some l' /\ length l' = length l) -> wf_obj s' o.
Proof.
  intros [H1 H2] Hc Hd. split; [exact H1|]. destruct H2 as [H2|(c & d & k & l & H2 & H3 & H4 & H5 & H6)]; [left; exact H2|].
  right. destruct (Hc c H2) as [k' Hk']; [eauto|].
  destruct (Hd d l H3 H5) as (l' & Hl' & Hlen).
  exists c, d, k', l'. rewrite <- H6. auto 10.
Qed.

Lemma ind_none o c : o_share o = None -> ind o c = 0.
Proof. intros H. unfold ind. rewrite decide_False by congruence. reflexivity. Qed.

Lemma ind_some o c c' : o_share o = Some c' -> ind o c = if decide (c = c') then 1 else 0.
Proof.
  intros H. unfold ind. destruct (decide (c = c')) as [->|].
  - rewrite decide_True by congruence. reflexivity.
  - rewrite decide_False by congruence. reflexivity.
Qed.

(** Releasing. *)
Lemma rel_objs s n o : Inv s -> objs s !! n = Some o ->
  objs (rel s n o) = <[n := set_mem o (o_size o) (o_len o) None None]> (objs s).
Proof.
  intros HI Ho. unfold rel. destruct (o_share o) as [c|] eqn:Hc; [|reflexivity].
  destruct (inv_mem s n o c HI Ho Hc) as (d & k & l & Hd & Hk & _). rewrite Hd, Hk.
  destruct (1 <? k)%Z; reflexivity.
Qed.

Lemma rel_next s n o : next (rel s n o) = next s.
Proof.
  unfold rel. destruct (o_share o); [|reflexivity]. destruct (o_space o); [|reflexivity].
  destruct (counts s !! _); [|reflexivity]. destruct (1 <? _)%Z; reflexivity.
Qed.

Lemma rel_Inv s n o : Inv s -> objs s !! n = Some o -> Inv (rel s n o).
Proof.
  intros HI Ho. pose proof (rel_objs s n o HI Ho) as HO.
  unfold rel in *. destruct (o_share o) as [c|] eqn:Hc.
  2:{ (* no memory *)
      assert (Hsp : o_space o = None).
      { destruct (inv_wf s HI n o Ho) as [_ [[_ H]|(c' & d' & k & l & H1 & _)]]; congruence. }
      assert (Heq : set_mem o (o_size o) (o_len o) None None = o).
      { destruct o; simpl in *; subst; reflexivity. }
      rewrite Heq, insert_id by exact Ho. destruct s; exact HI. }
  destruct (inv_mem s n o c HI Ho Hc) as (d & k & l & Hd & Hk & Hl & Hlen & Hkk & Hpos).
  rewrite Hd, Hk in *.
  assert (Howners : forall c', owners (<[n:=set_mem o (o_size o) (o_len o) None None]> (objs s)) c'
           + ind o c' = owners (objs s) c').
  { intros c'. pose proof (owners_insert (objs s) n (set_mem o (o_size o) (o_len o) None None) c') as H.
    rewrite Ho in H. unfold ind_opt in H.
    rewrite (ind_none (set_mem _ _ _ _ _)) in H by reflexivity. lia. }
  assert (Hind : forall c', ind o c' = if decide (c = c') then 1 else 0).
  { intros c'. unfold ind. rewrite Hc. destruct (decide (c = c')) as [->|];
      [rewrite decide_True by reflexivity|rewrite decide_False by congruence]; reflexivity. }
  destruct (Z.ltb_spec 1 k) as [Hk1|Hk1].
  - constructor; simpl.
    + intros n' o'. destruct (decide (n' = n)) as [->|Hne].
      * rewrite lookup_insert. intros [= <-]. split; simpl; [apply (wf_len s o), (inv_wf s HI n o Ho)|auto].
      * rewrite lookup_insert_ne by congruence. intros Ho'.
        apply (wf_obj_ext s); [apply (inv_wf s HI n' o' Ho')| |reflexivity].
        intros c' _ Hs. simpl. destruct (decide (c' = c)) as [->|]; [rewrite lookup_insert; eauto|].
        rewrite lookup_insert_ne by congruence. exact Hs.
    + intros n1 n2 o1 o2 c'. destruct (decide (n1 = n)) as [->|H1]; destruct (decide (n2 = n)) as [->|H2];
        rewrite ?lookup_insert, ?lookup_insert_ne by congruence.
      * intros [= <-] [= <-]; reflexivity.
      * intros [= <-] _; simpl; discriminate.
      * intros _ [= <-]; simpl; discriminate.
      * apply (inv_pair s HI).
    + intros n1 n2 o1 o2 c'. destruct (decide (n1 = n)) as [->|H1]; destruct (decide (n2 = n)) as [->|H2];
        rewrite ?lookup_insert, ?lookup_insert_ne by congruence.
      * intros [= <-] [= <-]; reflexivity.
      * intros [= <-] _; simpl; discriminate.
      * intros _ [= <-]; simpl; discriminate.
      * apply (inv_pair' s HI).
    + intros c' k'. specialize (Howners c'). rewrite (Hind c') in Howners.
      destruct (decide (c = c')) as [<-|Hne].
      * rewrite lookup_insert. intros [= <-]. lia.
      * rewrite lookup_insert_ne by congruence. intros Hk'. destruct (inv_count s HI c' k' Hk'). lia.
    + intros d' l' Hl'. destruct (inv_data s HI d' l' Hl') as (n' & o' & Hn' & Hd').
      destruct (decide (n' = n)) as [->|Hne].
      * (* another owner exists since the counter is > 1 *)
        assert (o' = o) as -> by congruence.
        pose proof (owners_delete (objs s) n c) as Hdel. rewrite Ho in Hdel. simpl in Hdel.
        rewrite Hind, decide_True in Hdel by reflexivity.
        destruct (owners_ex (delete n (objs s)) c) as (n2 & o2 & Hn2 & Hc2); [lia|].
        destruct (decide (n2 = n)) as [->|Hne2]; [rewrite lookup_delete in Hn2; discriminate|].
        rewrite lookup_delete_ne in Hn2 by congruence.
        exists n2, o2. rewrite lookup_insert_ne by congruence. split; [exact Hn2|].
        rewrite <- Hd'. symmetry. apply (inv_pair s HI n n2 o o2 c); auto.
      * exists n', o'. rewrite lookup_insert_ne by congruence. auto.
    + intros c' k'. destruct (decide (c = c')) as [<-|Hne].
      * rewrite lookup_insert. intros _. apply (inv_nc s HI c k Hk).
      * rewrite lookup_insert_ne by congruence. apply (inv_nc s HI).
    + apply (inv_nd s HI).
  - assert (Hone : owners (objs s) c = 1) by lia.
    assert (Hothers : forall n' o', n' <> n -> objs s !! n' = Some o' -> o_share o' <> Some c /\ o_space o' <> Some d).
    { intros n' o' Hne Ho'. assert (Hs : o_share o' <> Some c).
      { intros Hcc. apply Hne. symmetry. apply (owners_one (objs s) n o c n' o'); auto. }
      split; [exact Hs|]. intros Hdd. apply Hs. rewrite <- Hc. symmetry.
      apply (inv_pair' s HI n n' o o' d); auto. }
    constructor; simpl.
    + intros n' o'. destruct (decide (n' = n)) as [->|Hne].
      * rewrite lookup_insert. intros [= <-]. split; simpl; [apply (wf_len s o), (inv_wf s HI n o Ho)|auto].
      * rewrite lookup_insert_ne by congruence. intros Ho'.
        destruct (Hothers n' o' Hne Ho') as [Hx Hy].
        apply (wf_obj_ext s); [apply (inv_wf s HI n' o' Ho')| |].
        -- intros c' Hc' Hs. simpl. rewrite lookup_delete_ne by congruence. exact Hs.
        -- intros d' Hd'. simpl. rewrite lookup_delete_ne by congruence. reflexivity.
    + intros n1 n2 o1 o2 c'. destruct (decide (n1 = n)) as [->|H1]; destruct (decide (n2 = n)) as [->|H2];
        rewrite ?lookup_insert, ?lookup_insert_ne by congruence.
      * intros [= <-] [= <-]; reflexivity.
      * intros [= <-] _; simpl; discriminate.
      * intros _ [= <-]; simpl; discriminate.
      * apply (inv_pair s HI).
    + intros n1 n2 o1 o2 c'. destruct (decide (n1 = n)) as [->|H1]; destruct (decide (n2 = n)) as [->|H2];
        rewrite ?lookup_insert, ?lookup_insert_ne by congruence.
      * intros [= <-] [= <-]; reflexivity.
      * intros [= <-] _; simpl; discriminate.
      * intros _ [= <-]; simpl; discriminate.
      * apply (inv_pair' s HI).
    + intros c' k'. specialize (Howners c'). rewrite (Hind c') in Howners.
      destruct (decide (c = c')) as [<-|Hne].
      * rewrite lookup_delete. discriminate.
      * rewrite lookup_delete_ne by congruence. intros Hk'. destruct (inv_count s HI c' k' Hk'). lia.
    + intros d' l' Hl'. destruct (decide (d' = d)) as [->|Hned]; [rewrite lookup_delete in Hl'; discriminate|].
      rewrite lookup_delete_ne in Hl' by congruence.
      destruct (inv_data s HI d' l' Hl') as (n' & o' & Hn' & Hd').
      exists n', o'. split; [|exact Hd']. destruct (decide (n' = n)) as [->|Hne]; [congruence|].
      rewrite lookup_insert_ne by congruence. exact Hn'.
    + intros c' k' Hk'. apply lookup_delete_Some in Hk'. apply (inv_nc s HI c' k'). tauto.
    + intros c' k' Hk'. apply lookup_delete_Some in Hk'. apply (inv_nd s HI c' k'). tauto.
Qed.

Lemma rel_frame s n o : Inv s -> objs s !! n = Some o -> frame s (rel s n o) n.
Proof.
  intros HI Ho n' Hne. pose proof (rel_objs s n o HI Ho) as HO. rewrite HO.
  rewrite lookup_insert_ne by congruence. split; [reflexivity|]. intros o' Ho'.
  unfold absv. f_equal. unfold rel. destruct (o_share o) as [c|] eqn:Hc; [|reflexivity].
  destruct (inv_mem s n o c HI Ho Hc) as (d & k & l & Hd & Hk & Hl & Hlen & Hkk & Hpos).
  rewrite Hd, Hk. destruct (Z.ltb_spec 1 k) as [Hk1|Hk1]; [reflexivity|]. simpl.
  destruct (o_space o') as [d'|] eqn:Hd'; [|reflexivity]. simpl.
  rewrite lookup_delete_ne; [reflexivity|]. intros <-.
  apply Hne. symmetry. apply (owners_one (objs s) n o c n' o'); auto; [lia|].
  rewrite <- Hc. symmetry. apply (inv_pair' s HI n n' o o' d); auto.
Qed.

(** Fresh memory. *)
Lemma acq_fresh_Inv s n o l :
  Inv s -> objs s !! n = Some o -> o_share o = None -> length l = o_len o -> Inv (acq_fresh s n o l).
Proof.
  intros HI Ho Hc Hlen.
  assert (Hfc : counts s !! S (next s) = None).
  { destruct (counts s !! S (next s)) as [k|] eqn:E; [|reflexivity]. pose proof (inv_nc s HI _ _ E). lia. }
  assert (Hfd : datas s !! next s = None).
  { destruct (datas s !! next s) as [k|] eqn:E; [|reflexivity]. pose proof (inv_nd s HI _ _ E). lia. }
  assert (Hnoc : forall n' o', objs s !! n' = Some o' -> o_share o' <> Some (S (next s)) /\ o_space o' <> Some (next s)).
  { intros n' o' Ho'. destruct (inv_wf s HI n' o' Ho') as [_ [[H1 H2]|(c' & d' & k & l' & H1 & H2 & H3 & H4 & H5)]].
    - split; congruence.
    - split; intros H; congruence. }
  constructor; unfold acq_fresh; simpl.
  - intros n' o'. destruct (decide (n' = n)) as [->|Hne].
    + rewrite lookup_insert. intros [= <-]. split; simpl; [apply (wf_len s o), (inv_wf s HI n o Ho)|].
      right. exists (S (next s)), (next s), 1%Z, l. rewrite !lookup_insert. auto 10.
    + rewrite lookup_insert_ne by congruence. intros Ho'. destruct (Hnoc n' o' Ho').
      apply (wf_obj_ext s); [apply (inv_wf s HI n' o' Ho')| |].
      * intros c' Hc' Hs. simpl. rewrite lookup_insert_ne by congruence. exact Hs.
      * intros d' Hd'. simpl. rewrite lookup_insert_ne by congruence. reflexivity.
  - intros n1 n2 o1 o2 c'. destruct (decide (n1 = n)) as [->|H1]; destruct (decide (n2 = n)) as [->|H2];
      rewrite ?lookup_insert, ?lookup_insert_ne by congruence.
    + intros [= <-] [= <-]; reflexivity.
    + intros [= <-] Ho2; simpl. intros [= <-] Hx. destruct (Hnoc n2 o2 Ho2). congruence.
    + intros Ho1 [= <-]; simpl. intros Hx [= <-]. destruct (Hnoc n1 o1 Ho1). congruence.
    + apply (inv_pair s HI).
  - intros n1 n2 o1 o2 c'. destruct (decide (n1 = n)) as [->|H1]; destruct (decide (n2 = n)) as [->|H2];
      rewrite ?lookup_insert, ?lookup_insert_ne by congruence.
    + intros [= <-] [= <-]; reflexivity.
    + intros [= <-] Ho2; simpl. intros [= <-] Hx. destruct (Hnoc n2 o2 Ho2). congruence.
    + intros Ho1 [= <-]; simpl. intros Hx [= <-]. destruct (Hnoc n1 o1 Ho1). congruence.
    + apply (inv_pair' s HI).
  - intros c' k'.
    pose proof (owners_insert (objs s) n (set_mem o (o_size o) (o_len o) (Some (S (next s))) (Some (next s))) c') as H.
    rewrite Ho in H. simpl in H. unfold ind in H. simpl in H. rewrite Hc in H.
    rewrite (decide_False (P := None = Some c')) in H by discriminate.
    destruct (decide (c' = S (next s))) as [->|Hne].
    + rewrite lookup_insert. intros [= <-]. rewrite decide_True in H by reflexivity.
      rewrite (owners_zero (objs s)) in H; [lia|]. intros n' o' Ho'. apply (Hnoc n' o' Ho').
    + rewrite lookup_insert_ne by congruence. intros Hk'. rewrite decide_False in H by congruence.
      destruct (inv_count s HI c' k' Hk'). lia.
  - intros d' l' Hl'. destruct (decide (d' = next s)) as [->|Hne].
    + exists n. eexists. rewrite lookup_insert. split; reflexivity.
    + rewrite lookup_insert_ne in Hl' by congruence.
      destruct (inv_data s HI d' l' Hl') as (n' & o' & Hn' & Hd').
      exists n', o'. split; [|exact Hd']. destruct (decide (n' = n)) as [->|Hne'].
      * assert (o' = o) as -> by congruence. destruct (inv_share_space s n o d' HI Ho Hd'). congruence.
      * rewrite lookup_insert_ne by congruence. exact Hn'.
  - intros c' k'. destruct (decide (c' = S (next s))) as [->|Hne]; [intros; lia|].
    rewrite lookup_insert_ne by congruence. intros Hk'. pose proof (inv_nc s HI _ _ Hk'). lia.
  - intros c' k'. destruct (decide (c' = next s)) as [->|Hne]; [intros; lia|].
    rewrite lookup_insert_ne by congruence. intros Hk'. pose proof (inv_nd s HI _ _ Hk'). lia.
Qed.

Lemma acq_fresh_frame s n o l :
  Inv s -> frame s (acq_fresh s n o l) n.
Proof.
  intros HI n' Hne. unfold acq_fresh; simpl. rewrite lookup_insert_ne by congruence.
  split; [reflexivity|]. intros o' Ho'. unfold absv. f_equal. simpl.
  destruct (o_space o') as [d|] eqn:Hd; [|reflexivity]. simpl.
  rewrite lookup_insert_ne; [reflexivity|]. intros <-.
  destruct (inv_wf s HI n' o' Ho') as [_ [[H1 H2]|(c' & d' & k & l' & H1 & H2 & H3 & H4 & H5)]]; [congruence|].
  rewrite Hd in H2. injection H2 as <-. pose proof (inv_nd s HI _ _ H4). lia.
Qed.

(** Sharing another object's memory. *)
Lemma acq_share_Inv s n o m src :
  Inv s -> objs s !! n = Some o -> objs s !! m = Some src -> n <> m ->
  o_share o = None -> Inv (acq_share s n o src).
Proof.
  intros HI Ho Hsrc Hnm Hc.
  pose proof (inv_wf s HI m src Hsrc) as [Hlsrc Hmsrc].
  assert (Hosp : o_space o = None).
  { destruct (o_space o) as [d|] eqn:E; [|reflexivity]. destruct (inv_share_space s n o d HI Ho E). congruence. }
  set (o2 := set_mem o (o_size src) (o_len src) (o_share src) (o_space src)).
  assert (Hcnt : forall c', is_Some (counts s !! c') -> is_Some (counts (acq_share s n o src) !! c')).
  { intros c' Hs. unfold acq_share; simpl. destruct (o_share src) as [c|]; [|exact Hs].
    destruct (counts s !! c); [|exact Hs]. destruct (decide (c' = c)) as [->|];
    [rewrite lookup_insert; eauto|rewrite lookup_insert_ne by congruence; exact Hs]. }
  assert (Hwf2 : wf_obj (acq_share s n o src) o2).
  { split; [exact Hlsrc|]. simpl. destruct Hmsrc as [H|(c & d & k & l & H1 & H2 & H3 & H4 & H5)]; [left; exact H|right].
    destruct (Hcnt c) as [k' Hk']; [eauto|]. exists c, d, k', l. auto 10. }
  constructor; fold o2.
  - intros n' o'. unfold acq_share at 1; simpl. fold o2. destruct (decide (n' = n)) as [->|Hne].
    + rewrite lookup_insert. intros [= <-]. exact Hwf2.
    + rewrite lookup_insert_ne by congruence. intros Ho'.
      apply (wf_obj_ext s); [apply (inv_wf s HI n' o' Ho')| |reflexivity].
      intros c' _. apply Hcnt.
  - intros n1 n2 oa ob c'. unfold acq_share; simpl. fold o2.
    destruct (decide (n1 = n)) as [->|H1]; destruct (decide (n2 = n)) as [->|H2];
      rewrite ?lookup_insert, ?lookup_insert_ne by congruence.
    + intros [= <-] [= <-]; reflexivity.
    + intros [= <-] Ho2; simpl. intros Ha Hb. apply (inv_pair s HI m n2 src ob c'); auto.
    + intros Ho1 [= <-]; simpl. intros Ha Hb. apply (inv_pair s HI n1 m oa src c'); auto.
    + apply (inv_pair s HI).
  - intros n1 n2 oa ob c'. unfold acq_share; simpl. fold o2.
    destruct (decide (n1 = n)) as [->|H1]; destruct (decide (n2 = n)) as [->|H2];
      rewrite ?lookup_insert, ?lookup_insert_ne by congruence.
    + intros [= <-] [= <-]; reflexivity.
    + intros [= <-] Ho2; simpl. intros Ha Hb. apply (inv_pair' s HI m n2 src ob c'); auto.
    + intros Ho1 [= <-]; simpl. intros Ha Hb. apply (inv_pair' s HI n1 m oa src c'); auto.
    + apply (inv_pair' s HI).
  - intros c' k'. unfold acq_share; simpl. fold o2.
    pose proof (owners_insert (objs s) n o2 c') as H. rewrite Ho in H. simpl in H.
    unfold ind in H. simpl in H. rewrite Hc in H. rewrite (decide_False (P := None = Some c')) in H by discriminate.
    destruct (o_share src) as [c|] eqn:Ec.
    + destruct (inv_mem s m src c HI Hsrc Ec) as (d & k & l & Hd & Hk & Hl & Hlen & Hkk & Hpos).
      rewrite Hk. destruct (decide (c' = c)) as [->|Hne].
      * rewrite lookup_insert. intros [= <-]. rewrite decide_True in H by reflexivity. lia.
      * rewrite lookup_insert_ne by congruence. intros Hk'. rewrite decide_False in H by congruence.
        destruct (inv_count s HI c' k' Hk'). lia.
    + intros Hk'. rewrite decide_False in H by congruence. destruct (inv_count s HI c' k' Hk'). lia.
  - intros d' l' Hl'. unfold acq_share in *; simpl in *. fold o2.
    destruct (inv_data s HI d' l' Hl') as (n' & o' & Hn' & Hd').
    exists n', o'. split; [|exact Hd']. destruct (decide (n' = n)) as [->|Hne']; [congruence|].
    rewrite lookup_insert_ne by congruence. exact Hn'.
  - intros c' k'. unfold acq_share; simpl. destruct (o_share src) as [c|] eqn:Ec; [|apply (inv_nc s HI)].
    destruct (counts s !! c) as [k|] eqn:Ek; [|apply (inv_nc s HI)].
    destruct (decide (c' = c)) as [->|Hne].
    + intros _. apply (inv_nc s HI c k Ek).
    + rewrite lookup_insert_ne by congruence. apply (inv_nc s HI).
  - unfold acq_share; simpl. apply (inv_nd s HI).
Qed.

Lemma acq_share_frame s n o src : frame s (acq_share s n o src) n.
Proof.
  intros n' Hne. unfold acq_share; simpl. rewrite lookup_insert_ne by congruence.
  split; reflexivity.
Qed.

(** Overwriting the array of a block. *)
Lemma upd_Inv s d l0 l : Inv s -> datas s !! d = Some l0 -> length l = length l0 -> Inv (upd s d l).
Proof.
  intros HI Hd Hlen. constructor; unfold upd; simpl.
  - intros n o Ho. apply (wf_obj_ext' s); [apply (inv_wf s HI n o Ho)|auto|].
    intros d' l' Hd' Hl'. simpl. destruct (decide (d' = d)) as [->|Hne].
    + exists l. rewrite lookup_insert. rewrite Hd in Hl'. injection Hl' as <-. auto.
    + exists l'. rewrite lookup_insert_ne by congruence. auto.
  - apply (inv_pair s HI).
  - apply (inv_pair' s HI).
  - apply (inv_count s HI).
  - intros d' l'. destruct (decide (d' = d)) as [->|Hne]; [intros _; apply (inv_data s HI d l0 Hd)|].
    rewrite lookup_insert_ne by congruence. apply (inv_data s HI).
  - apply (inv_nc s HI).
  - intros d' l'. destruct (decide (d' = d)) as [->|Hne]; [intros _; apply (inv_nd s HI d l0 Hd)|].
    rewrite lookup_insert_ne by congruence. apply (inv_nd s HI).
Qed.

Lemma upd_frame s n o c d l :
  Inv s -> objs s !! n = Some o -> o_share o = Some c -> o_space o = Some d ->
  counts s !! c = Some 1%Z -> frame s (upd s d l) n.
Proof.
  intros HI Ho Hc Hd Hk n' Hne. simpl. split; [reflexivity|]. intros o' Ho'.
  unfold absv. f_equal. simpl. destruct (o_space o') as [d'|] eqn:Hd'; [|reflexivity]. simpl.
  rewrite lookup_insert_ne; [reflexivity|]. intros <-. apply Hne. symmetry.
  apply (owners_one (objs s) n o c n' o'); auto.
  - destruct (inv_count s HI c 1%Z Hk). lia.
  - rewrite <- Hc. symmetry. apply (inv_pair' s HI n n' o o' d); auto.
Qed.

(** Changing size, length or cache of an object, keeping its memory. *)
Lemma upd_obj_Inv s n o o2 :
  Inv s -> objs s !! n = Some o -> o_share o2 = o_share o -> o_space o2 = o_space o ->
  o_len o2 = o_len o -> volume (o_size o2) = volume (o_size o) -> Inv (upd_obj s n o2).
Proof.
  intros HI Ho Hc Hd Hl Hv. pose proof (inv_wf s HI n o Ho) as [Hw1 Hw2].
  constructor; unfold upd_obj; simpl.
  - intros n' o'. destruct (decide (n' = n)) as [->|Hne].
    + rewrite lookup_insert. intros [= <-]. split; [congruence|]. rewrite Hc, Hd, Hl. exact Hw2.
    + rewrite lookup_insert_ne by congruence. intros Ho'. destruct (inv_wf s HI n' o' Ho') as [A B].
      split; assumption.
  - intros n1 n2 oa ob c'. destruct (decide (n1 = n)) as [->|H1]; destruct (decide (n2 = n)) as [->|H2];
      rewrite ?lookup_insert, ?lookup_insert_ne by congruence.
    + intros [= <-] [= <-]; reflexivity.
    + intros [= <-] Ho2. rewrite Hc, Hd. intros. apply (inv_pair s HI n n2 o ob c'); auto.
    + intros Ho1 [= <-]. rewrite Hc, Hd. intros. apply (inv_pair s HI n1 n oa o c'); auto.
    + apply (inv_pair s HI).
  - intros n1 n2 oa ob c'. destruct (decide (n1 = n)) as [->|H1]; destruct (decide (n2 = n)) as [->|H2];
      rewrite ?lookup_insert, ?lookup_insert_ne by congruence.
    + intros [= <-] [= <-]; reflexivity.
    + intros [= <-] Ho2. rewrite Hc, Hd. intros. apply (inv_pair' s HI n n2 o ob c'); auto.
    + intros Ho1 [= <-]. rewrite Hc, Hd. intros. apply (inv_pair' s HI n1 n oa o c'); auto.
    + apply (inv_pair' s HI).
  - intros c' k' Hk'. pose proof (owners_insert (objs s) n o2 c') as H. rewrite Ho in H. simpl in H.
    unfold ind in H. rewrite Hc in H. destruct (inv_count s HI c' k' Hk'). lia.
  - intros d' l' Hl'. destruct (inv_data s HI d' l' Hl') as (n' & o' & Hn' & Hd').
    destruct (decide (n' = n)) as [->|Hne'].
    + exists n, o2. rewrite lookup_insert. split; congruence.
    + exists n', o'. rewrite lookup_insert_ne by congruence. auto.
  - apply (inv_nc s HI).
  - apply (inv_nd s HI).
Qed.

Lemma upd_obj_frame s n o2 : frame s (upd_obj s n o2) n.
Proof. intros n' Hne. simpl. rewrite lookup_insert_ne by congruence. split; reflexivity. Qed.

(** Adding a variable without memory; removing one. *)
Lemma new_obj_Inv s n o2 :
  Inv s -> objs s !! n = None -> o_share o2 = None -> o_space o2 = None ->
  o_len o2 = volume (o_size o2) -> Inv (upd_obj s n o2).
Proof.
  intros HI Ho Hc Hd Hl.
  constructor; unfold upd_obj; simpl.
  - intros n' o'. destruct (decide (n' = n)) as [->|Hne].
    + rewrite lookup_insert. intros [= <-]. split; [congruence|]. left; auto.
    + rewrite lookup_insert_ne by congruence. intros Ho'. destruct (inv_wf s HI n' o' Ho') as [A B].
      split; assumption.
  - intros n1 n2 oa ob c'. destruct (decide (n1 = n)) as [->|H1]; destruct (decide (n2 = n)) as [->|H2];
      rewrite ?lookup_insert, ?lookup_insert_ne by congruence.
    + intros [= <-] [= <-]; reflexivity.
    + intros [= <-] Ho2. congruence.
    + intros Ho1 [= <-]. congruence.
    + apply (inv_pair s HI).
  - intros n1 n2 oa ob c'. destruct (decide (n1 = n)) as [->|H1]; destruct (decide (n2 = n)) as [->|H2];
      rewrite ?lookup_insert, ?lookup_insert_ne by congruence.
    + intros [= <-] [= <-]; reflexivity.
    + intros [= <-] Ho2. congruence.
    + intros Ho1 [= <-]. congruence.
    + apply (inv_pair' s HI).
  - intros c' k' Hk'. pose proof (owners_insert (objs s) n o2 c') as H. rewrite Ho in H. simpl in H.
    unfold ind in H. rewrite Hc in H. rewrite decide_False in H by discriminate.
    destruct (inv_count s HI c' k' Hk'). lia.
  - intros d' l' Hl'. destruct (inv_data s HI d' l' Hl') as (n' & o' & Hn' & Hd').
    exists n', o'. split; [|exact Hd']. destruct (decide (n' = n)) as [->|Hne']; [congruence|].
    rewrite lookup_insert_ne by congruence. exact Hn'.
  - apply (inv_nc s HI).
  - apply (inv_nd s HI).
Qed.

Definition del_obj s n : st := mkSt (counts s) (datas s) (delete n (objs s)) (next s).

Lemma del_obj_Inv s n o :
  Inv s -> objs s !! n = Some o -> o_share o = None -> Inv (del_obj s n).
Proof.
  intros HI Ho Hc.
  assert (Hosp : o_space o = None).
  { destruct (o_space o) as [d|] eqn:E; [|reflexivity]. destruct (inv_share_space s n o d HI Ho E). congruence. }
  constructor; unfold del_obj; simpl.
  - intros n' o' Ho'. apply lookup_delete_Some in Ho' as [_ Ho']. destruct (inv_wf s HI n' o' Ho') as [A B].
    split; assumption.
  - intros n1 n2 oa ob c' H1 H2. apply lookup_delete_Some in H1 as [_ H1]. apply lookup_delete_Some in H2 as [_ H2].
    apply (inv_pair s HI n1 n2); auto.
  - intros n1 n2 oa ob c' H1 H2. apply lookup_delete_Some in H1 as [_ H1]. apply lookup_delete_Some in H2 as [_ H2].
    apply (inv_pair' s HI n1 n2); auto.
  - intros c' k' Hk'. pose proof (owners_delete (objs s) n c') as H. rewrite Ho in H. simpl in H.
    unfold ind in H. rewrite Hc in H. rewrite decide_False in H by discriminate.
    destruct (inv_count s HI c' k' Hk'). lia.
  - intros d' l' Hl'. destruct (inv_data s HI d' l' Hl') as (n' & o' & Hn' & Hd').
    exists n', o'. split; [|exact Hd']. rewrite lookup_delete_ne; [exact Hn'|]. congruence.
  - apply (inv_nc s HI).
  - apply (inv_nd s HI).
Qed.

Lemma del_obj_frame s n : frame s (del_obj s n) n.
Proof. intros n' Hne. simpl. rewrite lookup_delete_ne by congruence. split; reflexivity. Qed.

End proofs.
