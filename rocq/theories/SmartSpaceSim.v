(** Simulation proofs for the copy-on-write storage model. *)
From stdpp Require Import gmap list.
From Coq Require Import ZArith Lia.
From Verif Require Import SmartSpaceModel SmartSpaceSpec SmartSpaceProofs.
Open Scope nat_scope.

Section sim.
Context {V FV : Type}.
Notation obj := (@obj FV).
Notation st := (@st V FV).
Notation op := (@op V).

Implicit Types (s : st) (o src dst : obj).

Lemma st_eq (c1 c2 : gmap nat Z) (d1 d2 : gmap nat (list (option V))) (o1 o2 : gmap nat obj) n1 n2 :
  c1 = c2 -> d1 = d2 -> o1 = o2 -> n1 = n2 -> mkSt c1 d1 o1 n1 = mkSt c2 d2 o2 n2.
Proof. intros; subst; reflexivity. Qed.

(** *** Memory access *)

Definition owned s' n o c d : Prop :=
  objs s' !! n = Some (set_mem o (o_size o) (o_len o) (Some c) (Some d)) /\
  counts s' !! c = Some 1%Z.

Lemma rel_obj s n o : Inv s -> objs s !! n = Some o ->
  objs (rel s n o) !! n = Some (set_mem o (o_size o) (o_len o) None None).
Proof. intros HI Ho. rewrite (rel_objs s n o HI Ho), lookup_insert. reflexivity. Qed.

(** Release then allocate. *)
Lemma realloc_ok s n o l :
  Inv s -> objs s !! n = Some o -> length l = o_len o ->
  let o1 := set_mem o (o_size o) (o_len o) None None in
  let s' := acq_fresh (rel s n o) n o1 l in
  Inv s' /\ frame s s' n /\ owned s' n o (S (next s)) (next s) /\ datas s' !! next s = Some l.
Proof.
  intros HI Ho Hl o1 s'.
  pose proof (rel_Inv s n o HI Ho) as HI1. pose proof (rel_obj s n o HI Ho) as Ho1.
  split; [apply acq_fresh_Inv; auto|]. split.
  - eapply frame_trans; [apply rel_frame; eauto|apply acq_fresh_frame; exact HI1].
  - subst s'. unfold owned, acq_fresh. simpl. rewrite (rel_next s n o), !lookup_insert. auto.
Qed.

Lemma realloc_old s n o l d0 c k :
  Inv s -> objs s !! n = Some o -> o_share o = Some c -> counts s !! c = Some k -> (1 < k)%Z ->
  o_space o = Some d0 ->
  datas (acq_fresh (rel s n o) n (set_mem o (o_size o) (o_len o) None None) l) !! d0 = datas s !! d0.
Proof.
  intros HI Ho Hc Hk Hk1 Hd. unfold acq_fresh; simpl. rewrite (rel_next s n o).
  destruct (inv_mem s n o c HI Ho Hc) as (d & k' & l0 & Hd' & Hk' & Hl & _).
  assert (d = d0) as -> by congruence. pose proof (inv_nd s HI _ _ Hl).
  rewrite lookup_insert_ne by lia. unfold rel. rewrite Hc, Hd, Hk.
  destruct (Z.ltb_spec 1 k); [reflexivity|lia].
Qed.

Lemma nmow_spec s n o :
  Inv s -> objs s !! n = Some o ->
  exists s' c d l, new_memory_on_write s n = Ok s' /\ Inv s' /\ frame s s' n /\
    owned s' n o c d /\ datas s' !! d = Some l /\ length l = o_len o /\
    (forall d0, o_space o = Some d0 -> datas s' !! d0 = datas s !! d0).
Proof.
  intros HI Ho. unfold new_memory_on_write, get_obj. rewrite Ho. simpl.
  assert (Hrep : length (replicate (o_len o) (@None V)) = o_len o) by apply replicate_length.
  pose proof (realloc_ok s n o (replicate (o_len o) None) HI Ho Hrep) as (H1 & H2 & H3 & H4).
  destruct (o_share o) as [c0|] eqn:Hc.
  - destruct (inv_mem s n o c0 HI Ho Hc) as (d & k & l & Hd & Hk & Hl & Hlen & Hkk & Hpos).
    unfold get_count. rewrite Hk. simpl.
    destruct (Z.ltb_spec 1 k) as [Hk1|Hk1].
    + unfold alloc_data, set_count, alloc_count. simpl. rewrite Hk. simpl.
      exists (acq_fresh (rel s n o) n (set_mem o (o_size o) (o_len o) None None) (replicate (o_len o) None)).
      exists (S (next s)), (next s), (replicate (o_len o) None).
      split; [|split; [exact H1|split; [exact H2|split; [exact H3|split; [exact H4|split; [exact Hrep|]]]]]].
      * f_equal. unfold acq_fresh, rel. rewrite Hc, Hd, Hk.
        destruct (Z.ltb_spec 1 k); [|lia]. unfold set_obj. simpl. rewrite insert_insert. reflexivity.
      * intros d0 Hd0. eapply realloc_old; eauto.
    + assert (k = 1%Z) as -> by lia. exists s, c0, d, l. split; [reflexivity|].
      split; [exact HI|]. split; [apply frame_refl|].
      split; [|auto]. split; [|exact Hk]. rewrite Ho. f_equal. destruct o; simpl in *; subst; reflexivity.
  - assert (Hrel : rel s n o = upd_obj s n (set_mem o (o_size o) (o_len o) None None)).
    { unfold rel. rewrite Hc. reflexivity. }
    exists (acq_fresh (rel s n o) n (set_mem o (o_size o) (o_len o) None None) (replicate (o_len o) None)).
    exists (S (next s)), (next s), (replicate (o_len o) None).
    split; [|split; [exact H1|split; [exact H2|split; [exact H3|split; [exact H4|split; [exact Hrep|]]]]]].
    + f_equal. rewrite Hrel. unfold acq_fresh, upd_obj, set_obj. simpl. rewrite insert_insert. reflexivity.
    + intros d0 Hd0. destruct (inv_share_space s n o d0 HI Ho Hd0). congruence.
Qed.

Lemma contents_length s n o : Inv s -> objs s !! n = Some o -> length (contents (absv s o)) = o_len o.
Proof.
  intros HI Ho. destruct (inv_wf s HI n o Ho) as [Hl [[H1 H2]|(c & d & k & l & H1 & H2 & H3 & H4 & H5)]];
    unfold contents, absv; simpl; rewrite H2; simpl.
  - rewrite replicate_length. auto.
  - rewrite H4. auto.
Qed.

Lemma cow_spec s n o :
  Inv s -> objs s !! n = Some o ->
  exists s' c d, copy_on_write s n = Ok s' /\ Inv s' /\ frame s s' n /\
    owned s' n o c d /\ datas s' !! d = Some (contents (absv s o)) /\
    (forall d0, o_space o = Some d0 -> datas s' !! d0 = datas s !! d0).
Proof.
  intros HI Ho. unfold copy_on_write, get_obj. rewrite Ho. simpl.
  pose proof (contents_length s n o HI Ho) as Hcl.
  pose proof (realloc_ok s n o _ HI Ho Hcl) as (H1 & H2 & H3 & H4).
  destruct (o_share o) as [c0|] eqn:Hc.
  - destruct (inv_mem s n o c0 HI Ho Hc) as (d & k & l & Hd & Hk & Hl & Hlen & Hkk & Hpos).
    assert (Hcont : contents (absv s o) = l) by (unfold contents, absv; simpl; rewrite Hd; simpl; rewrite Hl; reflexivity).
    unfold get_count. rewrite Hk. simpl.
    destruct (Z.ltb_spec 1 k) as [Hk1|Hk1].
    + pose proof (inv_nd s HI _ _ Hl) as Hnd.
      rewrite Hd. unfold deref, alloc_data, set_count, alloc_count, get_data. simpl. rewrite Hk. simpl.
      rewrite lookup_insert_ne by lia. rewrite Hl. simpl.
      destruct (Nat.ltb_spec (length l) (o_len o)); [lia|].
      unfold set_data. simpl. rewrite lookup_insert. simpl.
      exists (acq_fresh (rel s n o) n (set_mem o (o_size o) (o_len o) None None) (contents (absv s o))).
      exists (S (next s)), (next s).
      split; [|split; [exact H1|split; [exact H2|split; [exact H3|split; [exact H4|]]]]].
      * f_equal. rewrite Hcont. unfold acq_fresh, rel. rewrite Hc, Hd, Hk.
        destruct (Z.ltb_spec 1 k); [|lia]. unfold set_obj. simpl. rewrite !insert_insert.
        rewrite take_ge by lia. reflexivity.
      * intros d0 Hd0. eapply realloc_old; eauto. congruence.
    + assert (k = 1%Z) as -> by lia. exists s, c0, d. split; [reflexivity|].
      split; [exact HI|]. split; [apply frame_refl|]. rewrite Hcont.
      split; [|auto]. split; [|exact Hk]. rewrite Ho. f_equal. destruct o; simpl in *; subst; reflexivity.
  - assert (Hrel : rel s n o = upd_obj s n (set_mem o (o_size o) (o_len o) None None)).
    { unfold rel. rewrite Hc. reflexivity. }
    assert (Hsp : o_space o = None).
    { destruct (o_space o) as [d|] eqn:E; [|reflexivity]. destruct (inv_share_space s n o d HI Ho E). congruence. }
    assert (Hcont : contents (absv s o) = replicate (o_len o) None).
    { unfold contents, absv. simpl. rewrite Hsp. simpl. rewrite (wf_len s o (inv_wf s HI n o Ho)). reflexivity. }
    exists (acq_fresh (rel s n o) n (set_mem o (o_size o) (o_len o) None None) (contents (absv s o))).
    exists (S (next s)), (next s).
    split; [|split; [exact H1|split; [exact H2|split; [exact H3|split; [exact H4|]]]]].
    + f_equal. rewrite Hcont, Hrel. unfold acq_fresh, upd_obj, set_obj. simpl. rewrite insert_insert. reflexivity.
    + intros d0 Hd0. congruence.
Qed.

(** *** Copying *)

Lemma share_into_rel s ndst dst nsrc src :
  Inv s -> objs s !! ndst = Some dst -> objs s !! nsrc = Some src -> ndst <> nsrc ->
  let s1 := rel s ndst dst in
  let o1 := set_mem dst (o_size dst) (o_len dst) None None in
  objs s1 !! nsrc = Some src ->
  exists s', share_into s1 o1 src ndst = Ok s' /\ s' = acq_share s1 ndst o1 src /\ Inv s' /\ frame s s' ndst.
Proof.
  intros HI Hdst Hsrc Hne s1 o1 Hsrc1.
  pose proof (rel_Inv s ndst dst HI Hdst) as HI1. pose proof (rel_obj s ndst dst HI Hdst) as Ho1.
  exists (acq_share s1 ndst o1 src). split; [|split; [reflexivity|split]].
  - unfold share_into, acq_share. destruct (o_share src) as [c|] eqn:Hc; [|reflexivity].
    destruct (inv_mem s1 nsrc src c HI1 Hsrc1 Hc) as (d & k & l & Hd & Hk & Hl & Hlen & Hkk & Hpos).
    unfold get_count, set_count. rewrite Hk. simpl. rewrite ?Hk. simpl. unfold set_obj. reflexivity.
  - eapply acq_share_Inv; eauto.
  - eapply frame_trans; [apply rel_frame; eauto|apply acq_share_frame].
Qed.

(** [share_into] ignores the old memory fields of the target. *)
Lemma share_into_ext s o1 o2 src n :
  o_cache o1 = o_cache o2 -> share_into s o1 src n = share_into s o2 src n.
Proof. intros H. unfold share_into. rewrite H. reflexivity. Qed.

Lemma share_into_obj (s1 s2 : st) o src n :
  counts s1 = counts s2 -> datas s1 = datas s2 -> next s1 = next s2 ->
  (exists o', objs s2 = <[n := o']> (objs s1)) ->
  share_into s1 o src n = share_into s2 o src n.
Proof.
  intros Hc Hd Hn [o' Ho]. destruct s1, s2; simpl in *; subst.
  unfold share_into, get_count, set_count, set_obj; simpl.
  destruct (o_share src) as [c|]; simpl.
  - destruct (counts0 !! c); simpl; [|reflexivity]. rewrite insert_insert. reflexivity.
  - rewrite insert_insert. reflexivity.
Qed.

Lemma copy_to_spec s nsrc ndst src dst :
  Inv s -> objs s !! nsrc = Some src -> objs s !! ndst = Some dst -> nsrc <> ndst ->
  exists s' o', copy_to s nsrc ndst = Ok s' /\ Inv s' /\ frame s s' ndst /\
    objs s' !! ndst = Some o' /\ o_cache o' = o_cache dst /\
    snd (absv s' o') = snd (absv s src) /\
    (if same_space (o_space dst) (o_space src) then o_size o' = o_size dst else o_size o' = o_size src) /\
    (o_space o' = o_space src \/ exists c, o_share o' = Some c /\ counts s' !! c = Some 1%Z).
Proof.
  intros HI Hsrc Hdst Hne. unfold copy_to, get_obj. rewrite Hsrc, Hdst. simpl.
  rewrite bool_decide_eq_false_2 by congruence.
  destruct (same_space (o_space dst) (o_space src)) eqn:Hss.
  { exists s, dst. unfold same_space in Hss. destruct (o_space dst) as [x|] eqn:Ex; [|discriminate].
    destruct (o_space src) as [y|] eqn:Ey; [|discriminate]. apply bool_decide_eq_true in Hss. subst y.
    repeat (split; [solve [auto using frame_refl | unfold absv; rewrite ?Ex, ?Ey; reflexivity]|]). auto. }
  (* the general case: release, then share *)
  pose proof (rel_frame s ndst dst HI Hdst) as HF. destruct (HF nsrc Hne) as [Hs1 Hv1].
  assert (Hsrc1 : objs (rel s ndst dst) !! nsrc = Some src) by congruence.
  specialize (Hv1 src Hsrc).
  destruct (share_into_rel s ndst dst nsrc src HI Hdst Hsrc (not_eq_sym Hne) Hsrc1) as (s' & Hsh & Hs' & HI' & HF').
  set (o1 := set_mem dst (o_size dst) (o_len dst) None None) in *.
  assert (Hgen : forall s0 : st, share_into s0 dst src ndst = share_into (rel s ndst dst) o1 src ndst ->
    exists s' o', share_into s0 dst src ndst = Ok s' /\ Inv s' /\ frame s s' ndst /\
    objs s' !! ndst = Some o' /\ o_cache o' = o_cache dst /\
    snd (absv s' o') = snd (absv s src) /\
    o_size o' = o_size src /\
    (o_space o' = o_space src \/ exists c, o_share o' = Some c /\ counts s' !! c = Some 1%Z)).
  { intros s0 Heq. rewrite Heq, Hsh. exists s', (set_mem o1 (o_size src) (o_len src) (o_share src) (o_space src)).
    split; [reflexivity|]. split; [exact HI'|]. split; [exact HF'|].
    split; [subst s'; unfold acq_share; simpl; rewrite lookup_insert; reflexivity|].
    split; [reflexivity|]. split; [|auto].
    transitivity (snd (absv (rel s ndst dst) src)); [|rewrite Hv1; reflexivity].
    subst s'. reflexivity. }
  pose proof (rel_objs s ndst dst HI Hdst) as Hro. fold o1 in Hro.
  destruct (o_share dst) as [cd|] eqn:Hcd.
  2:{ apply Hgen. transitivity (share_into s o1 src ndst); [apply share_into_ext; reflexivity|].
      apply share_into_obj; try (unfold rel; rewrite Hcd; reflexivity). exists o1. exact Hro. }
  destruct (inv_mem s ndst dst cd HI Hdst Hcd) as (dd & k & l & Hd & Hk & Hl & Hlen & Hkk & Hpos).
  unfold get_count. rewrite Hk. simpl. rewrite Hd. simpl.
  destruct (Z.eqb_spec k 1) as [->|Hk1]; simpl.
  - destruct (bool_decide (o_size dst = o_size src)) eqn:Hsz.
    + apply bool_decide_eq_true in Hsz.
      destruct (o_space src) as [ds|] eqn:Hds.
      * (* the entries are copied into dst's own block *)
        destruct (inv_share_space s nsrc src ds HI Hsrc Hds) as [cs Hcs].
        destruct (inv_mem s nsrc src cs HI Hsrc Hcs) as (ds' & ks & ls & Hds' & Hks & Hls & Hlens & _).
        assert (ds' = ds) as -> by congruence.
        pose proof (wf_len s src (inv_wf s HI nsrc src Hsrc)). pose proof (wf_len s dst (inv_wf s HI ndst dst Hdst)).
        assert (Hll : o_len src = o_len dst) by congruence.
        unfold get_data. rewrite Hls, Hl. simpl.
        destruct (Nat.ltb_spec (length ls) (o_len src)); [lia|].
        destruct (Nat.ltb_spec (length l) (o_len src)); [lia|]. simpl.
        unfold set_data. rewrite Hl.
        rewrite take_ge by lia. rewrite drop_ge by lia. rewrite app_nil_r.
        assert (Hdd : dd <> ds).
        { intros ->. unfold same_space in Hss. rewrite Hd in Hss. rewrite bool_decide_eq_true_2 in Hss; congruence. }
        exists (upd s dd ls), dst. split; [reflexivity|].
        split; [eapply upd_Inv; eauto; congruence|].
        split; [eapply upd_frame; eauto|]. split; [exact Hdst|]. split; [reflexivity|].
        split.
        -- unfold absv. simpl. rewrite Hd, ?Hds. simpl. rewrite lookup_insert. congruence.
        -- split; [exact Hsz|]. right. exists cd. auto.
      * unfold free_pair. rewrite Hk, Hl. simpl.
        exists (rel s ndst dst), o1.
        split; [|split; [apply rel_Inv; auto|split; [exact HF|split; [rewrite Hro, lookup_insert; reflexivity|]]]].
        -- f_equal. unfold rel. rewrite Hcd, Hd, Hk. simpl. reflexivity.
        -- split; [reflexivity|]. split; [|split; [exact Hsz|left; reflexivity]].
           unfold absv. simpl. rewrite ?Hds. reflexivity.
    + simpl. unfold free_pair. rewrite Hk, Hl. simpl. apply Hgen.
      transitivity (share_into (mkSt (delete cd (counts s)) (delete dd (datas s)) (objs s) (next s)) o1 src ndst);
        [apply share_into_ext; reflexivity|].
      apply share_into_obj; try (unfold rel; rewrite Hcd, Hd, Hk; reflexivity). exists o1. exact Hro.
  - destruct (Z.ltb_spec 1 k) as [Hk2|]; [|lia].
    unfold set_count. rewrite Hk. simpl. apply Hgen.
    transitivity (share_into (mkSt (<[cd:=(k - 1)%Z]> (counts s)) (datas s) (objs s) (next s)) o1 src ndst);
      [apply share_into_ext; reflexivity|].
    apply share_into_obj; try (unfold rel; rewrite Hcd, Hd, Hk; destruct (Z.ltb_spec 1 k); [reflexivity|lia]).
    exists o1. exact Hro.
Qed.

Definition with_cache o (c : gmap nat FV) : obj := mkObj (o_size o) (o_len o) (o_share o) (o_space o) c.

Lemma with_cache_Inv s n o c : Inv s -> objs s !! n = Some o -> Inv (upd_obj s n (with_cache o c)).
Proof. intros HI Ho. eapply upd_obj_Inv; eauto. Qed.

Lemma element_copy_to_spec s nsrc ndst src dst :
  Inv s -> objs s !! nsrc = Some src -> objs s !! ndst = Some dst -> nsrc <> ndst ->
  exists s' o', element_copy_to s nsrc ndst = Ok s' /\ Inv s' /\ frame s s' ndst /\
    objs s' !! ndst = Some o' /\ o_cache o' = o_cache src /\
    snd (absv s' o') = snd (absv s src) /\
    (if same_space (o_space dst) (o_space src) then o_size o' = o_size dst else o_size o' = o_size src) /\
    (o_space o' = o_space src \/ exists c, o_share o' = Some c /\ counts s' !! c = Some 1%Z).
Proof.
  intros HI Hsrc Hdst Hne.
  destruct (copy_to_spec s nsrc ndst src dst HI Hsrc Hdst Hne)
    as (s1 & o1 & H1 & H2 & H3 & H4 & H5 & H6 & H7 & H8).
  unfold element_copy_to. rewrite H1. simpl. unfold get_obj.
  destruct (H3 nsrc Hne) as [Hs1 _]. rewrite Hs1, Hsrc, H4. simpl.
  exists (upd_obj s1 ndst (with_cache o1 (o_cache src))), (with_cache o1 (o_cache src)).
  split; [reflexivity|]. split; [apply with_cache_Inv; auto|].
  split; [eapply frame_trans; [exact H3|apply upd_obj_frame]|].
  split; [simpl; rewrite lookup_insert; reflexivity|]. split; [reflexivity|].
  split; [exact H6|]. split; [exact H7|exact H8].
Qed.

(** *** Destruction *)
Lemma destroy_spec s n o :
  Inv s -> objs s !! n = Some o ->
  exists s', destroy s n = Ok s' /\ Inv s' /\ frame s s' n /\ objs s' !! n = None.
Proof.
  intros HI Ho. exists (del_obj (rel s n o) n).
  pose proof (rel_Inv s n o HI Ho) as HI1. pose proof (rel_obj s n o HI Ho) as Ho1.
  split; [|split; [eapply del_obj_Inv; eauto|split]].
  - unfold destroy, get_obj. rewrite Ho. simpl.
    assert (Hdel : delete n (objs (rel s n o)) = delete n (objs s)).
    { rewrite (rel_objs s n o HI Ho), delete_insert_delete. reflexivity. }
    destruct (o_share o) as [c|] eqn:Hc.
    + destruct (inv_mem s n o c HI Ho Hc) as (d & k & l & Hd & Hk & Hl & Hlen & Hkk & Hpos).
      unfold get_count, set_count. rewrite Hk. simpl. rewrite ?Hk. simpl.
      unfold del_obj. rewrite Hdel. unfold rel. rewrite Hc, Hd, Hk.
      destruct (Z.eqb_spec (k - 1) 0).
      * assert (k = 1%Z) as -> by lia. simpl. unfold free_pair. simpl. rewrite lookup_insert, Hl. simpl.
        rewrite delete_insert_delete. reflexivity.
      * simpl. destruct (Z.ltb_spec 1 k); [reflexivity|lia].
    + simpl. unfold del_obj. rewrite Hdel. unfold rel. rewrite Hc. reflexivity.
  - eapply frame_trans; [apply rel_frame; eauto|apply del_obj_frame].
  - simpl. rewrite lookup_delete. reflexivity.
Qed.

(** *** Writing through an owned block *)
Lemma write_spec s n o c d l l' :
  Inv s -> objs s !! n = Some o -> o_share o = Some c -> o_space o = Some d ->
  counts s !! c = Some 1%Z -> datas s !! d = Some l -> length l' = length l ->
  set_data s d l' = Ok (upd s d l') /\ Inv (upd s d l') /\ frame s (upd s d l') n /\
  absv (upd s d l') o = (o_size o, Some l').
Proof.
  intros HI Ho Hc Hd Hk Hl Hlen. split; [|split; [|split]].
  - unfold set_data. rewrite Hl. reflexivity.
  - eapply upd_Inv; eauto.
  - eapply upd_frame; eauto.
  - unfold absv. rewrite Hd. simpl. rewrite lookup_insert. reflexivity.
Qed.

(** The two ways of asking for write access, with the fields removed first. *)
Lemma write_entire_spec s n o :
  Inv s -> objs s !! n = Some o ->
  exists s' c d l, obtain_write_entire s n = Ok s' /\ Inv s' /\ frame s s' n /\
    owned s' n (with_cache o ∅) c d /\ datas s' !! d = Some l /\ length l = o_len o.
Proof.
  intros HI Ho. unfold obtain_write_entire, remove_fields, get_obj. rewrite Ho. simpl.
  pose proof (with_cache_Inv s n o ∅ HI Ho) as HI1.
  assert (Ho1 : objs (upd_obj s n (with_cache o ∅)) !! n = Some (with_cache o ∅)) by (simpl; apply lookup_insert).
  destruct (nmow_spec _ n _ HI1 Ho1) as (s' & c & d & l & H1 & H2 & H3 & H4 & H5 & H6 & H7).
  exists s', c, d, l. split; [exact H1|]. split; [exact H2|].
  split; [eapply frame_trans; [apply upd_obj_frame|exact H3]|]. auto.
Qed.

Lemma write_partial_spec s n o :
  Inv s -> objs s !! n = Some o ->
  exists s' c d, obtain_write_partial s n = Ok s' /\ Inv s' /\ frame s s' n /\
    owned s' n (with_cache o ∅) c d /\ datas s' !! d = Some (contents (absv s o)) /\
    (forall d0, o_space o = Some d0 -> datas s' !! d0 = datas s !! d0).
Proof.
  intros HI Ho. unfold obtain_write_partial, remove_fields, get_obj. rewrite Ho. simpl.
  pose proof (with_cache_Inv s n o ∅ HI Ho) as HI1.
  assert (Ho1 : objs (upd_obj s n (with_cache o ∅)) !! n = Some (with_cache o ∅)) by (simpl; apply lookup_insert).
  destruct (cow_spec _ n _ HI1 Ho1) as (s' & c & d & H1 & H2 & H3 & H4 & H5 & H6).
  exists s', c, d. split; [exact H1|]. split; [exact H2|].
  split; [eapply frame_trans; [apply upd_obj_frame|exact H3]|]. auto.
Qed.

Lemma data_of_spec s n o d l :
  objs s !! n = Some o -> o_space o = Some d -> datas s !! d = Some l -> data_of s n = Ok (d, l).
Proof.
  intros Ho Hd Hl. unfold data_of, get_obj, get_data. rewrite Ho. simpl. rewrite Hd. simpl. rewrite Hl. reflexivity.
Qed.

Lemma stores_length (l : list (option V)) ws l' : stores l ws = Ok l' -> length l' = length l.
Proof.
  revert l. induction ws as [|[i v] ws IH]; intros l; simpl.
  - intros [= <-]. reflexivity.
  - destruct (i <? length l); [|discriminate]. intros H. apply IH in H. rewrite insert_length in H. exact H.
Qed.

Lemma stores_put (l : list (option V)) ws :
  stores l ws = match put l ws with Some l' => Ok l' | None => Err Misuse end.
Proof.
  revert l. induction ws as [|[i v] ws IH]; intros l; simpl; [reflexivity|].
  destruct (i <? length l); [apply IH|reflexivity].
Qed.

Lemma id_cells_length r (a z : V) l : length (id_cells r a z l) = length l.
Proof. apply imap_length. Qed.

(** Postcondition of a write operation on variable [n] with new array [l']. *)
Definition wrote s s' n o l' : Prop :=
  Inv s' /\ frame s s' n /\
  exists o', objs s' !! n = Some o' /\ absv s' o' = (o_size o, Some l') /\
    exists c, o_share o' = Some c /\ counts s' !! c = Some 1%Z.

Lemma finish_write s s1 n o o1 c d l l' :
  frame s s1 n -> Inv s1 -> owned s1 n o1 c d -> o_size o1 = o_size o ->
  datas s1 !! d = Some l -> length l' = length l ->
  data_of s1 n = Ok (d, l) /\
  exists s', set_data s1 d l' = Ok s' /\ wrote s s' n o l' /\
    (forall o', objs s' !! n = Some o' -> o_cache o' = o_cache o1).
Proof.
  intros HF HI [Ho Hk] Hsz Hl Hlen.
  split; [eapply data_of_spec; eauto|].
  destruct (write_spec s1 n _ c d l l' HI Ho eq_refl eq_refl Hk Hl Hlen) as (H1 & H2 & H3 & H4).
  exists (upd s1 d l'). split; [exact H1|]. split.
  - split; [exact H2|]. split; [eapply frame_trans; eauto|].
    eexists. split; [exact Ho|]. simpl in H4. rewrite H4, Hsz. split; [reflexivity|]. exists c. auto.
  - intros o' Ho'. simpl in Ho'. rewrite Ho in Ho'. injection Ho' as <-. reflexivity.
Qed.

Lemma copy_new_Inv s n o : Inv s -> objs s !! n = None ->
  Inv (upd_obj s n (mkObj (o_size o) (volume (o_size o)) None None ∅)) /\
  frame s (upd_obj s n (mkObj (o_size o) (volume (o_size o)) None None ∅)) n.
Proof. intros HI Hn. split; [apply new_obj_Inv; auto|apply upd_obj_frame]. Qed.

Context (D : nat -> shape -> list (option V) -> FV).

(** ** No undefined behaviour, and the invariant, for every operation *)
Theorem step_safe s op0 :
  Inv s ->
  match step D s op0 with Ok (s', _) => Inv s' /\ (is_raw op0 \/ frame s s' (target op0)) | Err Misuse => True | Err Undef => False end.
Proof.
  intros HI. destruct op0 as [n sz|n m|n m|n|n l|n i v|n z|n g|n m g|n a z|n sz|n g|n ws|n k|n]; simpl.
  - (* ONew *) unfold fresh_name. destruct (objs s !! n) eqn:E; simpl; [exact I|].
    split; [apply new_obj_Inv; auto|right; apply upd_obj_frame].
  - (* OCopy *) unfold fresh_name. destruct (objs s !! n) eqn:E; simpl; [exact I|].
    unfold get_obj. destruct (objs s !! m) as [src|] eqn:Em; simpl; [|exact I].
    destruct (copy_new_Inv s n src HI E) as [HI1 HF1].
    assert (Hnm : m <> n) by congruence.
    destruct (HF1 m Hnm) as [Hm1 _]. rewrite Em in Hm1.
    assert (Hn1 : objs (upd_obj s n (mkObj (o_size src) (volume (o_size src)) None None ∅)) !! n
                  = Some (mkObj (o_size src) (volume (o_size src)) None None ∅)) by (simpl; apply lookup_insert).
    destruct (element_copy_to_spec _ m n _ _ HI1 Hm1 Hn1 Hnm) as (s' & o' & H1 & H2 & H3 & _).
    unfold set_obj. unfold upd_obj in H1. rewrite H1. split; [exact H2|right; eapply frame_trans; eauto].
  - (* OAssign *) destruct (bool_decide (n = m)) eqn:E.
    + unfold get_obj. destruct (objs s !! n); simpl; auto using frame_refl.
    + apply bool_decide_eq_false in E. unfold element_copy_to at 1.
      destruct (objs s !! m) as [src|] eqn:Em.
      2:{ unfold copy_to, get_obj. rewrite Em. exact I. }
      destruct (objs s !! n) as [dst|] eqn:En.
      2:{ unfold copy_to, get_obj. rewrite Em, En. exact I. }
      destruct (element_copy_to_spec s m n src dst HI Em En (not_eq_sym E)) as (s' & o' & H1 & H2 & H3 & _).
      unfold element_copy_to in H1. rewrite H1. split; [exact H2|right; exact H3].
  - (* ODestroy *) destruct (objs s !! n) as [o|] eqn:En.
    + destruct (destroy_spec s n o HI En) as (s' & H1 & H2 & H3 & _). rewrite H1. split; [exact H2|right; exact H3].
    + unfold destroy, get_obj. rewrite En. exact I.
  - (* OWriteAll *) destruct (objs s !! n) as [o|] eqn:En.
    2:{ unfold obtain_write_entire, remove_fields, get_obj. rewrite En. exact I. }
    destruct (write_entire_spec s n o HI En) as (s1 & c & d & l0 & H1 & H2 & H3 & H4 & H5 & H6).
    rewrite H1. simpl. rewrite (data_of_spec s1 n _ d l0 (proj1 H4) eq_refl H5). simpl.
    destruct (bool_decide (length l = length l0)) eqn:El; [|exact I]. apply bool_decide_eq_true in El.
    destruct (finish_write s s1 n o _ c d l0 (Some <$> l) H3 H2 H4 eq_refl H5) as (_ & s' & Hs & [Hi [Hf _]] & _);
      [rewrite fmap_length; exact El|]. rewrite Hs. exact (conj Hi (or_intror Hf)).
  - (* OWriteAt *) destruct (objs s !! n) as [o|] eqn:En.
    2:{ unfold obtain_write_partial, remove_fields, get_obj. rewrite En. exact I. }
    destruct (write_partial_spec s n o HI En) as (s1 & c & d & H1 & H2 & H3 & H4 & H5 & H6).
    rewrite H1. simpl. rewrite (data_of_spec s1 n _ d _ (proj1 H4) eq_refl H5). simpl.
    destruct (i <? length (contents (absv s o))); simpl; [|exact I].
    destruct (finish_write s s1 n o _ c d _ (<[i:=Some v]> (contents (absv s o))) H3 H2 H4 eq_refl H5) as (_ & s' & Hs & [Hi [Hf _]] & _);
      [apply insert_length|]. rewrite Hs. exact (conj Hi (or_intror Hf)).
  - (* OZeros *) destruct (objs s !! n) as [o|] eqn:En.
    2:{ unfold remove_fields, get_obj. rewrite En. exact I. }
    destruct (write_entire_spec s n o HI En) as (s1 & c & d & l0 & H1 & H2 & H3 & H4 & H5 & H6).
    unfold obtain_write_entire in H1. destruct (remove_fields s n) as [s0|e]; simpl in *; [|discriminate].
    rewrite H1. simpl. rewrite (data_of_spec s1 n _ d l0 (proj1 H4) eq_refl H5). simpl.
    destruct (finish_write s s1 n o _ c d l0 ((fun _ => Some z) <$> l0) H3 H2 H4 eq_refl H5) as (_ & s' & Hs & [Hi [Hf _]] & _);
      [apply fmap_length|]. rewrite Hs. exact (conj Hi (or_intror Hf)).
  - (* OUpdate *) destruct (objs s !! n) as [o|] eqn:En.
    2:{ unfold obtain_write_partial, remove_fields, get_obj. rewrite En. exact I. }
    destruct (write_partial_spec s n o HI En) as (s1 & c & d & H1 & H2 & H3 & H4 & H5 & H6).
    rewrite H1. simpl. rewrite (data_of_spec s1 n _ d _ (proj1 H4) eq_refl H5). simpl.
    destruct (finish_write s s1 n o _ c d _ (imap (fun i c0 => g i <$> c0) (contents (absv s o))) H3 H2 H4 eq_refl H5)
      as (_ & s' & Hs & [Hi [Hf _]] & _); [apply imap_length|]. rewrite Hs. exact (conj Hi (or_intror Hf)).
  - (* OZip *) unfold get_obj at 1. destruct (objs s !! n) as [o|] eqn:En; simpl; [|exact I].
    unfold get_obj at 1. destruct (objs s !! m) as [om|] eqn:Em; simpl; [|exact I].
    destruct (bool_decide (o_len o = o_len om)) eqn:El; simpl; [|exact I]. apply bool_decide_eq_true in El.
    destruct (o_space om) as [xp|] eqn:Exp; simpl; [|exact I].
    destruct (write_partial_spec s n o HI En) as (s1 & c & d & H1 & H2 & H3 & H4 & H5 & H6).
    rewrite H1. simpl. rewrite (data_of_spec s1 n _ d _ (proj1 H4) eq_refl H5). simpl.
    destruct (inv_share_space s m om xp HI Em Exp) as [cm Hcm].
    destruct (inv_mem s m om cm HI Em Hcm) as (d' & k & lx & Hd' & Hk & Hlx & Hlen & _).
    assert (d' = xp) as -> by congruence.
    assert (Hxp : datas s1 !! xp = Some lx).
    { destruct (decide (m = n)) as [->|Hne]; [rewrite H6; congruence|].
      destruct (H3 m Hne) as [_ Hv]. specialize (Hv om Em). unfold absv in Hv. rewrite Exp in Hv. simpl in Hv. congruence. }
    unfold get_data. rewrite Hxp. simpl.
    destruct (finish_write s s1 n o _ c d _ (zip_with (fun a b => y ← a; w ← b; Some (g y w)) (contents (absv s o)) lx) H3 H2 H4 eq_refl H5)
      as (_ & s' & Hs & [Hi [Hf _]] & _).
    { rewrite zip_with_length, (contents_length s n o HI En). lia. }
    rewrite Hs. exact (conj Hi (or_intror Hf)).
  - (* OScaledId *) unfold get_obj at 1. destruct (objs s !! n) as [o|] eqn:En; simpl; [|exact I].
    destruct (o_size o) as [[r c0] p] eqn:Esz. destruct (bool_decide (r = c0)); [|exact (conj HI (or_intror (frame_refl _ _)))].
    destruct (nmow_spec s n o HI En) as (s1 & c & d & l0 & H1 & H2 & H3 & H4 & H5 & H6 & _).
    rewrite H1. simpl. rewrite (data_of_spec s1 n _ d l0 (proj1 H4) eq_refl H5). simpl.
    destruct (finish_write s s1 n o _ c d l0 (id_cells r a z l0) H3 H2 H4 eq_refl H5) as (_ & s' & Hs & [Hi [Hf _]] & _);
      [apply id_cells_length|]. rewrite Hs. exact (conj Hi (or_intror Hf)).
  - (* OReshape *) unfold get_obj. destruct (objs s !! n) as [o|] eqn:En; simpl; [|exact I].
    destruct (bool_decide (volume sz = o_len o)) eqn:E; [|exact I]. apply bool_decide_eq_true in E.
    split; [|right; apply upd_obj_frame].
    apply (upd_obj_Inv s n o); auto. simpl. rewrite E. apply (wf_len s o), (inv_wf s HI n o En).
  - (* ORawUpdate *) unfold get_obj. destruct (objs s !! n) as [o|] eqn:En; simpl; [|exact I].
    destruct (o_space o) as [d|] eqn:Ed; simpl; [|exact I].
    destruct (inv_share_space s n o d HI En Ed) as [c Hc].
    destruct (inv_mem s n o c HI En Hc) as (d' & k & l & Hd' & Hk & Hl & Hlen & _).
    assert (d' = d) as -> by congruence. unfold get_data, set_data. rewrite Hl. simpl. rewrite ?Hl. simpl.
    split; [|left; exact I]. eapply upd_Inv; eauto. apply imap_length.
  - (* OSubAssign *) destruct (objs s !! n) as [o|] eqn:En.
    2:{ unfold remove_fields, get_obj. rewrite En. exact I. }
    destruct (write_entire_spec s n o HI En) as (s1 & c & d & l0 & H1 & H2 & H3 & H4 & H5 & H6).
    unfold obtain_write_entire in H1. destruct (remove_fields s n) as [s0|e]; simpl in *; [|discriminate].
    rewrite H1. simpl. rewrite (data_of_spec s1 n _ d l0 (proj1 H4) eq_refl H5). simpl.
    destruct (stores l0 ws) as [l1|e] eqn:Est; simpl.
    + destruct (finish_write s s1 n o _ c d l0 l1 H3 H2 H4 eq_refl H5) as (_ & s' & Hs & [Hi [Hf _]] & _);
        [eapply stores_length; eauto|]. rewrite Hs. exact (conj Hi (or_intror Hf)).
    + rewrite stores_put in Est. destruct (put l0 ws); [discriminate|]. injection Est as <-. exact I.
  - (* ODecomp *) unfold get_obj. destruct (objs s !! n) as [o|] eqn:En; simpl; [|exact I].
    destruct (o_cache o !! k); [exact (conj HI (or_intror (frame_refl _ _)))|]. destruct (o_space o) as [d|] eqn:Ed; simpl; [|exact I].
    destruct (inv_share_space s n o d HI En Ed) as [c Hc].
    destruct (inv_mem s n o c HI En Hc) as (d' & k' & l & Hd' & Hk & Hl & Hlen & _).
    assert (d' = d) as -> by congruence. unfold get_data. rewrite Hl. simpl.
    split; [|right; apply upd_obj_frame]. apply (upd_obj_Inv s n o); auto.
  - (* ORead *) unfold get_obj. destruct (objs s !! n) as [o|] eqn:En; simpl; [|exact I].
    destruct (o_space o) as [d|] eqn:Ed; [|exact (conj HI (or_intror (frame_refl _ _)))].
    destruct (inv_share_space s n o d HI En Ed) as [c Hc].
    destruct (inv_mem s n o c HI En Hc) as (d' & k' & l & Hd' & Hk & Hl & Hlen & _).
    assert (d' = d) as -> by congruence. unfold get_data. rewrite Hl. exact (conj HI (or_intror (frame_refl _ _))).
Qed.

Theorem run_safe s ops :
  Inv s ->
  match run D s ops with Ok (s', _) => Inv s' | Err Misuse => True | Err Undef => False end.
Proof.
  revert s. induction ops as [|o ops IH]; intros s HI; simpl; [exact HI|].
  pose proof (step_safe s o HI) as Hs. destruct (step D s o) as [[s1 out1]|e]; simpl.
  - destruct Hs as [Hs _]. specialize (IH s1 Hs). destruct (run D s1 ops) as [[s2 outs]|e]; simpl; exact IH.
  - destruct e; exact Hs.
Qed.

(** ** Shapes agree among sharers, caches are current *)
Definition Shapes s : Prop :=
  forall n1 n2 o1 o2 d, objs s !! n1 = Some o1 -> objs s !! n2 = Some o2 ->
    o_space o1 = Some d -> o_space o2 = Some d -> o_size o1 = o_size o2.

Definition Coh s : Prop :=
  forall n o k v, objs s !! n = Some o -> o_cache o !! k = Some v ->
    exists l, snd (absv s o) = Some l /\ v = D k (o_size o) l.

Lemma Shapes_frame s s' n :
  frame s s' n -> Shapes s ->
  (forall o' n2 o2 d, objs s' !! n = Some o' -> n2 <> n -> objs s !! n2 = Some o2 ->
     o_space o' = Some d -> o_space o2 = Some d -> o_size o' = o_size o2) ->
  Shapes s'.
Proof.
  intros HF HS H n1 n2 o1 o2 d Ho1 Ho2 Hd1 Hd2.
  destruct (decide (n1 = n)) as [->|H1]; destruct (decide (n2 = n)) as [->|H2].
  - congruence.
  - destruct (HF n2 H2) as [E2 _]. rewrite E2 in Ho2. eapply H; eauto.
  - destruct (HF n1 H1) as [E1 _]. rewrite E1 in Ho1. symmetry. eapply H; eauto.
  - destruct (HF n2 H2) as [E2 _]. rewrite E2 in Ho2. destruct (HF n1 H1) as [E1 _]. rewrite E1 in Ho1. eapply HS; eauto.
Qed.

Lemma Shapes_sole s s' n o' c :
  frame s s' n -> Shapes s -> Inv s' -> objs s' !! n = Some o' -> o_share o' = Some c ->
  counts s' !! c = Some 1%Z -> Shapes s'.
Proof.
  intros HF HS HI Ho Hc Hk. apply (Shapes_frame s s' n HF HS).
  intros o2 n2 o3 d Ho2 Hne Ho3 Hd2 Hd3. assert (o2 = o') as -> by congruence.
  destruct (HF n2 Hne) as [E _]. rewrite Ho3 in E.
  exfalso. apply Hne. symmetry. apply (owners_one (objs s') n o' c n2 o3); auto.
  - destruct (inv_count s' HI c 1%Z Hk). lia.
  - rewrite <- Hc. symmetry. apply (inv_pair' s' HI n n2 o' o3 d); auto.
Qed.

Lemma Coh_frame s s' n :
  frame s s' n -> Coh s ->
  (forall o' k v, objs s' !! n = Some o' -> o_cache o' !! k = Some v ->
     exists l, snd (absv s' o') = Some l /\ v = D k (o_size o') l) ->
  Coh s'.
Proof.
  intros HF HC H n2 o k v Ho Hv. destruct (decide (n2 = n)) as [->|Hne].
  - eapply H; eauto.
  - destruct (HF n2 Hne) as [E Hval]. rewrite E in Ho. rewrite (Hval o Ho). eapply HC; eauto.
Qed.

Lemma wrote_all s s' n o l' :
  wrote s s' n o l' -> Shapes s ->
  Inv s' /\ Shapes s' /\ abs s' = <[n := (o_size o, Some l')]> (abs s) /\ frame s s' n.
Proof.
  intros (HI & HF & o' & Ho' & Hv & c & Hc & Hk) HS.
  split; [exact HI|]. split; [eapply Shapes_sole; eauto|].
  split; [|exact HF]. rewrite (abs_frame s s' n o' HF Ho'), Hv. reflexivity.
Qed.

Lemma wrote_coh s s' n :
  frame s s' n -> Coh s -> (forall o', objs s' !! n = Some o' -> o_cache o' = ∅) -> Coh s'.
Proof.
  intros HF HC He. eapply Coh_frame; eauto. intros o' k v Ho' Hv.
  rewrite (He o' Ho'), lookup_empty in Hv. discriminate.
Qed.

Lemma abs_lookup s n v : abs s !! n = Some v -> exists o, objs s !! n = Some o /\ absv s o = v.
Proof. unfold abs. rewrite lookup_fmap. destruct (objs s !! n); simpl; [|discriminate]. intros [= <-]. eauto. Qed.

Lemma abs_lookup_None s n : abs s !! n = None -> objs s !! n = None.
Proof. unfold abs. rewrite lookup_fmap. destruct (objs s !! n); simpl; [discriminate|reflexivity]. Qed.

Lemma copy_coh s s' nsrc ndst (src o' : obj) :
  frame s s' ndst -> Coh s -> objs s !! nsrc = Some src ->
  objs s' !! ndst = Some o' -> o_cache o' = o_cache src -> absv s' o' = absv s src -> Coh s'.
Proof.
  intros HF HC Hsrc Ho' Hca Hv. eapply Coh_frame; eauto.
  intros o2 k v Ho2 Hk. assert (o2 = o') as -> by congruence. rewrite Hv.
  assert (o_size o' = o_size src) as -> by (apply (f_equal fst) in Hv; exact Hv).
  rewrite Hca in Hk. eapply HC; eauto.
Qed.

Lemma copy_all s s' nsrc ndst (src o' : obj) :
  Inv s' -> frame s s' ndst -> Shapes s -> objs s !! nsrc = Some src -> nsrc <> ndst ->
  objs s' !! ndst = Some o' -> absv s' o' = absv s src ->
  (o_space o' = o_space src \/ exists c, o_share o' = Some c /\ counts s' !! c = Some 1%Z) ->
  Shapes s' /\ abs s' = <[ndst := absv s src]> (abs s).
Proof.
  intros HI HF HS Hsrc Hne Ho' Hv [Hsp|(c & Hc & Hk)].
  - split; [|rewrite (abs_frame s s' ndst o' HF Ho'), Hv; reflexivity].
    apply (Shapes_frame s s' ndst HF HS). intros o2 n2 o3 d Ho2 Hne2 Ho3 Hd2 Hd3.
    assert (o2 = o') as -> by congruence.
    assert (o_size o' = o_size src) as -> by (apply (f_equal fst) in Hv; exact Hv).
    eapply HS; eauto. congruence.
  - split; [|rewrite (abs_frame s s' ndst o' HF Ho'), Hv; reflexivity].
    eapply Shapes_sole; eauto.
Qed.

(** Operations covered by the simulation. *)
Definition sim_op (o : op) : Prop :=
  match o with OReshape _ _ | ORawUpdate _ _ | OSubAssign _ _ => False | _ => True end.
Definition is_decomp (o : op) : Prop := match o with ODecomp _ _ => True | _ => False end.
Definition is_scaledid (o : op) : Prop := match o with OScaledId _ _ _ => True | _ => False end.

Theorem step_sim s op0 m' out0 :
  Inv s -> Shapes s -> sim_op op0 -> (is_decomp op0 -> Coh s) ->
  spec_step D (abs s) op0 = Some (m', out0) ->
  exists s', step D s op0 = Ok (s', out0) /\ Inv s' /\ Shapes s' /\ abs s' = m' /\
    (~ is_scaledid op0 -> Coh s -> Coh s').
Proof.
  intros HI HS Hop Hdec. destruct op0 as [n sz|n m|n m|n|n l|n i v|n z|n g|n m g|n a z|n sz|n g|n ws|n k|n]; simpl in *;
    try contradiction; clear Hop.
  - (* ONew *) destruct (abs s !! n) eqn:E; [discriminate|]. intros [= <- <-].
    apply abs_lookup_None in E. unfold fresh_name. rewrite E. simpl.
    exists (upd_obj s n (mkObj sz (volume sz) None None ∅)).
    assert (HF : frame s (upd_obj s n (mkObj sz (volume sz) None None ∅)) n) by apply upd_obj_frame.
    assert (Ho : objs (upd_obj s n (mkObj sz (volume sz) None None ∅)) !! n = Some (mkObj sz (volume sz) None None ∅))
      by (simpl; apply lookup_insert).
    split; [reflexivity|]. split; [apply new_obj_Inv; auto|].
    split. { eapply Shapes_frame; eauto. intros o' n2 o2 d Ho' ? ? Hd. rewrite Ho in Ho'. injection Ho' as <-. discriminate. }
    split. { rewrite (abs_frame _ _ _ _ HF Ho). reflexivity. }
    intros _ HC. eapply wrote_coh; eauto. intros o' Ho'. rewrite Ho in Ho'. injection Ho' as <-. reflexivity.
  - (* OCopy *) destruct (abs s !! n) eqn:E; [discriminate|]. apply abs_lookup_None in E.
    destruct (abs s !! m) as [v|] eqn:Em; [|discriminate]. intros [= <- <-].
    apply abs_lookup in Em as (src & Em & Hv). unfold fresh_name. rewrite E. simpl.
    unfold get_obj. rewrite Em. simpl.
    destruct (copy_new_Inv s n src HI E) as [HI1 HF1]. assert (Hnm : m <> n) by congruence.
    destruct (HF1 m Hnm) as [Hm1 Hv1]. rewrite Em in Hm1. specialize (Hv1 src Em).
    set (o1 := mkObj (o_size src) (volume (o_size src)) None None ∅) in *.
    assert (Hn1 : objs (upd_obj s n o1) !! n = Some o1) by (simpl; apply lookup_insert).
    destruct (element_copy_to_spec _ m n _ _ HI1 Hm1 Hn1 Hnm) as (s' & o' & H1 & H2 & H3 & H4 & H5 & H6 & H7 & H8).
    change (set_obj s n o1) with (upd_obj s n o1). rewrite H1. simpl. exists s'. split; [reflexivity|].
    assert (HF : frame s s' n) by (eapply frame_trans; eauto).
    assert (Hval : absv s' o' = absv s src).
    { rewrite <- Hv1. rewrite (surjective_pairing (absv s' o')), (surjective_pairing (absv (upd_obj s n o1) src)).
      rewrite H6. f_equal. simpl in *. exact H7. }
    destruct (copy_all s s' m n src o' H2 HF HS Em Hnm H4 Hval H8) as [Hsh Ha].
    split; [exact H2|]. split; [exact Hsh|]. split; [rewrite Ha, Hv; reflexivity|].
    intros _ HC. eapply (copy_coh s s' m n); eauto.
  - (* OAssign *) destruct (abs s !! n) as [vn|] eqn:E; [|discriminate].
    destruct (abs s !! m) as [v|] eqn:Em; [|discriminate]. intros [= <- <-].
    apply abs_lookup in E as (dst & E & Hvn).
    destruct (bool_decide (n = m)) eqn:Enm.
    + apply bool_decide_eq_true in Enm. subst m. unfold get_obj. rewrite E. simpl.
      exists s. split; [reflexivity|]. split; [exact HI|]. split; [exact HS|].
      split; [rewrite insert_id; auto|auto].
    + apply bool_decide_eq_false in Enm. apply abs_lookup in Em as (src & Em & Hv).
      destruct (element_copy_to_spec s m n src dst HI Em E (not_eq_sym Enm)) as (s' & o' & H1 & H2 & H3 & H4 & H5 & H6 & H7 & H8).
      rewrite H1. simpl. exists s'. split; [reflexivity|].
      assert (Hval : absv s' o' = absv s src).
      { rewrite (surjective_pairing (absv s' o')), (surjective_pairing (absv s src)). rewrite H6. f_equal. simpl.
        destruct (same_space (o_space dst) (o_space src)) eqn:Ess; [|exact H7]. rewrite H7.
        unfold same_space in Ess. destruct (o_space dst) as [x|] eqn:Ex; [|discriminate].
        destruct (o_space src) as [y|] eqn:Ey; [|discriminate]. apply bool_decide_eq_true in Ess. subst y.
        apply (HS n m dst src x); auto. }
      destruct (copy_all s s' m n src o' H2 H3 HS Em (not_eq_sym Enm) H4 Hval H8) as [Hsh Ha].
      split; [exact H2|]. split; [exact Hsh|]. split; [rewrite Ha, Hv; reflexivity|].
      intros _ HC. eapply (copy_coh s s' m n); eauto.
  - (* ODestroy *) destruct (abs s !! n) as [vn|] eqn:E; [|discriminate]. intros [= <- <-].
    apply abs_lookup in E as (o & E & Hvn).
    destruct (destroy_spec s n o HI E) as (s' & H1 & H2 & H3 & H4). rewrite H1. simpl.
    exists s'. split; [reflexivity|]. split; [exact H2|].
    split; [eapply Shapes_frame; eauto; intros; congruence|].
    split; [rewrite (abs_frame_del s s' n H3 H4); reflexivity|].
    intros _ HC. eapply wrote_coh; eauto. intros; congruence.
  - (* OWriteAll *) destruct (abs s !! n) as [vn|] eqn:E; [|discriminate].
    destruct (bool_decide (length l = volume (fst vn))) eqn:El; [|discriminate]. intros [= <- <-].
    apply bool_decide_eq_true in El. apply abs_lookup in E as (o & En & <-). simpl in *.
    pose proof (wf_len s o (inv_wf s HI n o En)) as Hlen.
    destruct (write_entire_spec s n o HI En) as (s1 & c & d & l0 & H1 & H2 & H3 & H4 & H5 & H6).
    rewrite H1. simpl. rewrite (data_of_spec s1 n _ d l0 (proj1 H4) eq_refl H5). simpl.
    rewrite bool_decide_eq_true_2 by congruence.
    destruct (finish_write s s1 n o _ c d l0 (Some <$> l) H3 H2 H4 eq_refl H5) as (_ & s' & Hs & Hw & Hca);
      [rewrite fmap_length; congruence|]. rewrite Hs. simpl. exists s'. split; [reflexivity|].
    destruct (wrote_all _ _ _ _ _ Hw HS) as (A1 & A2 & A3 & A4).
    split; [exact A1|]. split; [exact A2|]. split; [exact A3|].
    intros _ HC. eapply wrote_coh; eauto.
  - (* OWriteAt *) destruct (abs s !! n) as [vn|] eqn:E; [|discriminate].
    apply abs_lookup in E as (o & En & <-). simpl in *.
    destruct (i <? length (contents (absv s o))) eqn:Ei; [|discriminate]. intros [= <- <-].
    destruct (write_partial_spec s n o HI En) as (s1 & c & d & H1 & H2 & H3 & H4 & H5 & H6).
    rewrite H1. simpl. rewrite (data_of_spec s1 n _ d _ (proj1 H4) eq_refl H5). simpl. rewrite Ei. simpl.
    destruct (finish_write s s1 n o _ c d _ (<[i:=Some v]> (contents (absv s o))) H3 H2 H4 eq_refl H5) as (_ & s' & Hs & Hw & Hca);
      [apply insert_length|]. rewrite Hs. simpl. exists s'. split; [reflexivity|].
    destruct (wrote_all _ _ _ _ _ Hw HS) as (A1 & A2 & A3 & A4).
    split; [exact A1|]. split; [exact A2|]. split; [exact A3|].
    intros _ HC. eapply wrote_coh; eauto.
  - (* OZeros *) destruct (abs s !! n) as [vn|] eqn:E; [|discriminate]. intros [= <- <-].
    apply abs_lookup in E as (o & En & <-). simpl in *.
    pose proof (wf_len s o (inv_wf s HI n o En)) as Hlen.
    destruct (write_entire_spec s n o HI En) as (s1 & c & d & l0 & H1 & H2 & H3 & H4 & H5 & H6).
    unfold obtain_write_entire in H1. destruct (remove_fields s n) as [s0|e]; simpl in *; [|discriminate].
    rewrite H1. simpl. rewrite (data_of_spec s1 n _ d l0 (proj1 H4) eq_refl H5). simpl.
    destruct (finish_write s s1 n o _ c d l0 ((fun _ => Some z) <$> l0) H3 H2 H4 eq_refl H5) as (_ & s' & Hs & Hw & Hca);
      [apply fmap_length|]. rewrite Hs. simpl. exists s'. split; [reflexivity|].
    destruct (wrote_all _ _ _ _ _ Hw HS) as (A1 & A2 & A3 & A4).
    split; [exact A1|]. split; [exact A2|]. split.
    + rewrite A3. do 3 f_equal. rewrite <- Hlen, <- H6. clear. induction l0; simpl; f_equal; auto.
    + intros _ HC. eapply wrote_coh; eauto.
  - (* OUpdate *) destruct (abs s !! n) as [vn|] eqn:E; [|discriminate]. intros [= <- <-].
    apply abs_lookup in E as (o & En & <-). simpl in *.
    destruct (write_partial_spec s n o HI En) as (s1 & c & d & H1 & H2 & H3 & H4 & H5 & H6).
    rewrite H1. simpl. rewrite (data_of_spec s1 n _ d _ (proj1 H4) eq_refl H5). simpl.
    destruct (finish_write s s1 n o _ c d _ (imap (fun i c0 => g i <$> c0) (contents (absv s o))) H3 H2 H4 eq_refl H5)
      as (_ & s' & Hs & Hw & Hca); [apply imap_length|]. rewrite Hs. simpl. exists s'. split; [reflexivity|].
    destruct (wrote_all _ _ _ _ _ Hw HS) as (A1 & A2 & A3 & A4).
    split; [exact A1|]. split; [exact A2|]. split; [exact A3|].
    intros _ HC. eapply wrote_coh; eauto.
  - (* OZip *) destruct (abs s !! n) as [vn|] eqn:E; [|discriminate].
    destruct (abs s !! m) as [[szm [lm|]]|] eqn:Em; try discriminate.
    destruct (bool_decide (volume (fst vn) = volume szm)) eqn:El; [|discriminate]. intros [= <- <-].
    apply bool_decide_eq_true in El. apply abs_lookup in E as (o & En & <-). apply abs_lookup in Em as (om & Em & Hvm).
    unfold get_obj at 1. rewrite En. simpl. unfold get_obj at 1. rewrite Em. simpl.
    pose proof (wf_len s o (inv_wf s HI n o En)) as Hlen. pose proof (wf_len s om (inv_wf s HI m om Em)) as Hlenm.
    assert (Hszm : o_size om = szm) by (apply (f_equal fst) in Hvm; exact Hvm).
    rewrite bool_decide_eq_true_2 by (simpl in El; congruence). simpl.
    destruct (o_space om) as [xp|] eqn:Exp; simpl; [|unfold absv in Hvm; rewrite Exp in Hvm; discriminate].
    destruct (write_partial_spec s n o HI En) as (s1 & c & d & H1 & H2 & H3 & H4 & H5 & H6).
    rewrite H1. simpl. rewrite (data_of_spec s1 n _ d _ (proj1 H4) eq_refl H5). simpl.
    assert (Hlm : datas s !! xp = Some lm) by (unfold absv in Hvm; rewrite Exp in Hvm; simpl in Hvm; congruence).
    assert (Hxp : datas s1 !! xp = Some lm).
    { destruct (decide (m = n)) as [->|Hne]; [rewrite H6; congruence|].
      destruct (H3 m Hne) as [_ Hv]. specialize (Hv om Em). unfold absv in Hv. rewrite Exp in Hv. simpl in Hv. congruence. }
    unfold get_data. rewrite Hxp. simpl.
    destruct (finish_write s s1 n o _ c d _ (zip_with (fun a b => y ← a; w ← b; Some (g y w)) (contents (absv s o)) lm) H3 H2 H4 eq_refl H5)
      as (_ & s' & Hs & Hw & Hca).
    { destruct (inv_share_space s m om xp HI Em Exp) as [cm Hcm].
      destruct (inv_mem s m om cm HI Em Hcm) as (d' & k & lx & Hd' & Hk & Hlx & Hlenx & _).
      rewrite zip_with_length, (contents_length s n o HI En). simpl in El.
      assert (length lm = o_len o) by congruence. lia. }
    rewrite Hs. simpl. exists s'. split; [reflexivity|].
    destruct (wrote_all _ _ _ _ _ Hw HS) as (A1 & A2 & A3 & A4).
    split; [exact A1|]. split; [exact A2|]. split; [exact A3|].
    intros _ HC. eapply wrote_coh; eauto.
  - (* OScaledId *) destruct (abs s !! n) as [[[[r c0] p] lo]|] eqn:E; [|discriminate].
    apply abs_lookup in E as (o & En & Hv). unfold get_obj. rewrite En. simpl.
    assert (Hsz : o_size o = (r, c0, p)) by (apply (f_equal fst) in Hv; exact Hv). rewrite Hsz.
    destruct (bool_decide (r = c0)) eqn:Erc.
    2:{ intros [= <- <-]. exists s. auto 10. }
    apply bool_decide_eq_true in Erc. subst c0.
    destruct (bool_decide (p = 1)) eqn:Ep; [|discriminate]. apply bool_decide_eq_true in Ep. subst p.
    intros [= <- <-].
    destruct (nmow_spec s n o HI En) as (s1 & c & d & l0 & H1 & H2 & H3 & H4 & H5 & H6 & _).
    rewrite H1. simpl. rewrite (data_of_spec s1 n _ d l0 (proj1 H4) eq_refl H5). simpl.
    destruct (finish_write s s1 n o _ c d l0 (id_cells r a z l0) H3 H2 H4 eq_refl H5) as (_ & s' & Hs & Hw & Hca);
      [apply id_cells_length|]. rewrite Hs. simpl. exists s'. split; [reflexivity|].
    destruct (wrote_all _ _ _ _ _ Hw HS) as (A1 & A2 & A3 & A4).
    split; [exact A1|]. split; [exact A2|]. split; [|intros Hx; exfalso; apply Hx; exact I].
    rewrite A3. f_equal. rewrite Hsz. do 2 f_equal.
    assert (Hl0 : length l0 = r * r).
    { rewrite H6, (wf_len s o (inv_wf s HI n o En)), Hsz. simpl. lia. }
    apply list_eq. intros i. unfold id_cells. rewrite !list_lookup_imap.
    destruct (decide (i < r * r)) as [Hi|Hi].
    + rewrite lookup_replicate_2 by exact Hi.
      destruct (lookup_lt_is_Some_2 l0 i) as [x Hx]; [lia|]. rewrite Hx. simpl.
      destruct (Nat.ltb_spec i (r * r)); [reflexivity|lia].
    + rewrite (lookup_ge_None_2 l0) by lia. rewrite (lookup_ge_None_2 (replicate (r * r) tt)) by (rewrite replicate_length; lia).
      reflexivity.
  - (* ODecomp *) destruct (abs s !! n) as [[sz [l|]]|] eqn:E; try discriminate. intros [= <- <-].
    apply abs_lookup in E as (o & En & Hv). unfold get_obj. rewrite En. simpl.
    assert (Hsz : o_size o = sz) by (apply (f_equal fst) in Hv; exact Hv).
    pose proof (Hdec I) as HC.
    destruct (o_cache o !! k) as [v|] eqn:Ek.
    + destruct (HC n o k v En Ek) as (l' & Hl' & ->). rewrite Hv in Hl'. injection Hl' as <-.
      exists s. rewrite Hsz. auto 10.
    + destruct (o_space o) as [d|] eqn:Ed; [|unfold absv in Hv; rewrite Ed in Hv; discriminate]. simpl.
      assert (Hl : datas s !! d = Some l) by (unfold absv in Hv; rewrite Ed in Hv; simpl in Hv; congruence).
      unfold get_data. rewrite Hl. simpl. rewrite Hsz.
      set (o1 := mkObj sz (o_len o) (o_share o) (Some d) (<[k:=D k sz l]> (o_cache o))).
      exists (upd_obj s n o1).
      assert (Ho1 : objs (upd_obj s n o1) !! n = Some o1) by (simpl; apply lookup_insert).
      assert (HF : frame s (upd_obj s n o1) n) by apply upd_obj_frame.
      assert (Hv1 : absv (upd_obj s n o1) o1 = (sz, Some l)) by (unfold absv; simpl; rewrite Hl; reflexivity).
      split; [reflexivity|]. split; [apply (upd_obj_Inv s n o); simpl; congruence|].
      split.
      { apply (Shapes_frame s _ n HF HS). intros o' n2 o2 d' Ho' Hne Ho2 Hd' Hd2. rewrite Ho1 in Ho'. injection Ho' as <-.
        simpl in *. rewrite <- Hsz. apply (HS n n2 o o2 d); congruence. }
      split.
      { rewrite (abs_frame _ _ _ _ HF Ho1), Hv1. apply insert_id. unfold abs. rewrite lookup_fmap, En. simpl. congruence. }
      intros _ _. eapply Coh_frame; eauto. intros o' k' v Ho' Hk'. rewrite Ho1 in Ho'. injection Ho' as <-.
      rewrite Hv1. exists l. split; [reflexivity|]. simpl in *.
      destruct (decide (k' = k)) as [->|Hne]; [rewrite lookup_insert in Hk'; congruence|].
      rewrite lookup_insert_ne in Hk' by congruence.
      destruct (HC n o k' v En Hk') as (l' & Hl' & ->). rewrite Hv in Hl'. injection Hl' as <-. congruence.
  - (* ORead *) destruct (abs s !! n) as [[sz lo]|] eqn:E; [|discriminate]. intros [= <- <-].
    apply abs_lookup in E as (o & En & Hv). unfold get_obj. rewrite En. simpl.
    assert (Hsz : o_size o = sz) by (apply (f_equal fst) in Hv; exact Hv).
    exists s. split; [|auto].
    destruct (o_space o) as [d|] eqn:Ed.
    + assert (Hl : datas s !! d = lo) by (unfold absv in Hv; rewrite Ed in Hv; simpl in Hv; congruence).
      destruct (inv_share_space s n o d HI En Ed) as [c Hc].
      destruct (inv_mem s n o c HI En Hc) as (d' & k' & l & Hd' & Hk & Hl' & Hlen & _).
      assert (d' = d) as -> by congruence. unfold get_data. rewrite Hl'. simpl. congruence.
    + unfold absv in Hv. rewrite Ed in Hv. simpl in Hv. congruence.
Qed.

Lemma Shapes_init : Shapes init_st.
Proof. intros ? ? ? ? ? H. simpl in H. rewrite lookup_empty in H. discriminate. Qed.
Lemma Coh_init : Coh init_st.
Proof. intros ? ? ? ? H. simpl in H. rewrite lookup_empty in H. discriminate. Qed.
Lemma abs_init : abs (init_st : st) = ∅.
Proof. unfold abs. simpl. apply fmap_empty. Qed.

Theorem run_sim_value s ops m' outs :
  Inv s -> Shapes s -> Forall value_op ops ->
  spec_run D (abs s) ops = Some (m', outs) ->
  exists s', run D s ops = Ok (s', outs) /\ Inv s' /\ Shapes s' /\ abs s' = m'.
Proof.
  revert s m' outs. induction ops as [|o ops IH]; intros s m' outs HI HS Hops; simpl.
  - intros [= <- <-]. eauto.
  - inversion Hops as [|? ? Ho Hops' ]; subst.
    destruct (spec_step D (abs s) o) as [[m1 out1]|] eqn:E1; simpl; [|discriminate].
    destruct (spec_run D m1 ops) as [[m2 outs2]|] eqn:E2; simpl; [|discriminate]. intros [= <- <-].
    destruct (step_sim s o m1 out1 HI HS) as (s1 & H1 & H2 & H3 & H4 & _); auto.
    { destruct o; simpl in *; auto. } { destruct o; simpl in *; contradiction. }
    subst m1. destruct (IH s1 m2 outs2 H2 H3 Hops' E2) as (s2 & G1 & G2 & G3 & G4).
    exists s2. rewrite H1. simpl. rewrite G1. auto.
Qed.

Theorem run_sim_cache s ops m' outs :
  Inv s -> Shapes s -> Coh s -> Forall cache_op ops ->
  spec_run D (abs s) ops = Some (m', outs) ->
  exists s', run D s ops = Ok (s', outs) /\ Inv s' /\ Shapes s' /\ Coh s' /\ abs s' = m'.
Proof.
  revert s m' outs. induction ops as [|o ops IH]; intros s m' outs HI HS HC Hops; simpl.
  - intros [= <- <-]. eauto 10.
  - inversion Hops as [|? ? Ho Hops' ]; subst.
    destruct (spec_step D (abs s) o) as [[m1 out1]|] eqn:E1; simpl; [|discriminate].
    destruct (spec_run D m1 ops) as [[m2 outs2]|] eqn:E2; simpl; [|discriminate]. intros [= <- <-].
    destruct (step_sim s o m1 out1 HI HS) as (s1 & H1 & H2 & H3 & H4 & H5); auto.
    { destruct o; simpl in *; auto. }
    assert (Coh s1) by (apply H5; [destruct o; simpl in *; auto|exact HC]).
    subst m1. destruct (IH s1 m2 outs2 H2 H3 H Hops' E2) as (s2 & G1 & G2 & G3 & G4 & G5).
    exists s2. rewrite H1. simpl. rewrite G1. auto 10.
Qed.

End sim.
