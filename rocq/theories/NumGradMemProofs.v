(** Proofs about the storage of the numerical gradient. *)
From stdpp Require Import gmap list.
From Coq Require Import ZArith Lia.
From Verif Require Import SmartSpaceModel SmartSpaceSpec SmartSpaceProofs SmartSpaceSim SmartSpaceFacts HessMemProofs NumGradMemModel.
Open Scope nat_scope.

Section proofs.
Context {V FV : Type}.
Context (D : nat -> shape -> list (option V) -> FV).
Notation obj := (@obj FV).
Notation st := (@st V FV).
Notation op := (@op V).
Implicit Types (s : st) (o : obj).

Lemma reads_obj s h v : Inv s -> reads D s h = Some v -> exists o, objs s !! h = Some o /\ absv s o = v.
Proof. intros HI H. rewrite (reads_abs D s h HI) in H. apply abs_lookup in H. exact H. Qed.
Lemma obj_reads s h o : Inv s -> objs s !! h = Some o -> reads D s h = Some (absv s o).
Proof. intros HI H. rewrite (reads_abs D s h HI). unfold abs. rewrite lookup_fmap, H. reflexivity. Qed.

Lemma raw_sole s h sz l g : Inv s -> sole s h -> reads D s h = Some (sz, Some l) ->
  exists s', step D s (ORawUpdate h g) = Ok (s', ONone) /\ Inv s' /\ (forall h', sole s h' -> sole s' h') /\
    reads D s' h = Some (sz, Some (imap (fun i c => g i <$> c) l)) /\ (forall u, u <> h -> reads D s' u = reads D s u).
Proof.
  intros HI (o & c & Ho & Hc & Hk) Hr.
  destruct (inv_mem s h o c HI Ho Hc) as (d & k & l0 & Hd & Hk' & Hl & Hlen & _).
  rewrite (obj_reads s h o HI Ho) in Hr. injection Hr as Hs Hl0. rewrite Hd in Hl0. cbn in Hl0. rewrite Hl in Hl0. injection Hl0 as ->.
  rewrite (step_raw D s h o c d l g HI Ho Hc Hd Hl). eexists. split; [reflexivity|].
  assert (HI' : Inv (upd s d (imap (fun i c => g i <$> c) l))) by (eapply upd_Inv; eauto; apply imap_length).
  split; [exact HI'|]. split; [intros h' H'; exact H'|]. split.
  - rewrite (obj_reads _ h o HI' Ho). f_equal. unfold absv. rewrite Hs, Hd. cbn. rewrite lookup_insert. reflexivity.
  - intros u Hu. apply (reads_frame D s _ h u HI HI'); [|exact Hu]. eapply upd_frame; eauto.
Qed.
Lemma other_sole s s' h n o l : Inv s -> sole s h -> wrote s s' n o l -> h <> n -> sole s' h.
Proof.
  intros HI (oh & c & Ho & Hc & Hk) (HI' & HF & o' & Hn & _ & c' & Hc' & Hk') Hne.
  destruct (HF h Hne) as [E _]. exists oh, c. rewrite E, Ho. split; [reflexivity|]. split; [exact Hc|].
  assert (Ho' : objs s' !! h = Some oh) by congruence.
  destruct (inv_mem s' h oh c HI' Ho' Hc) as (d & k & l0 & Hd & Hkc & _ & _ & Hkk & Hkp). rewrite Hkc. f_equal.
  destruct (decide (c = c')) as [<-|Hcc]; [congruence|].
  assert (HD : delete n (objs s') = delete n (objs s)).
  { apply map_eq. intros i. destruct (decide (i = n)) as [->|Hi]; [rewrite !lookup_delete; reflexivity|].
    rewrite !lookup_delete_ne by congruence. apply (HF i Hi). }
  pose proof (owners_delete (objs s') n c) as H1. pose proof (owners_delete (objs s) n c) as H2. rewrite HD in H1.
  rewrite Hn in H1. cbn in H1. unfold ind in H1. rewrite decide_False in H1 by congruence.
  destruct (inv_count s HI c 1%Z Hk) as [Ho1 _]. lia.
Qed.
Lemma write_all s n v (l : list V) : Inv s -> reads D s n = Some v -> length l = volume (fst v) ->
  exists s' o, step D s (OWriteAll n l) = Ok (s', ONone) /\ wrote s s' n o (Some <$> l) /\ o_size o = fst v.
Proof.
  intros HI Hr Hl. destruct (reads_obj s n v HI Hr) as (o & Ho & Hv).
  destruct (write_entire_spec s n o HI Ho) as (s1 & c & d & l0 & H1 & H2 & H3 & H4 & H5 & H6).
  assert (Hs : o_size o = fst v) by (rewrite <- Hv; reflexivity).
  assert (El : length l = length l0) by (rewrite H6, (wf_len s o (inv_wf s HI n o Ho)), Hs; exact Hl).
  destruct (finish_write s s1 n o _ c d l0 (Some <$> l) H3 H2 H4 eq_refl H5) as (Hd & s' & Hw & HW & _); [rewrite fmap_length; exact El|].
  exists s', o. split; [|split; [exact HW|exact Hs]]. cbn [step]. rewrite H1. cbn [rbind]. rewrite Hd. cbn [rbind fst snd].
  rewrite bool_decide_eq_true_2 by exact El. rewrite Hw. reflexivity.
Qed.
Lemma wrote_reads s s' n o l : wrote s s' n o l -> reads D s' n = Some (o_size o, Some l).
Proof. intros (HI & _ & o' & Ho & Hv & _). rewrite (obj_reads s' n o' HI Ho), Hv. reflexivity. Qed.
Lemma wrote_other s s' n o l u : Inv s -> wrote s s' n o l -> u <> n -> reads D s' u = reads D s u.
Proof. intros HI (HI' & HF & _) Hu. exact (reads_frame D s s' n u HI HI' HF Hu). Qed.
Lemma copy_new s x xe v : Inv s -> reads D s x = Some v -> reads D s xe = None ->
  exists s', step D s (OCopy xe x) = Ok (s', ONone) /\ Inv s' /\ reads D s' xe = Some v /\ (forall u, u <> xe -> reads D s' u = reads D s u).
Proof.
  intros HI Hx Hxe. destruct (reads_obj s x v HI Hx) as (ox & Ex & Hv).
  rewrite (reads_abs D s xe HI) in Hxe. apply abs_lookup_None in Hxe.
  assert (Hne : x <> xe) by congruence.
  set (o0 := mkObj (o_size ox) (volume (o_size ox)) None None ∅ : obj).
  assert (HI1 : Inv (upd_obj s xe o0)) by (apply new_obj_Inv; auto).
  assert (E1 : objs (upd_obj s xe o0) !! x = Some ox) by (cbn; rewrite lookup_insert_ne by congruence; exact Ex).
  assert (E2 : objs (upd_obj s xe o0) !! xe = Some o0) by (cbn; apply lookup_insert).
  destruct (element_copy_to_spec _ x xe ox o0 HI1 E1 E2 Hne) as (s' & o' & H1 & H2 & H3 & H4 & H5 & H6 & H7 & H8).
  exists s'. split; [|split; [exact H2|split]].
  - cbn [step]. unfold fresh_name. rewrite Hxe. cbn [rbind]. unfold get_obj. rewrite Ex. cbn [from_opt rbind].
    fold o0. change (set_obj s xe o0) with (upd_obj s xe o0). rewrite H1. reflexivity.
  - rewrite (obj_reads s' xe o' H2 H4). f_equal. rewrite <- Hv. destruct (same_space (o_space o0) (o_space ox)) eqn:Es; [discriminate Es|].
    rewrite (surjective_pairing (absv s' o')), H6. cbn. unfold absv. rewrite H7. reflexivity.
  - intros u Hu. rewrite (reads_frame D _ s' xe u HI1 H2 H3 Hu).
    rewrite (reads_abs D _ u HI1), (reads_abs D s u HI). unfold abs. rewrite !lookup_fmap. cbn. rewrite lookup_insert_ne by congruence. reflexivity.
Qed.

Lemma imap_some (g : nat -> V -> V) (l : list V) : imap (fun i (c : option V) => g i <$> c) (@Some V <$> l) = (@Some V <$> imap g l).
Proof. apply list_eq. intros i. rewrite list_lookup_imap, !list_lookup_fmap, list_lookup_imap. destruct (l !! i); reflexivity. Qed.
Lemma poke_insert i (w : V) (l : list V) : imap (fun j v => if j =? i then w else v) l = <[i := w]> l.
Proof.
  apply list_eq. intros j. rewrite list_lookup_imap. destruct (Nat.eqb_spec j i) as [->|Hn].
  - destruct (l !! i) eqn:E; cbn.
    + symmetry. apply list_lookup_insert. apply lookup_lt_Some in E. exact E.
    + symmetry. apply lookup_ge_None_2. rewrite insert_length. apply lookup_ge_None_1. exact E.
  - rewrite list_lookup_insert_ne by congruence. destruct (l !! j); reflexivity.
Qed.
Lemma bump_alter i (f : V -> V) (l : list V) : imap (fun j v => if j =? i then f v else v) l = alter f i l.
Proof.
  apply list_eq. intros j. rewrite list_lookup_imap. destruct (Nat.eqb_spec j i) as [->|Hn].
  - rewrite list_lookup_alter. destruct (l !! i); reflexivity.
  - rewrite list_lookup_alter_ne by congruence. destruct (l !! j); reflexivity.
Qed.

(** What the evaluations see. *)
Definition seen (sz : shape) (lx : list V) (stp : V -> V) (i : nat) : list (out (V := V) (FV := FV)) :=
  [ONone; OData sz (Some (Some <$> alter stp i lx)); ONone; ONone].
Lemma iter_run s x xe r vx sx sr lx lr stp vals i v :
  Inv s -> sole s xe -> sole s r -> x <> xe -> x <> r -> xe <> r -> reads D s x = vx ->
  reads D s xe = Some (sx, Some (Some <$> lx)) -> reads D s r = Some (sr, Some (Some <$> lr)) -> lx !! i = Some v ->
  exists s', run D s (num_iter xe r lx stp vals i) = Ok (s', seen sx lx stp i) /\ Inv s' /\ sole s' xe /\ sole s' r /\ reads D s' x = vx /\ reads D s' xe = Some (sx, Some (Some <$> lx)) /\ reads D s' r = Some (sr, Some (Some <$> <[i := vals i]> lr)).
Proof.
  intros HI Sx Sr N1 N2 N3 Rx Rxe Rr Hv. unfold num_iter, bump, poke. rewrite Hv. cbn [app].
  destruct (raw_sole s xe sx _ (fun j v => if j =? i then stp v else v) HI Sx Rxe) as (s1 & A1 & A2 & A3 & A4 & A5).
  rewrite imap_some, bump_alter in A4.
  assert (B : step D s1 (ORead xe) = Ok (s1, OData sx (Some (Some <$> alter stp i lx)))).
  { unfold reads in A4. destruct (step D s1 (ORead xe)) as [[s2 []]|] eqn:E; try discriminate. injection A4 as -> ->.
    f_equal. f_equal. cbn [step] in E.
    destruct (get_obj s1 xe) as [o|] eqn:Eo; cbn in E; [|discriminate].
    destruct (o_space o) as [d|]; cbn in E; [destruct (get_data s1 d); cbn in E; [|discriminate]|]; congruence. }
  destruct (raw_sole s1 r sr (Some <$> lr) (fun j v => if j =? i then vals i else v) A2 (A3 r Sr)) as (s2 & C1 & C2 & C3 & C4 & C5).
  { rewrite A5 by congruence. exact Rr. }
  rewrite imap_some, poke_insert in C4.
  destruct (raw_sole s2 xe sx (Some <$> alter stp i lx) (fun j w => if j =? i then v else w) C2 (C3 xe (A3 xe Sx))) as (s3 & E1 & E2 & E3 & E4 & E5).
  { rewrite C5 by congruence. exact A4. }
  rewrite imap_some, poke_insert in E4.
  assert (HB : <[i := v]> (alter stp i lx) = lx).
  { apply list_eq. intros j. destruct (decide (i = j)) as [<-|Hn].
    - rewrite list_lookup_insert by (rewrite alter_length; apply lookup_lt_Some in Hv; exact Hv). congruence.
    - rewrite list_lookup_insert_ne, list_lookup_alter_ne by congruence. reflexivity. }
  rewrite HB in E4. exists s3. split.
  { rewrite (run_cons D s _ _ s1 ONone A1), (run_cons D s1 _ _ s1 _ B), (run_cons D s1 _ _ s2 ONone C1), (run_cons D s2 _ [] s3 ONone E1). reflexivity. }
  split; [exact E2|]. split; [exact (E3 xe (C3 xe (A3 xe Sx)))|]. split; [exact (E3 r (C3 r (A3 r Sr)))|].
  split; [rewrite E5, C5, A5 by congruence; exact Rx|]. split; [exact E4|]. rewrite E5 by congruence. exact C4.
Qed.
Lemma loop_run x xe r vx sx sr lx stp vals : x <> xe -> x <> r -> xe <> r -> forall k i s lr,
  i + k <= length lx -> Inv s -> sole s xe -> sole s r -> reads D s x = vx ->
  reads D s xe = Some (sx, Some (Some <$> lx)) -> reads D s r = Some (sr, Some (Some <$> lr)) ->
  exists s', run D s (concat (map (num_iter xe r lx stp vals) (seq i k))) = Ok (s', concat (map (seen sx lx stp) (seq i k))) /\ Inv s' /\ reads D s' x = vx /\ reads D s' r = Some (sr, Some (Some <$> foldl (fun l j => <[j := vals j]> l) lr (seq i k))).
Proof.
  intros N1 N2 N3. induction k as [|k IH]; intros i s lr Hk HI Sx Sr Rx Rxe Rr; [exists s; auto|].
  destruct (lookup_lt_is_Some_2 lx i ltac:(lia)) as [v Hv].
  destruct (iter_run s x xe r vx sx sr lx lr stp vals i v HI Sx Sr N1 N2 N3 Rx Rxe Rr Hv) as (s1 & A1 & A2 & A3 & A4 & A5 & A6 & A7).
  destruct (IH (S i) s1 (<[i := vals i]> lr) ltac:(lia) A2 A3 A4 A5 A6 A7) as (s2 & B1 & B2 & B3 & B4).
  exists s2. cbn [seq map concat]. rewrite (run_app D s _ _ s1 _ A1), B1. split; [reflexivity|]. auto.
Qed.
Lemma fill_all (vals : nat -> V) : forall (l : list V) pre,
  foldl (fun l j => <[j := vals j]> l) (pre ++ l) (seq (length pre) (length l)) = pre ++ map vals (seq (length pre) (length l)).
Proof.
  induction l as [|a l IH]; intros pre; [reflexivity|]. cbn [length seq map foldl].
  rewrite insert_app_r_alt by lia. rewrite Nat.sub_diag. cbn [insert list_insert].
  specialize (IH (pre ++ [vals (length pre)])). rewrite app_length in IH. cbn [length] in IH. rewrite Nat.add_1_r in IH.
  rewrite <- !app_assoc in IH. exact IH.
Qed.

Lemma num_grad_mem s x xe r sx sr lx vr g0 stp vals :
  Inv s -> reads D s x = Some (sx, Some (Some <$> lx)) -> reads D s r = Some (sr, vr) -> reads D s xe = None -> x <> r ->
  length g0 = volume sr -> length g0 = length lx -> length lx = volume sx ->
  exists s', run D s (num_grad_ops x xe r lx g0 stp vals) =
      Ok (s', [ONone; ONone; ONone] ++ concat (map (seen sx lx stp) (seq 0 (length lx)))) /\ reads D s' x = Some (sx, Some (Some <$> lx)) /\ reads D s' r = Some (sr, Some (Some <$> map vals (seq 0 (length lx)))).
Proof.
  intros HI Rx Rr Rxe N HL HL2 HLx. assert (N1 : x <> xe) by congruence. assert (N3 : xe <> r) by congruence.
  destruct (copy_new s x xe _ HI Rx Rxe) as (s1 & A1 & A2 & A3 & A4).
  destruct (write_all s1 xe _ lx A2 A3 HLx) as (s2 & o2 & B1 & B2 & B3).
  pose proof B2 as (B4 & _).
  destruct (write_all s2 r (sr, vr) g0 B4) as (s3 & o3 & C1 & C2 & C3).
  { rewrite (wrote_other s1 s2 xe o2 _ r A2 B2) by congruence. rewrite A4 by congruence. exact Rr. }
  { exact HL. }
  pose proof C2 as (C4 & _). cbn in B3, C3.
  destruct (loop_run x xe r (Some (sx, Some (Some <$> lx))) sx sr lx stp vals N1 N N3 (length lx) 0 s3 g0) as (s4 & E1 & E2 & E3 & E4).
  - lia.
  - exact C4.
  - eapply other_sole; [exact B4| |exact C2|congruence]. eapply wrote_sole. exact B2.
  - eapply wrote_sole. exact C2.
  - rewrite (wrote_other s2 s3 r o3 _ x B4 C2), (wrote_other s1 s2 xe o2 _ x A2 B2), A4 by congruence. exact Rx.
  - rewrite (wrote_other s2 s3 r o3 _ xe B4 C2) by congruence. rewrite (wrote_reads s1 s2 xe o2 _ B2), B3. reflexivity.
  - rewrite (wrote_reads s2 s3 r o3 _ C2), C3. reflexivity.
  - exists s4. split; [|split; [exact E3|]].
    + unfold num_grad_ops. cbn [app]. rewrite (run_cons D s _ _ s1 ONone A1), (run_cons D s1 _ _ s2 ONone B1), (run_cons D s2 _ _ s3 ONone C1), E1. reflexivity.
    + rewrite E4. f_equal. f_equal. f_equal. f_equal. rewrite <- HL2. exact (fill_all vals g0 []).
Qed.
End proofs.
