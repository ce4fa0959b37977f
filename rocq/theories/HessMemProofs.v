(** Proofs about the storage of the quasi-Newton matrix. *)
From stdpp Require Import gmap list.
From Coq Require Import ZArith Lia.
From Verif Require Import SmartSpaceModel SmartSpaceSpec SmartSpaceProofs SmartSpaceSim SmartSpaceFacts HessMemModel.
Open Scope nat_scope.

Section proofs.
Context {V FV : Type}.
Context (D : nat -> shape -> list (option V) -> FV).
Notation obj := (@obj FV).
Notation st := (@st V FV).
Notation op := (@op V).
Implicit Types (s : st) (o : obj).

(** h has memory of its own. *)
Definition sole s h : Prop := exists o c, objs s !! h = Some o /\ o_share o = Some c /\ counts s !! c = Some 1%Z.
(** The operations the solvers apply to h. *)
Definition hop (h : nat) (x : op) : Prop :=
  match x with
  | OAssign n m => n = h /\ m = h
  | OScaledId n _ _ | OUpdate n _ | ORawUpdate n _ => n = h
  | _ => False
  end.
Lemma wrote_sole s s' h o l : wrote s s' h o l -> sole s' h.
Proof. intros (_ & _ & o' & Ho & _ & c & Hc & Hk). exists o', c. auto. Qed.

Lemma step_update s h o g : Inv s -> objs s !! h = Some o ->
  exists s', step D s (OUpdate h g) = Ok (s', ONone) /\ Inv s' /\ frame s s' h /\ sole s' h.
Proof.
  intros HI Ho. destruct (write_partial_spec s h o HI Ho) as (s1 & c & d & H1 & H2 & H3 & H4 & H5 & _).
  destruct (finish_write s s1 h o (with_cache o ∅) c d _ (imap (fun i c => g i <$> c) (contents (absv s o))) H3 H2 H4 eq_refl H5 (imap_length _ _))
    as (G1 & s' & G2 & G3 & _).
  simpl. rewrite H1. simpl. rewrite G1. simpl. rewrite G2. simpl. exists s'. split; [reflexivity|].
  destruct G3 as (W1 & W2 & W3). split; [exact W1|]. split; [exact W2|]. eapply wrote_sole. split; [exact W1|split; [exact W2|exact W3]].
Qed.
Lemma step_scaled s h o a z : Inv s -> objs s !! h = Some o ->
  exists s', step D s (OScaledId h a z) = Ok (s', ONone) /\ Inv s' /\ frame s s' h /\
    (sole s h \/ fst (fst (o_size o)) = snd (fst (o_size o)) -> sole s' h).
Proof.
  intros HI Ho. cbn [step]. unfold get_obj at 1. rewrite Ho. cbn [from_opt rbind].
  destruct (o_size o) as [[r c] k] eqn:Es. destruct (bool_decide (r = c)) eqn:Eb.
  - destruct (nmow_spec s h o HI Ho) as (s1 & c1 & d & l & H1 & H2 & H3 & H4 & H5 & H6 & H7).
    destruct (finish_write s s1 h o o c1 d l (id_cells r a z l) H3 H2 H4 eq_refl H5 (id_cells_length r a z l)) as (G1 & s' & G2 & G3 & _).
    rewrite H1. cbn [rbind]. rewrite G1. cbn [rbind fst snd]. rewrite G2. cbn [rbind]. exists s'. split; [reflexivity|].
    pose proof G3 as (W1 & W2 & _). split; [exact W1|]. split; [exact W2|]. intros _. eapply wrote_sole. exact G3.
  - exists s. split; [reflexivity|]. split; [exact HI|]. split; [apply frame_refl|].
    apply bool_decide_eq_false in Eb. cbn. intros [H|H]; [exact H|contradiction].
Qed.
Lemma step_raw s h o c d l g : Inv s -> objs s !! h = Some o -> o_share o = Some c -> o_space o = Some d -> datas s !! d = Some l ->
  step D s (ORawUpdate h g) = Ok (upd s d (imap (fun i c => g i <$> c) l), ONone).
Proof.
  intros HI Ho Hc Hd Hl. simpl. unfold get_obj. rewrite Ho. simpl. rewrite Hd. simpl. unfold get_data. rewrite Hl. simpl.
  unfold set_data. rewrite Hl. simpl. reflexivity.
Qed.
(** Once h has its own memory it keeps it and nothing else changes. *)
Lemma sole_step s h x : Inv s -> sole s h -> hop h x ->
  exists s', step D s x = Ok (s', ONone) /\ Inv s' /\ frame s s' h /\ sole s' h.
Proof.
  intros HI HS Hx. pose proof HS as (o & c & Ho & Hc & Hk).
  destruct x; cbn [hop] in Hx; try contradiction.
  - destruct Hx as [-> ->]. simpl. rewrite bool_decide_eq_true_2 by reflexivity. unfold get_obj. rewrite Ho. simpl.
    exists s. auto using frame_refl.
  - subst. destruct (step_update s h o g HI Ho) as (s' & H). exists s'. exact H.
  - subst. destruct (step_scaled s h o a z HI Ho) as (s' & H1 & H2 & H3 & H4). exists s'.
    split; [exact H1|]. split; [exact H2|]. split; [exact H3|]. apply H4. left. exact HS.
  - subst. destruct (inv_mem s h o c HI Ho Hc) as (d & k & l & Hd & _ & Hl & Hlen & _).
    rewrite (step_raw s h o c d l g HI Ho Hc Hd Hl). eexists. split; [reflexivity|].
    split; [eapply upd_Inv; eauto; apply imap_length|]. split; [eapply upd_frame; eauto|].
    exists o, c. auto.
Qed.
Lemma run_cons s x ops s1 out : step D s x = Ok (s1, out) ->
  run D s (x :: ops) = (y <-! run D s1 ops; Ok (fst y, out :: snd y)).
Proof. intros H. simpl. rewrite H. reflexivity. Qed.
Lemma run_app s (a b : list op) s1 (o1 : list (out (V := V) (FV := FV))) : run D s a = Ok (s1, o1) ->
  run D s (a ++ b) = (y <-! run D s1 b; Ok (fst y, o1 ++ snd y)).
Proof.
  revert s s1 o1. induction a as [|x a IH]; intros s s1 o1 H.
  - simpl in H. injection H as <- <-. simpl. destruct (run D s b) as [[s2 o2]|]; reflexivity.
  - simpl in H. destruct (step D s x) as [[s2 o2]|] eqn:E; simpl in H; [|discriminate].
    destruct (run D s2 a) as [[s3 o3]|] eqn:E2; simpl in H; [|discriminate]. injection H as <- <-.
    simpl. rewrite E. simpl. rewrite (IH _ _ _ E2). destruct (run D s3 b) as [[s4 o4]|]; reflexivity.
Qed.
Lemma sole_run h : forall ops s, Inv s -> sole s h -> Forall (hop h) ops ->
  exists s' outs, run D s ops = Ok (s', outs) /\ Inv s' /\ frame s s' h /\ sole s' h.
Proof.
  induction ops as [|x ops IH]; intros s HI HS HF.
  - exists s, []. auto using frame_refl.
  - inversion_clear HF as [|? ? Hx HO]. destruct (sole_step s h x HI HS Hx) as (s1 & H1 & H2 & H3 & H4).
    destruct (IH s1 H2 H4 HO) as (s2 & outs & G1 & G2 & G3 & G4).
    exists s2, (ONone :: outs). rewrite (run_cons s x ops s1 ONone H1), G1. split; [reflexivity|].
    split; [exact G2|]. split; [eapply frame_trans; eauto|exact G4].
Qed.
Lemma reads_frame s s' h u : Inv s -> Inv s' -> frame s s' h -> u <> h -> reads D s' u = reads D s u.
Proof.
  intros HI HI' HF Hu. rewrite (reads_abs D s' u HI'), (reads_abs D s u HI). unfold abs. rewrite !lookup_fmap.
  destruct (HF u Hu) as [E Hv]. rewrite E. destruct (objs s !! u) as [ou|] eqn:En; [|reflexivity]. simpl. f_equal. apply Hv. reflexivity.
Qed.
Lemma fresh_share s u h ou dst s' o' : Inv s -> objs s !! u = Some ou -> objs s !! h = Some dst -> u <> h ->
  o_share dst = None -> o_space dst = None -> element_copy_to s u h = Ok s' -> objs s' !! h = Some o' -> o_space o' = o_space ou.
Proof.
  intros HI Hu Hh Hne Hc Hd. unfold element_copy_to, copy_to, get_obj. rewrite Hu, Hh. cbn [from_opt rbind].
  rewrite bool_decide_eq_false_2 by congruence. rewrite Hd, Hc. cbn [same_space].
  unfold share_into. destruct (o_share ou) as [c|] eqn:Ec.
  - destruct (inv_mem _ u ou c HI Hu Ec) as (d & k & l & Ed & Hk & _). unfold get_count, set_count.
    rewrite Hk. cbn [from_opt rbind]. cbn [set_obj objs].
    rewrite lookup_insert_ne by congruence. rewrite lookup_insert, Hu. cbn [from_opt rbind].
    intros [= <-]. unfold set_obj. cbn [objs]. rewrite lookup_insert. intros [= <-]. reflexivity.
  - cbn [rbind set_obj objs]. rewrite lookup_insert_ne by congruence. rewrite lookup_insert, Hu. cbn [from_opt rbind].
    intros [= <-]. unfold set_obj. cbn [objs]. rewrite lookup_insert. intros [= <-]. reflexivity.
Qed.
(** After SetProbX: h has the user's shape and memory. *)
Lemma setup_run s u h ou : Inv s -> objs s !! u = Some ou -> objs s !! h = None -> u <> h ->
  exists s' oh, run D s (setup h u) = Ok (s', [ONone; ONone]) /\ Inv s' /\ frame s s' h /\
    objs s' !! h = Some oh /\ o_size oh = o_size ou /\ o_space oh = o_space ou.
Proof.
  intros HI Hu Hh Hne. unfold setup.
  assert (E1 : step D s (ONew h (0, 0, 0)) = Ok (upd_obj s h (mkObj (0,0,0) 0 None None ∅), ONone)).
  { simpl. unfold fresh_name. rewrite Hh. reflexivity. }
  assert (HI1 : Inv (upd_obj s h (mkObj (0,0,0) 0 None None ∅ : obj))) by (apply new_obj_Inv; auto).
  assert (Hu1 : objs (upd_obj s h (mkObj (0,0,0) 0 None None ∅ : obj)) !! u = Some ou) by (simpl; rewrite lookup_insert_ne by congruence; exact Hu).
  assert (Hh1 : objs (upd_obj s h (mkObj (0,0,0) 0 None None ∅ : obj)) !! h = Some (mkObj (0,0,0) 0 None None ∅)) by (simpl; apply lookup_insert).
  destruct (element_copy_to_spec _ u h _ _ HI1 Hu1 Hh1 Hne) as (s' & o' & H1 & H2 & H3 & H4 & H5 & H6 & H7 & H8).
  exists s', o'.
  assert (E2 : step D (upd_obj s h (mkObj (0,0,0) 0 None None ∅ : obj)) (OAssign h u) = Ok (s', ONone)).
  { simpl. rewrite bool_decide_eq_false_2 by congruence. rewrite H1. reflexivity. }
  rewrite (run_cons s _ _ _ _ E1), (run_cons _ _ _ _ _ E2). split; [reflexivity|]. split; [exact H2|].
  split; [eapply frame_trans; [apply upd_obj_frame|exact H3]|]. split; [exact H4|].
  split.
  - rewrite (surjective_pairing (o_size o')). cbn [o_space] in H7. unfold same_space in H7. cbn in H7. rewrite H7. destruct (o_size ou). reflexivity.
  - exact (fresh_share _ u h ou _ s' o' HI1 Hu1 Hh1 Hne eq_refl eq_refl H1 H4).
Qed.

Lemma rank1_hop h gs : Forall (hop h) (rank1_ops h gs).
Proof. induction gs as [|g gs IH]; [constructor|]. constructor; [split; reflexivity|]. constructor; [reflexivity|exact IH]. Qed.
Lemma tran_hop h t : Forall (hop h) (tran_ops h t).
Proof. destruct t; repeat constructor. Qed.
Lemma rescale_hop h z r : Forall (hop h) (rescale_ops h z r).
Proof. destruct r; repeat constructor. Qed.
Lemma update_hop h u : Forall (hop h) (update_ops h u).
Proof. destruct u; [apply rank1_hop|constructor]. Qed.
Lemma rbfgs_hop z h i : Forall (hop h) (rbfgs_ops z h i).
Proof. unfold rbfgs_ops. rewrite !Forall_app. auto using rescale_hop, tran_hop, update_hop. Qed.
Lemma rwrbfgs_hop z h i : Forall (hop h) (rwrbfgs_ops z h i).
Proof. unfold rwrbfgs_ops. rewrite !Forall_app. auto using rescale_hop, tran_hop, update_hop. Qed.
Lemma rbfgssub_hop one z h i : Forall (hop h) (rbfgssub_ops one z h i).
Proof.
  unfold rbfgssub_ops. rewrite !Forall_app. split; [apply rescale_hop|]. split; [apply tran_hop|].
  destruct (it_update i); [apply rank1_hop|repeat constructor].
Qed.
Lemma concat_hop h (f : nat -> hiter (V := V) -> list op) its : (forall i, Forall (hop h) (f h i)) -> Forall (hop h) (concat (map (f h) its)).
Proof. intros H. induction its as [|i its IH]; [constructor|]. cbn. apply Forall_app. auto. Qed.

(** A first part that makes h sole and changes nothing else. *)
Definition detaches s h (ops : list op) : Prop :=
  exists s' outs, run D s ops = Ok (s', outs) /\ Inv s' /\ frame s s' h /\ sole s' h.
Lemma detach_then s h a b : detaches s h a -> Forall (hop h) b -> detaches s h (a ++ b).
Proof.
  intros (s1 & o1 & H1 & H2 & H3 & H4) Hb. destruct (sole_run h b s1 H2 H4 Hb) as (s2 & o2 & G1 & G2 & G3 & G4).
  exists s2, (o1 ++ o2). rewrite (run_app s a b s1 o1 H1), G1. split; [reflexivity|]. split; [exact G2|].
  split; [eapply frame_trans; eauto|exact G4].
Qed.
Lemma after_setup s u h sz lu (ops : list op) : Inv s -> reads D s u = Some (sz, lu) -> reads D s h = None -> u <> h ->
  (forall s1 oh, Inv s1 -> objs s1 !! h = Some oh -> o_size oh = sz -> detaches s1 h ops) ->
  exists s' outs, run D s (setup h u ++ ops) = Ok (s', outs) /\ reads D s' u = Some (sz, lu).
Proof.
  intros HI Hu Hh Hne HD. rewrite (reads_abs D s u HI) in Hu. apply abs_lookup in Hu as (ou & Eu & Vu).
  rewrite (reads_abs D s h HI) in Hh. apply abs_lookup_None in Hh.
  destruct (setup_run s u h ou HI Eu Hh Hne) as (s1 & oh & H1 & H2 & H3 & H4 & H5 & H6).
  assert (Hs : o_size ou = sz) by (apply (f_equal fst) in Vu; exact Vu).
  destruct (HD s1 oh H2 H4 (eq_trans H5 Hs)) as (s2 & o2 & G1 & G2 & G3 & G4).
  exists s2, ([ONone; ONone] ++ o2). rewrite (run_app s _ ops s1 _ H1), G1. split; [reflexivity|].
  rewrite (reads_frame s1 s2 h u H2 G2 G3 Hne), (reads_frame s s1 h u HI H2 H3 Hne), (reads_abs D s u HI).
  unfold abs. rewrite lookup_fmap, Eu. cbn. rewrite Vu. reflexivity.
Qed.
Lemma detach_rescale s h oh a z : Inv s -> objs s !! h = Some oh -> fst (fst (o_size oh)) = snd (fst (o_size oh)) ->
  detaches s h [OScaledId h a z].
Proof.
  intros HI Ho Hs. destruct (step_scaled s h oh a z HI Ho) as (s' & H1 & H2 & H3 & H4).
  exists s', [ONone]. rewrite (run_cons s _ [] s' ONone H1). split; [reflexivity|]. auto.
Qed.
Lemma assign_self s h oh : objs s !! h = Some oh -> step D s (OAssign h h) = Ok (s, ONone).
Proof. intros Ho. simpl. rewrite bool_decide_eq_true_2 by reflexivity. unfold get_obj. rewrite Ho. reflexivity. Qed.
Lemma detach_conj s h oh g : Inv s -> objs s !! h = Some oh -> detaches s h (tran_ops h (Conj g)).
Proof.
  intros HI Ho. destruct (step_update s h oh g HI Ho) as (s' & H1 & H2 & H3 & H4).
  exists s', [ONone; ONone]. unfold tran_ops. rewrite (run_cons s _ _ s ONone (assign_self s h oh Ho)), (run_cons s _ [] s' ONone H1).
  split; [reflexivity|]. auto.
Qed.
Lemma detach_keep s h oh ops : objs s !! h = Some oh -> detaches s h ops -> detaches s h (OAssign h h :: ops).
Proof.
  intros Ho (s' & outs & H1 & H2). exists s', (ONone :: outs). rewrite (run_cons s _ ops s ONone (assign_self s h oh Ho)), H1.
  split; [reflexivity|exact H2].
Qed.

(** *** The matrix is left alone *)
Lemma rbfgs_safe s u h n k lu z i its : Inv s -> reads D s u = Some ((n, n, k), lu) -> reads D s h = None -> u <> h ->
  (it_rescale i <> None \/ it_tran i <> Keep) ->
  exists s' outs, run D s (solver (rbfgs_ops z) h u (i :: its)) = Ok (s', outs) /\ reads D s' u = Some ((n, n, k), lu).
Proof.
  intros HI Hu Hh Hne Hc. unfold solver. apply (after_setup s u h (n, n, k) lu _ HI Hu Hh Hne).
  intros s1 oh HI1 Ho Hs. cbn [map concat]. apply detach_then; [|apply concat_hop; intros; apply rbfgs_hop].
  unfold rbfgs_ops. destruct (it_rescale i) as [a|] eqn:Er; cbn [rescale_ops].
  - apply (detach_then s1 h [OScaledId h a z]); [eapply detach_rescale; eauto; rewrite Hs; reflexivity|].
    apply Forall_app. split; [apply tran_hop|apply update_hop].
  - destruct (it_tran i) as [|g] eqn:Et; [destruct Hc as [Hc|Hc]; contradiction|].
    cbn [app]. apply detach_then; [eapply detach_conj; eauto|apply update_hop].
Qed.
Lemma rwrbfgs_safe s u h n k lu z i its : Inv s -> reads D s u = Some ((n, n, k), lu) -> reads D s h = None -> u <> h ->
  (it_rescale i <> None \/ (it_tran i <> Keep /\ it_update i = None)) ->
  exists s' outs, run D s (solver (rwrbfgs_ops z) h u (i :: its)) = Ok (s', outs) /\ reads D s' u = Some ((n, n, k), lu).
Proof.
  intros HI Hu Hh Hne Hc. unfold solver. apply (after_setup s u h (n, n, k) lu _ HI Hu Hh Hne).
  intros s1 oh HI1 Ho Hs. cbn [map concat]. apply detach_then; [|apply concat_hop; intros; apply rwrbfgs_hop].
  unfold rwrbfgs_ops. destruct (it_rescale i) as [a|] eqn:Er; cbn [rescale_ops].
  - apply (detach_then s1 h [OScaledId h a z]); [eapply detach_rescale; eauto; rewrite Hs; reflexivity|].
    apply Forall_app. split; [apply update_hop|apply tran_hop].
  - destruct Hc as [Hc|[Hc Hn]]; [contradiction|]. rewrite Hn. destruct (it_tran i) as [|g] eqn:Et; [contradiction|].
    cbn [app update_ops]. eapply detach_conj; eauto.
Qed.
Lemma rbfgssub_safe s u h n k lu one z i its : Inv s -> reads D s u = Some ((n, n, k), lu) -> reads D s h = None -> u <> h ->
  (it_rescale i = None -> it_update i = None) ->
  exists s' outs, run D s (solver (rbfgssub_ops one z) h u (i :: its)) = Ok (s', outs) /\ reads D s' u = Some ((n, n, k), lu).
Proof.
  intros HI Hu Hh Hne Hc. unfold solver. apply (after_setup s u h (n, n, k) lu _ HI Hu Hh Hne).
  intros s1 oh HI1 Ho Hs. cbn [map concat]. apply detach_then; [|apply concat_hop; intros; apply rbfgssub_hop].
  unfold rbfgssub_ops. destruct (it_rescale i) as [a|] eqn:Er; cbn [rescale_ops].
  - apply (detach_then s1 h [OScaledId h a z]); [eapply detach_rescale; eauto; rewrite Hs; reflexivity|].
    apply Forall_app. split; [apply tran_hop|]. destruct (it_update i); [apply rank1_hop|repeat constructor].
  - rewrite (Hc eq_refl). destruct (it_tran i) as [|g].
    + cbn [app tran_ops]. eapply detach_keep; eauto. eapply detach_rescale; eauto. rewrite Hs. reflexivity.
    + cbn [app]. apply (detach_then s1 h (tran_ops h (Conj g))); [eapply detach_conj; eauto|repeat constructor].
Qed.

(** *** The matrix is overwritten *)
Definition apply_all (l : list (option V)) (gs : list (nat -> V -> V)) : list (option V) :=
  foldl (fun l g => imap (fun i c => g i <$> c) l) l gs.
Lemma rank1_run : forall gs s h o c d l, Inv s -> objs s !! h = Some o -> o_share o = Some c -> o_space o = Some d -> datas s !! d = Some l ->
  exists s' outs, run D s (rank1_ops h gs) = Ok (s', outs) /\ Inv s' /\ objs s' = objs s /\ datas s' !! d = Some (apply_all l gs).
Proof.
  induction gs as [|g gs IH]; intros s h o c d l HI Ho Hc Hd Hl.
  - exists s, []. auto.
  - unfold rank1_ops. cbn [map concat app].
    pose proof (step_raw s h o c d l g HI Ho Hc Hd Hl) as Hs.
    destruct (IH (upd s d (imap (fun i c => g i <$> c) l)) h o c d (imap (fun i c => g i <$> c) l)) as (s' & outs & G1 & G2 & G3 & G4); auto.
    + eapply upd_Inv; eauto. apply imap_length.
    + cbn. apply lookup_insert.
    + exists s', (ONone :: ONone :: outs). rewrite (run_cons s _ _ s ONone (assign_self s h o Ho)), (run_cons s _ _ _ _ Hs).
      fold (rank1_ops h gs). rewrite G1. cbn [rbind fst snd]. auto.
Qed.
Lemma overwritten s u h sz l gs (pre rest : list op) : Inv s -> reads D s u = Some (sz, Some l) -> reads D s h = None -> u <> h ->
  (pre = [] \/ pre = [OAssign h h]) -> Forall (hop h) rest -> Forall (fun x => ~ is_raw x) rest ->
  exists s' outs, run D s (setup h u ++ pre ++ rank1_ops h gs ++ rest) = Ok (s', outs) /\ reads D s' u = Some (sz, Some (apply_all l gs)).
Proof.
  intros HI Hu Hh Hne HP HF HR. rewrite (reads_abs D s u HI) in Hu. apply abs_lookup in Hu as (ou & Eu & Vu).
  rewrite (reads_abs D s h HI) in Hh. apply abs_lookup_None in Hh.
  destruct (setup_run s u h ou HI Eu Hh Hne) as (s1 & oh & H1 & H2 & H3 & H4 & H5 & H6).
  assert (exists op, run D s1 pre = Ok (s1, op)) as [op HPr].
  { destruct HP as [->| ->]; [exists []; reflexivity|]. exists [ONone]. rewrite (run_cons s1 _ [] s1 ONone (assign_self s1 h oh H4)). reflexivity. }
  unfold absv in Vu. injection Vu as V1 V2. destruct (o_space ou) as [d|] eqn:Ed; [|discriminate]. cbn in V2.
  destruct (inv_share_space s1 h oh d H2 H4 H6) as [c Hc].
  destruct (H3 u Hne) as [Eu1 Vu1]. specialize (Vu1 ou Eu). unfold absv in Vu1. rewrite Ed in Vu1. cbn in Vu1. injection Vu1 as Vd.
  rewrite V2 in Vd.
  destruct (rank1_run gs s1 h oh c d l H2 H4 Hc H6 Vd) as (s2 & o2 & G1 & G2 & G3 & G4).
  assert (R2 : reads D s2 u = Some (sz, Some (apply_all l gs))).
  { rewrite (reads_abs D s2 u G2). unfold abs. rewrite lookup_fmap, G3, Eu1, Eu. cbn. unfold absv. rewrite Ed. cbn. rewrite G4, V1. reflexivity. }
  assert (HN : forall ops s2, Inv s2 -> is_Some (objs s2 !! h) -> Forall (hop h) ops -> Forall (fun x => ~ is_raw x) ops ->
     exists s3 outs, run D s2 ops = Ok (s3, outs) /\ reads D s3 u = reads D s2 u).
  { clear -Hne. induction ops as [|x ops IH]; intros s2 HI [o Ho] HF HR; [exists s2, []; auto|].
    inversion_clear HF as [|? ? Hx HF']. inversion_clear HR as [|? ? Hr HR'].
    assert (exists s3, step D s2 x = Ok (s3, ONone) /\ Inv s3 /\ frame s2 s3 h /\ is_Some (objs s3 !! h)) as (s3 & H1 & H2 & H3 & H4).
    { destruct x; cbn in Hx; try contradiction.
      - destruct Hx as [-> ->]. exists s2. rewrite (assign_self s2 h o Ho). eauto 10 using frame_refl.
      - subst. destruct (step_update s2 h o g HI Ho) as (s3 & A1 & A2 & A3 & (o3 & c3 & A4 & _)). eauto 10.
      - subst. destruct (step_scaled s2 h o a z HI Ho) as (s3 & A1 & A2 & A3 & _). exists s3. split; [exact A1|]. split; [exact A2|]. split; [exact A3|].
        pose proof A1 as A. cbn [step] in A. unfold get_obj at 1 in A. rewrite Ho in A. cbn [from_opt rbind] in A.
        destruct (o_size o) as [[r c] k]. destruct (bool_decide (r = c)).
        + destruct (nmow_spec s2 h o HI Ho) as (s1 & c1 & d & l & B1 & B2 & B3 & B4 & B5 & B6 & _).
          destruct (finish_write s2 s1 h o o c1 d l (id_cells r a z l) B3 B2 B4 eq_refl B5 (id_cells_length r a z l)) as (C1 & s' & C2 & C3 & _).
          rewrite B1 in A. cbn [rbind] in A. rewrite C1 in A. cbn [rbind fst snd] in A. rewrite C2 in A. cbn [rbind] in A. injection A as <-.
          destruct C3 as (_ & _ & o' & E & _). eauto.
        + injection A as <-. eauto.
      - exfalso. apply Hr. exact I. }
    destruct (IH s3 H2 H4 HF' HR') as (s4 & o4 & G1 & G2). exists s4, (ONone :: o4).
    rewrite (run_cons s2 x ops s3 ONone H1), G1. split; [reflexivity|]. rewrite G2. eapply reads_frame; eauto. }
  destruct (HN rest s2 G2) as (s3 & o3 & N1 & N2); auto.
  { rewrite G3, H4. eauto. }
  exists s3, ([ONone; ONone] ++ op ++ o2 ++ o3). rewrite (run_app s _ _ s1 _ H1), (run_app s1 _ _ s1 _ HPr), (run_app s1 _ _ s2 _ G1), N1. split; [reflexivity|].
  rewrite N2. exact R2.
Qed.
Lemma rbfgs_over s u h sz l z gs : Inv s -> reads D s u = Some (sz, Some l) -> reads D s h = None -> u <> h ->
  exists s' outs, run D s (solver (rbfgs_ops z) h u [mkIter None Keep (Some gs)]) = Ok (s', outs) /\
    reads D s' u = Some (sz, Some (apply_all l gs)).
Proof.
  intros HI Hu Hh Hne.
  exact (overwritten s u h sz l gs [OAssign h h] [] HI Hu Hh Hne (or_intror eq_refl) (Forall_nil_2 _) (Forall_nil_2 _)).
Qed.
Lemma rwrbfgs_over s u h sz l z t gs : Inv s -> reads D s u = Some (sz, Some l) -> reads D s h = None -> u <> h ->
  exists s' outs, run D s (solver (rwrbfgs_ops z) h u [mkIter None t (Some gs)]) = Ok (s', outs) /\
    reads D s' u = Some (sz, Some (apply_all l gs)).
Proof.
  intros HI Hu Hh Hne.
  assert (HR : Forall (fun x => ~ is_raw x) (tran_ops h t)) by (destruct t; repeat constructor; intros []).
  destruct (overwritten s u h sz l gs [] (tran_ops h t) HI Hu Hh Hne (or_introl eq_refl) (tran_hop h t) HR) as (s' & outs & H1 & H2).
  exists s', outs. split; [|exact H2]. rewrite <- H1. unfold solver, rwrbfgs_ops. cbn [map concat it_rescale it_tran it_update rescale_ops update_ops app].
  rewrite app_nil_r. reflexivity.
Qed.
End proofs.
