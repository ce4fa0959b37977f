(** Consequences of the simulation in the form used by the property theorems, and witnesses
    for the statements that are false of the code. *)
From stdpp Require Import gmap list.
From Coq Require Import ZArith Lia.
From Verif Require Import SmartSpaceModel SmartSpaceSpec SmartSpaceProofs SmartSpaceSim.
Open Scope nat_scope.

Section facts.
Context {V FV : Type}.
Context (D : nat -> shape -> list (option V) -> FV).
Notation obj := (@obj FV).
Notation st := (@st V FV).
Notation op := (@op V).
Implicit Types (s : st) (o : obj).

Lemma reads_abs s n : Inv s -> reads D s n = abs s !! n.
Proof.
  intros HI. unfold reads, abs. rewrite lookup_fmap. simpl. unfold get_obj.
  destruct (objs s !! n) as [o|] eqn:Eo; simpl; [|reflexivity]. unfold absv.
  destruct (o_space o) as [d|] eqn:Ed; simpl; [|reflexivity].
  destruct (inv_share_space s n o d HI Eo Ed) as [c Hc].
  destruct (inv_mem s n o c HI Eo Hc) as (d' & k' & l & Hd' & Hk & Hl & _).
  assert (d' = d) as -> by congruence. unfold get_data. rewrite Hl. reflexivity.
Qed.

Lemma reach_Inv ops s outs : run D init_st ops = Ok (s, outs) -> Inv s.
Proof.
  intros H. pose proof (run_safe D init_st ops Inv_init) as G. rewrite H in G. exact G.
Qed.

Lemma value_semantics ops m outs :
  Forall value_op ops -> spec_run D ∅ ops = Some (m, outs) ->
  exists s, run D init_st ops = Ok (s, outs) /\ forall n, reads D s n = m !! n.
Proof.
  intros H1 H2. destruct (run_sim_value D init_st ops m outs) as (s & G1 & G2 & G3 & G4); auto.
  - apply Inv_init. - apply Shapes_init. - rewrite abs_init. exact H2.
  - exists s. split; [exact G1|]. intros n. rewrite (reads_abs s n G2), G4. reflexivity.
Qed.

Lemma cache_semantics ops m outs :
  Forall cache_op ops -> spec_run D ∅ ops = Some (m, outs) ->
  exists s, run D init_st ops = Ok (s, outs) /\ forall n, reads D s n = m !! n.
Proof.
  intros H1 H2. destruct (run_sim_cache D init_st ops m outs) as (s & G1 & G2 & G3 & G4 & G5); auto.
  - apply Inv_init. - apply Shapes_init. - apply Coh_init. - rewrite abs_init. exact H2.
  - exists s. split; [exact G1|]. intros n. rewrite (reads_abs s n G2), G5. reflexivity.
Qed.

Lemma no_undefined ops : run D init_st ops <> Err Undef.
Proof.
  intros H. pose proof (run_safe D init_st ops Inv_init) as G. rewrite H in G. exact G.
Qed.

Lemma ownership ops s outs :
  run D init_st ops = Ok (s, outs) ->
  (forall n o c, objs s !! n = Some o -> o_share o = Some c ->
     counts s !! c = Some (Z.of_nat (size (filter (fun p => o_share p.2 = Some c) (objs s)))) ) /\
  (forall n o, objs s !! n = Some o -> is_Some (o_share o) <-> is_Some (o_space o)) /\
  (forall c, is_Some (counts s !! c) -> exists n o, objs s !! n = Some o /\ o_share o = Some c) /\
  (forall d, is_Some (datas s !! d) -> exists n o, objs s !! n = Some o /\ o_space o = Some d) /\
  (objs s = ∅ -> counts s = ∅ /\ datas s = ∅).
Proof.
  intros H. apply reach_Inv in H as HI.
  assert (Hcnt : forall c, is_Some (counts s !! c) -> exists n o, objs s !! n = Some o /\ o_share o = Some c).
  { intros c [k Hk]. destruct (inv_count s HI c k Hk). apply owners_ex. lia. }
  assert (Hdat : forall d, is_Some (datas s !! d) -> exists n o, objs s !! n = Some o /\ o_space o = Some d).
  { intros d [l Hl]. apply (inv_data s HI d l Hl). }
  split.
  { intros n o c Ho Hc. destruct (inv_mem s n o c HI Ho Hc) as (d & k & l & Hd & Hk & Hl & Hlen & Hkk & Hpos).
    rewrite Hk, Hkk. reflexivity. }
  split.
  { intros n o Ho. destruct (inv_wf s HI n o Ho) as [_ [[H1 H2]|(c & d & k & l & H1 & H2 & _)]]; rewrite H1, H2;
      split; intros [? ?]; try discriminate; eauto. }
  split; [exact Hcnt|]. split; [exact Hdat|].
  intros He. split; apply map_eq; intros i; rewrite lookup_empty; apply eq_None_not_Some; intros Hi.
  - destruct (Hcnt i Hi) as (n & o & Ho & _). rewrite He, lookup_empty in Ho. discriminate.
  - destruct (Hdat i Hi) as (n & o & Ho & _). rewrite He, lookup_empty in Ho. discriminate.
Qed.

Lemma isolation ops s outs (o : op) s' out n :
  run D init_st ops = Ok (s, outs) -> ~ is_raw o -> step D s o = Ok (s', out) -> n <> target o ->
  reads D s' n = reads D s n.
Proof.
  intros H Hr Hs Hn. apply reach_Inv in H as HI.
  pose proof (step_safe D s o HI) as G. rewrite Hs in G. destruct G as [HI' [Hx|HF]]; [contradiction|].
  rewrite (reads_abs s' n HI'), (reads_abs s n HI). unfold abs. rewrite !lookup_fmap.
  destruct (HF n Hn) as [E Hv]. rewrite E. destruct (objs s !! n) as [on|] eqn:En; [|reflexivity].
  simpl. f_equal. apply Hv. reflexivity.
Qed.

Lemma assign_contents ops s outs n m vn szm lm :
  run D init_st ops = Ok (s, outs) -> reads D s n = Some vn -> reads D s m = Some (szm, lm) ->
  exists s' szn, step D s (OAssign n m) = Ok (s', ONone) /\
    reads D s' n = Some (szn, lm) /\ (szn = szm \/ szn = fst vn) /\ volume szn = volume szm.
Proof.
  intros H Hn Hm. apply reach_Inv in H as HI. rewrite (reads_abs s n HI) in Hn. rewrite (reads_abs s m HI) in Hm.
  apply abs_lookup in Hn as (dst & En & Hvn). apply abs_lookup in Hm as (src & Em & Hvm).
  simpl. destruct (bool_decide (n = m)) eqn:Enm.
  - apply bool_decide_eq_true in Enm. subst m. unfold get_obj. rewrite En. simpl.
    exists s, szm. split; [reflexivity|]. assert (dst = src) as -> by congruence.
    rewrite (reads_abs s n HI). unfold abs. rewrite lookup_fmap, En. simpl. rewrite Hvm. auto.
  - apply bool_decide_eq_false in Enm.
    destruct (element_copy_to_spec s m n src dst HI Em En (not_eq_sym Enm)) as (s' & o' & H1 & H2 & H3 & H4 & H5 & H6 & H7 & H8).
    rewrite H1. simpl. exists s', (o_size o'). split; [reflexivity|].
    rewrite (reads_abs s' n H2). unfold abs. rewrite lookup_fmap, H4. simpl.
    split; [f_equal; rewrite (surjective_pairing (absv s' o')), H6, Hvm; reflexivity|].
    assert (Hsm : o_size src = szm) by (apply (f_equal fst) in Hvm; exact Hvm).
    assert (Hsn : o_size dst = fst vn) by (rewrite <- Hvn; reflexivity).
    destruct (same_space (o_space dst) (o_space src)) eqn:Ess.
    + split; [right; congruence|]. rewrite H7, <- Hsm.
      unfold same_space in Ess. destruct (o_space dst) as [x|] eqn:Ex; [|discriminate].
      destruct (o_space src) as [y|] eqn:Ey; [|discriminate]. apply bool_decide_eq_true in Ess. subst y.
      rewrite <- (wf_len s dst (inv_wf s HI n dst En)), <- (wf_len s src (inv_wf s HI m src Em)).
      destruct (inv_share_space s n dst x HI En Ex) as [cx Hcx].
      destruct (inv_share_space s m src x HI Em Ey) as [cy Hcy].
      destruct (inv_mem s n dst cx HI En Hcx) as (d1 & k1 & l1 & Hd1 & _ & Hl1 & Hlen1 & _).
      destruct (inv_mem s m src cy HI Em Hcy) as (d2 & k2 & l2 & Hd2 & _ & Hl2 & Hlen2 & _).
      assert (d1 = d2) as -> by congruence. assert (l1 = l2) as -> by congruence. congruence.
    + split; [left; congruence|congruence].
Qed.

(** When no variable was reshaped, the shape follows too. *)
Lemma assign_exact ops s outs n m v vn :
  Forall cache_op ops -> spec_run D ∅ ops = Some (v, outs) ->
  run D init_st ops = Ok (s, outs) -> reads D s n = Some vn -> forall vm, reads D s m = Some vm ->
  exists s', step D s (OAssign n m) = Ok (s', ONone) /\ reads D s' n = Some vm /\ reads D s' m = Some vm.
Proof.
  intros H1 H2 H3 Hn vm Hm.
  destruct (run_sim_cache D init_st ops v outs) as (s1 & G1 & G2 & G3 & G4 & G5); auto.
  - apply Inv_init. - apply Shapes_init. - apply Coh_init. - rewrite abs_init. exact H2.
  - assert (s1 = s) as -> by congruence.
    rewrite (reads_abs s n G2) in Hn. rewrite (reads_abs s m G2) in Hm.
    destruct (step_sim D s (OAssign n m) (<[n := vm]> (abs s)) ONone G2 G3 I) as (s2 & A1 & A2 & A3 & A4 & _).
    + intros [].
    + simpl. rewrite Hn, Hm. reflexivity.
    + exists s2. split; [exact A1|]. rewrite !(reads_abs s2 _ A2), A4, lookup_insert. split; [reflexivity|].
      destruct (decide (m = n)) as [->|Hne]; [apply lookup_insert|]. rewrite lookup_insert_ne by congruence. exact Hm.
Qed.

(** SubmatrixAssignment on a variable whose storage is not shared. *)
Lemma sub_assign_unshared ops s outs n ws sz l l' :
  run D init_st ops = Ok (s, outs) -> reads D s n = Some (sz, Some l) ->
  (forall o c, objs s !! n = Some o -> o_share o = Some c -> counts s !! c = Some 1%Z) ->
  put l ws = Some l' ->
  exists s', step D s (OSubAssign n ws) = Ok (s', ONone) /\ reads D s' n = Some (sz, Some l').
Proof.
  intros H Hn Hu Hput. apply reach_Inv in H as HI. rewrite (reads_abs s n HI) in Hn.
  apply abs_lookup in Hn as (o & En & Hv).
  simpl. unfold remove_fields, get_obj. rewrite En. simpl.
  set (o1 := mkObj (o_size o) (o_len o) (o_share o) (o_space o) ∅).
  assert (HI1 : Inv (upd_obj s n o1)) by (apply (upd_obj_Inv s n o); auto).
  destruct (o_space o) as [d|] eqn:Ed; [|unfold absv in Hv; rewrite Ed in Hv; discriminate].
  destruct (inv_share_space s n o d HI En Ed) as [c Hc].
  destruct (inv_mem s n o c HI En Hc) as (d1 & k1 & l1 & Hd1 & Hk1 & Hl1 & Hlen1 & _).
  assert (d1 = d) as -> by congruence. specialize (Hu o c En Hc).
  assert (l1 = l) as -> by (unfold absv in Hv; rewrite Ed in Hv; simpl in Hv; congruence).
  unfold new_memory_on_write, get_obj. simpl. rewrite lookup_insert. simpl. rewrite Hc. unfold get_count. simpl.
  rewrite Hu. simpl. unfold data_of, get_obj, get_data, deref. simpl. rewrite lookup_insert. simpl. rewrite Hl1. simpl.
  rewrite stores_put, Hput. simpl. unfold set_data. simpl. rewrite Hl1. simpl.
  eexists. split; [reflexivity|].
  unfold reads. simpl. unfold get_obj. simpl. rewrite lookup_insert. simpl. unfold get_data. simpl.
  rewrite lookup_insert. simpl. do 2 f_equal. apply (f_equal fst) in Hv. exact Hv.
Qed.

End facts.

(** ** Witnesses.  Entries are integers; the "decomposition" is the pair (shape, contents),
    so that a stale one can be seen. *)
Definition wD (k : nat) (sz : shape) (l : list (option Z)) : shape * list (option Z) := (sz, l).

(** C03: x = (2x3 array); y(x); y.Reshape(3,2); x = y leaves x of shape 2x3. *)
Definition w_reshape : list (op (V := Z)) :=
  [ONew 0 (2,3,1); OWriteAll 0 [1;2;3;4;5;6]%Z; OCopy 1 0; OReshape 1 (3,2,1); OAssign 0 1].

Lemma assign_shape_witness :
  exists s outs, run wD init_st w_reshape = Ok (s, outs) /\
    option_map fst (reads wD s 1) = Some (3,2,1) /\ option_map fst (reads wD s 0) = Some (2,3,1).
Proof. eexists _, _. split; [vm_compute; reflexivity|]. split; vm_compute; reflexivity. Qed.

(** C04: y(x); y.Conj() (or y.HaddRankone) changes x. *)
Definition w_raw : list (op (V := Z)) :=
  [ONew 0 (2,1,1); OWriteAll 0 [1;2]%Z; OCopy 1 0].

Lemma raw_witness :
  exists s outs s', run wD init_st w_raw = Ok (s, outs) /\
    step wD s (ORawUpdate 1 (fun i x => if Nat.odd i then (- x)%Z else x)) = Ok (s', ONone) /\
    reads wD s 0 = Some ((2,1,1), Some [Some 1; Some 2]%Z) /\
    reads wD s' 0 = Some ((2,1,1), Some [Some 1; Some (-2)]%Z).
Proof. eexists _, _, _. split; [vm_compute; reflexivity|]. split; [vm_compute; reflexivity|]. split; vm_compute; reflexivity. Qed.

(** C05: decompose, change the contents in place, decompose again: same factors. *)
Definition w_stale (o : op (V := Z)) : list (op (V := Z)) :=
  [ONew 0 (2,2,1); OWriteAll 0 [4;1;2;5]%Z; ODecomp 0 7; o; ODecomp 0 7; ORead 0].

Definition stale (outs : list (out (V := Z) (FV := shape * list (option Z)))) : Prop :=
  exists f sz l, last outs = Some (OData sz (Some l)) /\ outs !! 4 = Some (OField f) /\ f <> (sz, l).

Lemma stale_reshape : exists s outs, run wD init_st (w_stale (OReshape 0 (4,1,1))) = Ok (s, outs) /\ stale outs.
Proof.
  eexists _, _. split; [vm_compute; reflexivity|]. eexists _, _, _.
  split; [vm_compute; reflexivity|]. split; [vm_compute; reflexivity|]. intros H; vm_compute in H; discriminate.
Qed.
Lemma stale_raw : exists s outs, run wD init_st (w_stale (ORawUpdate 0 (fun _ x => x + 1)%Z)) = Ok (s, outs) /\ stale outs.
Proof.
  eexists _, _. split; [vm_compute; reflexivity|]. eexists _, _, _.
  split; [vm_compute; reflexivity|]. split; [vm_compute; reflexivity|]. intros H; vm_compute in H; discriminate.
Qed.
Lemma stale_scaledid : exists s outs, run wD init_st (w_stale (OScaledId 0 1 0)%Z) = Ok (s, outs) /\ stale outs.
Proof.
  eexists _, _. split; [vm_compute; reflexivity|]. eexists _, _, _.
  split; [vm_compute; reflexivity|]. split; [vm_compute; reflexivity|]. intros H; vm_compute in H; discriminate.
Qed.

(** C07: after y(x), y.SubmatrixAssignment(0,0,0,0,5) leaves the rest of y uninitialised. *)
Lemma sub_assign_witness :
  exists s outs s', run wD init_st w_raw = Ok (s, outs) /\
    step wD s (OSubAssign 1 [(0, 5%Z)]) = Ok (s', ONone) /\
    reads wD s 1 = Some ((2,1,1), Some [Some 1; Some 2]%Z) /\
    reads wD s' 1 = Some ((2,1,1), Some [Some 5%Z; None]).
Proof. eexists _, _, _. split; [vm_compute; reflexivity|]. split; [vm_compute; reflexivity|]. split; vm_compute; reflexivity. Qed.

(** Non-vacuity: a program exercising every covered operation is accepted by the spec. *)
Definition ex_ops : list (op (V := Z)) :=
  [ONew 0 (2,2,1); OWriteAll 0 [4;1;2;5]%Z; OCopy 1 0; OWriteAt 1 3 7%Z; OZip 0 1 Z.add; OCopy 2 0;
   OUpdate 2 (fun _ x => x * 2)%Z; OAssign 1 2; OZeros 2 0%Z; OScaledId 0 3%Z 0%Z;
   ORead 0; ORead 1; ORead 2; ODestroy 0; ODestroy 1; ODestroy 2].
Example ex_value_ops : Forall value_op ex_ops.
Proof. repeat constructor. Qed.
Example ex_value_run : exists m outs, spec_run wD ∅ ex_ops = Some (m, outs) /\
  outs !! 11 = Some (OData (2,2,1) (Some [Some 16; Some 4; Some 8; Some 24]%Z)).
Proof. eexists _, _. split; vm_compute; reflexivity. Qed.

Definition ex_cops : list (op (V := Z)) :=
  [ONew 0 (2,2,1); OWriteAll 0 [4;1;2;5]%Z; ODecomp 0 1; OCopy 1 0; ODecomp 1 1; OWriteAt 1 3 7%Z; ODecomp 1 1;
   ODecomp 0 1; OAssign 0 1; ODecomp 0 1; OUpdate 0 (fun _ x => x * 2)%Z; ODecomp 0 1; ODecomp 1 1].
Example ex_cache_ops : Forall cache_op ex_cops.
Proof. repeat constructor. Qed.
Example ex_cache_run : exists m outs, spec_run wD ∅ ex_cops = Some (m, outs) /\
  outs !! 11 = Some (OField ((2,2,1), [Some 8; Some 2; Some 4; Some 14]%Z)).
Proof. eexists _, _. split; vm_compute; reflexivity. Qed.
