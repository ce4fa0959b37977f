(** Proofs about FieldsModel.v. *)
From Coq Require Import String List Bool Arith Lia.
From Verif Require Import FieldsModel FieldsSpec.
Import ListNotations.
Local Open Scope list_scope.

Section proofs.
Context {V : Type}.
Notation elem := (elem V).
Implicit Types a b c x y : elem.
Implicit Types fs fsa fsb : list (string * elem).
Implicit Types cs csa base : list elem.
Implicit Types e : elem.

(** ** Induction *)
Section ind.
Variable P : elem -> Prop.
Hypothesis H : forall m d t cs fs,
  Forall (fun c => P c /\ Forall (fun p => P (snd p)) (fields c)) cs ->
  Forall (fun p => P (snd p)) fs -> P (Elem m d t cs fs).
Fixpoint elem_both (e : elem) : P e /\ Forall (fun p => P (snd p)) (fields e) :=
  match e with
  | Elem m d t cs fs =>
      let Hc := (fix go cs : Forall (fun c => P c /\ Forall (fun p => P (snd p)) (fields c)) cs :=
                   match cs with
                   | [] => Forall_nil _
                   | c :: cs => Forall_cons _ (elem_both c) (go cs)
                   end) cs in
      let Hf := (fix go fs : Forall (fun p => P (snd p)) fs :=
                   match fs with
                   | [] => Forall_nil _
                   | (n, x) :: fs => Forall_cons (n, x) (proj1 (elem_both x)) (go fs)
                   end) fs in
      conj (H m d t cs fs Hc Hf) Hf
  end.
Lemma elem_ind2 : forall e, P e.
Proof. intro e. apply elem_both. Qed.
End ind.

(** ** Maps *)
Lemma get_in n x fs : get n fs = Some x -> In (n, x) fs.
Proof.
  induction fs as [|(k & y) fs IH]; cbn; [discriminate|].
  destruct (String.eqb_spec k n) as [->|]; [intros [= ->]; left; reflexivity|intro E; right; exact (IH E)].
Qed.
Lemma get_none n fs : get n fs = None <-> ~ In n (map fst fs).
Proof.
  induction fs as [|(k & y) fs IH]; cbn; [tauto|].
  destruct (String.eqb_spec k n) as [->|Hn]; [split; [discriminate|tauto]|].
  rewrite IH. tauto.
Qed.
Lemma get_some n fs : In n (map fst fs) -> exists x, get n fs = Some x.
Proof.
  intro Hi. destruct (get n fs) eqn:E; [eauto|]. apply get_none in E. contradiction.
Qed.
Lemma get_put n y k fs : get k (put n y fs) =
  if String.eqb k n then match get n fs with Some _ => Some y | None => None end else get k fs.
Proof.
  induction fs as [|(k' & x) fs IH]; cbn; [destruct (String.eqb k n); reflexivity|].
  destruct (String.eqb_spec k' n) as [->|Hn].
  - cbn. destruct (String.eqb_spec n k) as [->|Hk]; [rewrite String.eqb_refl; reflexivity|].
    destruct (String.eqb_spec k n); [congruence|reflexivity].
  - cbn. destruct (String.eqb_spec k' k) as [->|Hk].
    + destruct (String.eqb_spec k n); [congruence|reflexivity].
    + exact IH.
Qed.
Lemma put_names n y fs : map fst (put n y fs) = map fst fs.
Proof.
  induction fs as [|(k & x) fs IH]; cbn; [reflexivity|].
  destruct (String.eqb k n); cbn; [reflexivity|f_equal; exact IH].
Qed.
Lemma get_app n fs fs' : get n (fs ++ fs') = match get n fs with Some x => Some x | None => get n fs' end.
Proof.
  induction fs as [|(k & x) fs IH]; cbn; [reflexivity|]. destruct (String.eqb k n); [reflexivity|exact IH].
Qed.
Lemma get_filter n fs (q : string -> bool) :
  get n (filter (fun p => q (fst p)) fs) = if q n then get n fs else None.
Proof.
  induction fs as [|(k & x) fs IH]; cbn; [destruct (q n); reflexivity|].
  destruct (String.eqb_spec k n) as [->|Hn].
  - destruct (q n) eqn:E; cbn; [rewrite String.eqb_refl; reflexivity|rewrite IH; reflexivity].
  - destruct (q k); cbn; [|exact IH]. destruct (String.eqb_spec k n); [congruence|exact IH].
Qed.
Lemma filter_nodup fs (q : string * elem -> bool) : NoDup (map fst fs) -> NoDup (map fst (filter q fs)).
Proof.
  induction fs as [|p fs IH]; cbn; [auto|]. intro Hd. inversion Hd as [|? ? Hn Hd']; subst.
  destruct (q p); cbn; [|exact (IH Hd')]. constructor; [|exact (IH Hd')].
  intro Hi. apply Hn. apply in_map_iff in Hi as (p' & E & Hi). apply filter_In in Hi as (Hi & _).
  rewrite <- E. apply in_map. exact Hi.
Qed.

(** ** The loop over the fields *)
Section loop.
Variable cp : elem -> elem -> elem.

Lemma copy_fields_get fsa : NoDup (map fst fsa) -> forall fsb n,
  get n (copy_fields cp fsa fsb) =
  match get n fsa with
  | Some x => Some (cp x (match get n fsb with Some y => y | None => blank x end))
  | None => get n fsb
  end.
Proof.
  induction fsa as [|(k & x) fsa IH]; cbn; [reflexivity|]. intros Hd fsb n.
  inversion Hd as [|? ? Hn Hd']; subst. rewrite (IH Hd').
  destruct (String.eqb_spec k n) as [->|Hk].
  - apply get_none in Hn. rewrite Hn. destruct (get n fsb) as [y|] eqn:E.
    + rewrite get_put, String.eqb_refl, E. reflexivity.
    + rewrite get_app, E. cbn. rewrite String.eqb_refl. reflexivity.
  - assert (E : get n (match get k fsb with
                       | Some y => put k (cp x y) fsb
                       | None => fsb ++ [(k, cp x (blank x))]
                       end) = get n fsb).
    { destruct (get k fsb).
      - rewrite get_put. destruct (String.eqb_spec n k); [congruence|reflexivity].
      - rewrite get_app. destruct (get n fsb); [reflexivity|]. cbn.
        destruct (String.eqb_spec k n); [congruence|reflexivity]. }
    rewrite E. reflexivity.
Qed.

Lemma copy_fields_nodup fsa : forall fsb, NoDup (map fst fsb) -> NoDup (map fst (copy_fields cp fsa fsb)).
Proof.
  induction fsa as [|(k & x) fsa IH]; cbn; [auto|]. intros fsb Hd. apply IH.
  destruct (get k fsb) eqn:E; [rewrite put_names; exact Hd|].
  rewrite map_app. cbn. apply get_none in E.
  apply NoDup_rev in Hd. rewrite <- (rev_involutive (_ ++ _)). apply NoDup_rev.
  rewrite rev_app_distr. cbn. constructor; [rewrite <- in_rev; exact E|exact Hd].
Qed.

Lemma copy_fields_new fsa : forall fsb,
  NoDup (map fst fsa) -> (forall n, In n (map fst fsa) -> ~ In n (map fst fsb)) ->
  copy_fields cp fsa fsb = fsb ++ map (fun p => (fst p, cp (snd p) (blank (snd p)))) fsa.
Proof.
  induction fsa as [|(k & x) fsa IH]; cbn; [intros; symmetry; apply app_nil_r|]. intros fsb Hd Ho.
  inversion Hd as [|? ? Hn Hd']; subst.
  assert (E : get k fsb = None) by (apply get_none; apply Ho; left; reflexivity). rewrite E.
  rewrite (IH _ Hd').
  - rewrite <- app_assoc. reflexivity.
  - intros n Hi. rewrite map_app, in_app_iff. cbn. intros [H|[->|[]]]; [exact (Ho n (or_intror Hi) H)|contradiction].
Qed.
End loop.

Lemma prune_get fsa fsb n : NoDup (map fst fsa) -> NoDup (map fst fsb) ->
  (forall k, In k (map fst fsa) -> In k (map fst fsb)) ->
  get n (prune fsa fsb) = match get n fsa with Some _ => get n fsb | None => None end.
Proof.
  intros Ha Hb Hi. unfold prune. destruct (Nat.ltb_spec (List.length fsa) (List.length fsb)) as [Hl|Hl].
  - rewrite (get_filter n fsb (fun k => match get k fsa with Some _ => true | None => false end)).
    destruct (get n fsa); reflexivity.
  - destruct (get n fsa) eqn:E; [reflexivity|].
    apply get_none. apply get_none in E. intro Hn. apply E.
    refine (NoDup_length_incl Ha _ _ n Hn); [rewrite !map_length; exact Hl|exact Hi].
Qed.
Lemma prune_nodup fsa fsb : NoDup (map fst fsb) -> NoDup (map fst (prune fsa fsb)).
Proof. intro H. unfold prune. destruct (_ <? _); [apply filter_nodup; exact H|exact H]. Qed.

(** ** The fields of a copy *)
Definition target (fsb : list (string * elem)) n x := match get n fsb with Some y => y | None => blank x end.

Lemma copied_get fsa fsb n : NoDup (map fst fsa) -> NoDup (map fst fsb) ->
  get n (prune fsa (copy_fields copy_to fsa fsb)) =
  match get n fsa with Some x => Some (copy_to x (target fsb n x)) | None => None end.
Proof.
  intros Ha Hb. rewrite prune_get.
  - rewrite copy_fields_get by exact Ha. destruct (get n fsa); reflexivity.
  - exact Ha.
  - apply copy_fields_nodup. exact Hb.
  - intros k Hk. destruct (get_some k _ Hk) as (x & E).
    destruct (get k (copy_fields copy_to fsa fsb)) eqn:F.
    + apply get_in in F. change k with (fst (k, e)). apply in_map. exact F.
    + rewrite copy_fields_get, E in F by exact Ha. discriminate.
Qed.

Lemma comps_loop csa base : List.length csa = List.length base ->
  copy_comps copy_to csa base =
  map (fun p : elem * elem => Elem (meta (snd p)) (data (snd p)) (types (snd p)) (comps (snd p))
                  (copy_fields copy_to (fields (fst p)) (fields (snd p)))) (combine csa base).
Proof.
  revert base. induction csa as [|[ma da ta ca fa] csa IH]; intros [|[mb db tb cb fb] base]; cbn; try reflexivity; try discriminate.
  intros [= E]. f_equal. exact (IH _ E).
Qed.

(** ** Components *)
Lemma elen_rebind e d : elen (rebind e d) = elen e.
Proof. destruct e; reflexivity. Qed.
Lemma elen_fresh e d : elen (fresh e d) = elen e.
Proof. destruct e; reflexivity. Qed.
Lemma rebind_unfold m d0 t cs fs d : rebind (Elem m d0 t cs fs) d = Elem m d t (rebind_list cs d) fs.
Proof. reflexivity. Qed.
Lemma fresh_unfold m d0 t cs fs d : fresh (Elem m d0 t cs fs) d = Elem m d t (fresh_list cs d) [].
Proof. reflexivity. Qed.
Lemma rebind_lens cs d : map elen (rebind_list cs d) = map elen cs.
Proof. revert d. induction cs as [|c cs IH]; intro d; cbn; [reflexivity|rewrite elen_rebind, IH; reflexivity]. Qed.
Lemma fresh_lens cs d : map elen (fresh_list cs d) = map elen cs.
Proof. revert d. induction cs as [|c cs IH]; intro d; cbn; [reflexivity|rewrite elen_fresh, IH; reflexivity]. Qed.
Lemma data_rebind e d : data (rebind e d) = d.
Proof. destruct e; reflexivity. Qed.
Lemma data_fresh e d : data (fresh e d) = d.
Proof. destruct e; reflexivity. Qed.
Lemma rebind_pieces cs d : pieces (rebind_list cs d) d.
Proof.
  revert d. induction cs as [|c cs IH]; intro d; cbn; [exact I|].
  rewrite data_rebind, elen_rebind. split; [reflexivity|apply IH].
Qed.
Lemma fresh_pieces cs d : pieces (fresh_list cs d) d.
Proof.
  revert d. induction cs as [|c cs IH]; intro d; cbn; [exact I|].
  rewrite data_fresh, elen_fresh. split; [reflexivity|apply IH].
Qed.
Lemma pieces_ext cs cs' d : map elen cs = map elen cs' -> map data cs = map data cs' ->
  pieces cs d -> pieces cs' d.
Proof.
  revert cs' d. induction cs as [|c cs IH]; intros [|c' cs'] d; cbn; try discriminate; auto.
  intros [= E1 E2] [= E3 E4] (P & Q). rewrite <- E1. split; [congruence|eapply IH; eauto].
Qed.
Lemma pieces_det cs cs' d : map elen cs = map elen cs' -> pieces cs d -> pieces cs' d ->
  Forall2 (fun c c' => data c = data c') cs cs'.
Proof.
  revert cs' d. induction cs as [|c cs IH]; intros [|c' cs'] d; cbn; try discriminate; [constructor|].
  intros [= E1 E2] (P & Q) (P' & Q'). rewrite <- E1 in *. constructor; [congruence|eapply IH; eauto].
Qed.

Lemma same_shape_lens ta csa b : same_shape ta csa b = true -> map elen (comps b) = map elen csa.
Proof.
  unfold same_shape. intro H. apply andb_true_iff in H as (_ & H).
  destruct (list_eq_dec _ _ _) as [E|]; [exact E|discriminate].
Qed.
Lemma reset_lens ta csa d b : (ta = [] <-> csa = []) ->
  map elen (reset_comps ta csa d b) = map elen csa.
Proof.
  intro H. unfold reset_comps. destruct ta as [|t0 ta]; cbn [List.length Nat.eqb].
  - destruct H as (H & _). rewrite (H eq_refl). reflexivity.
  - destruct (same_shape _ csa b) eqn:E; [rewrite rebind_lens; exact (same_shape_lens _ _ _ E)|apply fresh_lens].
Qed.
Lemma reset_length ta csa d b : (ta = [] <-> csa = []) ->
  List.length csa = List.length (reset_comps ta csa d b).
Proof. intro H. rewrite <- (map_length elen), <- (reset_lens ta csa d b H). apply map_length. Qed.
Lemma reset_pieces ta csa d b : pieces (reset_comps ta csa d b) d.
Proof.
  unfold reset_comps. destruct (Nat.eqb _ 0); [exact I|].
  destruct (same_shape _ _ _); [apply rebind_pieces|apply fresh_pieces].
Qed.

(** ** Proper elements *)
Lemma proper_inv m d t cs fs : proper (Elem m d t cs fs) ->
  NoDup (map fst fs) /\ (t = [] <-> cs = []) /\ pieces cs d /\ Forall proper cs /\
  Forall (fun p => proper (snd p)) fs.
Proof. inversion 1; subst; cbn in *; auto. Qed.
Lemma proper_mk m d t cs fs :
  NoDup (map fst fs) -> (t = [] <-> cs = []) -> pieces cs d -> Forall proper cs ->
  Forall (fun p => proper (snd p)) fs -> proper (Elem m d t cs fs).
Proof. intros. constructor; cbn; assumption. Qed.
Lemma proper_get fs n x : Forall (fun p => proper (snd p)) fs -> get n fs = Some x -> proper x.
Proof. intros H E. apply get_in in E. rewrite Forall_forall in H. exact (H _ E). Qed.
Lemma proper_fields a : proper a -> NoDup (map fst (fields a)) /\ Forall (fun p => proper (snd p)) (fields a).
Proof. destruct 1; auto. Qed.
Lemma proper_blank a : proper (blank a).
Proof. apply proper_mk; cbn; auto using NoDup_nil. tauto. Qed.

Lemma rebind_nil cs d : rebind_list cs d = [] <-> cs = [].
Proof. destruct cs; cbn; split; congruence. Qed.
Lemma fresh_nil cs d : fresh_list cs d = [] <-> cs = [].
Proof. destruct cs; cbn; split; congruence. Qed.

Lemma rebind_proper e : forall d, proper e -> proper (rebind e d).
Proof.
  induction e as [m d0 t cs fs IHc _] using elem_ind2. intros d H.
  apply proper_inv in H as (H1 & H2 & H3 & H4 & H5). rewrite rebind_unfold.
  apply proper_mk; auto.
  - rewrite rebind_nil. exact H2.
  - apply rebind_pieces.
  - clear - IHc H4. revert d. induction cs as [|c cs IH]; intro d; cbn; [constructor|].
    inversion IHc as [|? ? (P & _) IHc']; inversion H4; subst. constructor; auto.
Qed.
Lemma rebind_list_proper cs d : Forall proper cs -> Forall proper (rebind_list cs d).
Proof.
  intro H. revert d. induction H as [|c cs Hc H IH]; intro d; cbn; constructor; auto using rebind_proper.
Qed.
Lemma fresh_proper e : forall d, proper e -> proper (fresh e d).
Proof.
  induction e as [m d0 t cs fs IHc _] using elem_ind2. intros d H.
  apply proper_inv in H as (H1 & H2 & H3 & H4 & H5). rewrite fresh_unfold.
  apply proper_mk; cbn; auto using NoDup_nil.
  - rewrite fresh_nil. exact H2.
  - apply fresh_pieces.
  - clear - IHc H4. revert d. induction cs as [|c cs IH]; intro d; cbn; [constructor|].
    inversion IHc as [|? ? (P & _) IHc']; inversion H4; subst. constructor; auto.
Qed.
Lemma fresh_list_proper cs d : Forall proper cs -> Forall proper (fresh_list cs d).
Proof.
  intro H. revert d. induction H as [|c cs Hc H IH]; intro d; cbn; constructor; auto using fresh_proper.
Qed.

Lemma proper_all fs : NoDup (map fst fs) ->
  (forall n x, get n fs = Some x -> proper x) -> Forall (fun p => proper (snd p)) fs.
Proof.
  intros Hd H. apply Forall_forall. intros (n & x) Hi. cbn. apply (H n).
  clear H. induction fs as [|(k & y) fs IH]; [contradiction|]. cbn in *.
  inversion Hd as [|? ? Hn Hd']; subst. destruct Hi as [[= -> ->]|Hi]; [rewrite String.eqb_refl; reflexivity|].
  destruct (String.eqb_spec k n) as [->|]; [|exact (IH Hd' Hi)].
  exfalso. apply Hn. change n with (fst (n, x)). apply in_map. exact Hi.
Qed.

Lemma target_proper fsb n x : Forall (fun p => proper (snd p)) fsb -> proper (target fsb n x).
Proof.
  intro H. unfold target. destruct (get n fsb) eqn:E; [exact (proper_get _ _ _ H E)|apply proper_blank].
Qed.

Lemma copy_fields_proper fsa fsb :
  NoDup (map fst fsa) -> Forall (fun p => proper (snd p)) fsa ->
  Forall (fun p => forall b, proper (snd p) -> proper b -> proper (copy_to (snd p) b)) fsa ->
  NoDup (map fst fsb) -> Forall (fun p => proper (snd p)) fsb ->
  Forall (fun p => proper (snd p)) (copy_fields copy_to fsa fsb).
Proof.
  intros Ha Pa IH Hb Pb. apply proper_all; [apply copy_fields_nodup; exact Hb|].
  intros n x. rewrite copy_fields_get by exact Ha. destruct (get n fsa) as [x0|] eqn:E.
  - intros [= <-]. assert (Hi := get_in _ _ _ E). rewrite Forall_forall in IH. apply (IH _ Hi).
    + exact (proper_get _ _ _ Pa E).
    + exact (target_proper fsb n x0 Pb).
  - exact (proper_get fsb n x Pb).
Qed.

Lemma combine_fst {A B} (l : list A) (l' : list B) p : In p (combine l l') -> In (fst p) l /\ In (snd p) l'.
Proof. destruct p. intro H. split; [exact (in_combine_l _ _ _ _ H)|exact (in_combine_r _ _ _ _ H)]. Qed.

Lemma map_combine_lens (f : elem * elem -> elem) csa base :
  List.length csa = List.length base -> (forall p, elen (f p) = elen (snd p)) ->
  map elen (map f (combine csa base)) = map elen base.
Proof.
  revert base. induction csa as [|c csa IH]; intros [|b base]; cbn; try discriminate; auto.
  intros [= E] H. rewrite H, IH by auto. reflexivity.
Qed.
Lemma map_combine_data (f : elem * elem -> elem) csa base :
  List.length csa = List.length base -> (forall p, data (f p) = data (snd p)) ->
  map data (map f (combine csa base)) = map data base.
Proof.
  revert base. induction csa as [|c csa IH]; intros [|b base]; cbn; try discriminate; auto.
  intros [= E] H. rewrite H, IH by auto. reflexivity.
Qed.

Lemma reset_proper ta csa d b : Forall proper csa -> proper b -> Forall proper (reset_comps ta csa d b).
Proof.
  intros Ha Hb. unfold reset_comps. destruct (Nat.eqb _ 0); [constructor|].
  destruct (same_shape _ _ _); [apply rebind_list_proper; destruct Hb; assumption|apply fresh_list_proper; exact Ha].
Qed.
Lemma reset_types_nil ta csa d b : (ta = [] <-> csa = []) -> proper b ->
  (reset_types ta csa b = [] <-> reset_comps ta csa d b = []).
Proof.
  intros Ha Hb. unfold reset_types, reset_comps. destruct ta as [|t0 ta]; cbn [List.length Nat.eqb]; [tauto|].
  destruct (same_shape _ _ _); [rewrite rebind_nil; destruct Hb; assumption|rewrite fresh_nil; exact Ha].
Qed.

Lemma copy_proper a : forall b, proper a -> proper b -> proper (copy_to a b).
Proof.
  induction a as [ma da ta csa fsa IHc IHf] using elem_ind2. intros b Ha Hb.
  apply proper_inv in Ha as (A1 & A2 & A3 & A4 & A5).
  destruct (proper_fields b Hb) as (B1 & B2). cbn [copy_to].
  assert (L := reset_length ta csa da b A2). rewrite (comps_loop _ _ L).
  apply proper_mk.
  - apply prune_nodup, copy_fields_nodup; exact B1.
  - rewrite (reset_types_nil ta csa da b A2 Hb).
    destruct csa, (reset_comps ta _ da b); try discriminate L; cbn; split; congruence.
  - eapply pieces_ext; [..|apply (reset_pieces ta csa da b)]; symmetry.
    + apply map_combine_lens; [exact L|reflexivity].
    + apply map_combine_data; [exact L|reflexivity].
  - apply Forall_forall. intros c Hc. apply in_map_iff in Hc as ((ca & cb) & <- & Hc). cbn.
    apply combine_fst in Hc as (Hca & Hcb). cbn in Hca, Hcb.
    assert (Pb := reset_proper ta csa da b A4 Hb). rewrite Forall_forall in Pb, A4, IHc.
    specialize (Pb _ Hcb). specialize (A4 _ Hca). destruct (IHc _ Hca) as (_ & IH).
    destruct (proper_fields ca A4) as (C1 & C2). destruct cb as [mb db tb cb fb].
    apply proper_inv in Pb as (D1 & D2 & D3 & D4 & D5). apply proper_mk; cbn; auto.
    + apply copy_fields_nodup; exact D1.
    + apply copy_fields_proper; auto.
  - apply proper_all; [apply prune_nodup, copy_fields_nodup; exact B1|].
    intros n x. rewrite copied_get by assumption. destruct (get n fsa) as [x0|] eqn:E; [|discriminate].
    intros [= <-]. assert (Hi := get_in _ _ _ E). rewrite Forall_forall in IHf. apply (IHf _ Hi).
    + exact (proper_get _ _ _ A5 E).
    + exact (target_proper _ _ _ B2).
Qed.

(** ** What a copy has *)
Lemma Forall2_combine {A B C} (R : A -> C -> Prop) (f : A * B -> C) l l' :
  List.length l = List.length l' -> (forall p, In p (combine l l') -> R (fst p) (f p)) ->
  Forall2 R l (map f (combine l l')).
Proof.
  revert l'. induction l as [|x l IH]; intros [|y l']; cbn; try discriminate; [constructor|].
  intros [= E] H. constructor; [apply (H (x, y)); auto|apply IH; auto].
Qed.

Lemma in_combine_same {A} (f g : elem -> A) l l' : map f l' = map g l ->
  forall p, In p (combine l l') -> f (snd p) = g (fst p).
Proof.
  revert l'. induction l as [|x l IH]; intros [|y l']; cbn; try discriminate; [intros _ p []|].
  intros [= E1 E2] p [<-|Hp]; [exact E1|exact (IH _ E2 p Hp)].
Qed.
Lemma Forall2_combine_in {A B} (R : A -> B -> Prop) l l' : Forall2 R l l' ->
  forall p, In p (combine l l') -> R (fst p) (snd p).
Proof. induction 1; cbn; [intros _ []|intros p [<-|Hp]; auto]. Qed.

Lemma copy_covers a : forall b, proper a -> proper b -> covers true a (copy_to a b).
Proof.
  induction a as [ma da ta csa fsa IHc IHf] using elem_ind2. intros b Ha Hb.
  apply proper_inv in Ha as (A1 & A2 & A3 & A4 & A5).
  destruct (proper_fields b Hb) as (B1 & B2). cbn [copy_to].
  assert (L := reset_length ta csa da b A2). rewrite (comps_loop _ _ L).
  assert (Lm := reset_lens ta csa da b A2).
  assert (Dm := pieces_det _ _ _ (eq_sym Lm) A3 (reset_pieces ta csa da b)).
  constructor; cbn [meta data comps fields]; auto.
  - intros _. apply Forall2_combine; [exact L|]. intros (ca & cb) Hc. cbn.
    assert (E1 := in_combine_same elen elen _ _ Lm _ Hc). assert (E2 := Forall2_combine_in _ _ _ Dm _ Hc).
    cbn in E1, E2. apply combine_fst in Hc as (Hca & Hcb). cbn in Hca, Hcb.
    assert (Pb := reset_proper ta csa da b A4 Hb). rewrite Forall_forall in Pb, A4, IHc.
    specialize (Pb _ Hcb). specialize (A4 _ Hca). destruct (IHc _ Hca) as (_ & IH).
    destruct (proper_fields ca A4) as (C1 & C2). destruct (proper_fields cb Pb) as (D1 & D2).
    constructor; cbn [meta data fields]; try discriminate.
    + symmetry. exact E1.
    + exact E2.
    + intros n x E. rewrite copy_fields_get by exact C1. rewrite E. eexists. split; [reflexivity|].
      assert (Hi := get_in _ _ _ E). rewrite Forall_forall in IH. apply (IH _ Hi).
      * exact (proper_get _ _ _ C2 E).
      * exact (target_proper _ n x D2).
  - intros n x E. rewrite copied_get, E by assumption. eexists. split; [reflexivity|].
    assert (Hi := get_in _ _ _ E). rewrite Forall_forall in IHf. apply (IHf _ Hi).
    + exact (proper_get _ _ _ A5 E).
    + exact (target_proper _ n x B2).
  - intros _ n E. rewrite copied_get, E by assumption. reflexivity.
Qed.

Lemma copy_plain a : forall b, plain a -> proper a -> proper b -> same a (copy_to a b).
Proof.
  induction a as [ma da ta csa fsa _ IHf] using elem_ind2. intros b Pl Ha Hb.
  apply proper_inv in Ha as (A1 & A2 & A3 & A4 & A5). inversion Pl as [? P1 P2]; subst. cbn in P1, P2. subst csa.
  destruct A2 as (_ & A2). rewrite (A2 eq_refl) in *. clear A2.
  destruct (proper_fields b Hb) as (B1 & B2).
  constructor; cbn; auto.
  - intros n x E. rewrite copied_get, E by assumption. eexists. split; [reflexivity|].
    assert (Hi := get_in _ _ _ E). rewrite Forall_forall in IHf, P2. apply (IHf _ Hi).
    + exact (P2 _ Hi).
    + exact (proper_get _ _ _ A5 E).
    + exact (target_proper _ n x B2).
  - intros n E. rewrite copied_get, E by assumption. reflexivity.
Qed.

(** ** Fresh copies *)
Lemma prune_same fsa fsb : List.length fsa = List.length fsb -> prune fsa fsb = fsb.
Proof. intro E. unfold prune. rewrite E, Nat.ltb_irrefl. reflexivity. Qed.

Definition copied fs : list (string * elem) := map (fun p => (fst p, copy_new (snd p))) fs.
Definition copied_comp (d : option (list V)) c : elem :=
  match fresh c d with Elem m d t cs _ => Elem m d t cs (copied (fields c)) end.
Fixpoint copied_comps (cs : list elem) (d : option (list V)) : list elem :=
  match cs with
  | [] => []
  | c :: cs => copied_comp (option_map (firstn (elen c)) d) c :: copied_comps cs (option_map (skipn (elen c)) d)
  end.

Lemma copy_fields_fresh fs : NoDup (map fst fs) -> copy_fields copy_to fs [] = copied fs.
Proof. intro H. rewrite copy_fields_new by (auto; intros ? ? []). reflexivity. Qed.

Lemma copy_comps_fresh cs : Forall proper cs -> forall d,
  copy_comps copy_to cs (fresh_list cs d) = copied_comps cs d.
Proof.
  induction 1 as [|c cs Hc H IH]; intro d; cbn; [reflexivity|].
  destruct (proper_fields c Hc) as (N & _).
  destruct c as [m d0 t cs0 fs]. unfold copied_comp. rewrite fresh_unfold. cbn [fields] in *.
  rewrite copy_fields_fresh by exact N. f_equal. apply IH.
Qed.

Lemma copy_new_unfold m d t cs fs : proper (Elem m d t cs fs) ->
  copy_new (Elem m d t cs fs) = Elem m d t (copied_comps cs d) (copied fs).
Proof.
  intro H. apply proper_inv in H as (A1 & A2 & A3 & A4 & A5).
  unfold copy_new, blank. cbn [copy_to fields]. rewrite copy_fields_fresh by exact A1.
  rewrite prune_same by (unfold copied; rewrite map_length; reflexivity).
  unfold reset_types, reset_comps. destruct t as [|t0 t]; cbn [List.length Nat.eqb].
  - destruct A2 as (A2 & _). rewrite (A2 eq_refl). reflexivity.
  - unfold same_shape. cbn [types List.length Nat.eqb andb]. rewrite copy_comps_fresh by exact A4. reflexivity.
Qed.

Lemma fresh_meta e d : meta (fresh e d) = meta e.
Proof. destruct e; reflexivity. Qed.
Lemma fresh_types e d : types (fresh e d) = types e.
Proof. destruct e; reflexivity. Qed.

Lemma copy_new_flat a : flat a -> proper a -> same a (copy_new a).
Proof.
  induction a as [m d t cs fs IHc IHf] using elem_ind2. intros Fl H.
  rewrite copy_new_unfold by exact H. apply proper_inv in H as (A1 & A2 & A3 & A4 & A5).
  inversion Fl as [? F1 F2]; subst. cbn [comps fields] in F1, F2. clear Fl.
  assert (Hf : forall fs, NoDup (map fst fs) -> Forall (fun p => flat (snd p) -> proper (snd p) -> same (snd p) (copy_new (snd p))) fs ->
            Forall (fun p => flat (snd p)) fs -> Forall (fun p => proper (snd p)) fs ->
            (forall n x, get n fs = Some x -> exists y, get n (copied fs) = Some y /\ same x y) /\
            (forall n, get n fs = None -> get n (copied fs) = None)).
  { clear. intros fs Hd IH Fl Pr. split.
    - intros n x. induction fs as [|(k & y) fs IHl]; cbn; [discriminate|].
      inversion Hd; inversion IH; inversion Fl; inversion Pr; subst.
      destruct (String.eqb k n); [intros [= ->]; eexists; split; [reflexivity|auto]|auto].
    - intros n. induction fs as [|(k & y) fs IHl]; cbn; [auto|].
      inversion Hd; inversion IH; inversion Fl; inversion Pr; subst.
      destruct (String.eqb k n); [discriminate|auto]. }
  destruct (Hf fs A1 IHf F2 A5) as (G1 & G2).
  constructor; cbn [meta data types comps fields]; auto.
  clear A1 A2 A5 IHf F2 G1 G2 fs. clear t m. revert d A3.
  induction cs as [|c cs IH]; intros d A3; cbn; [constructor|].
  inversion IHc as [|? ? (_ & IHx) IHc']; inversion F1 as [|? ? (Fc & Ff) F1']; inversion A4 as [|? ? P A4']; subst.
  destruct A3 as (D & A3). constructor; [|apply IH; auto].
  destruct (proper_fields c P) as (N & Pf). destruct (Hf _ N IHx Ff Pf) as (G1 & G2).
  destruct c as [m d0 t cs0 fs]. cbn in Fc. subst cs0. unfold copied_comp. rewrite fresh_unfold. cbn [fresh_list].
  constructor; cbn [meta data types comps fields]; auto.
Qed.

(** One copy is as good as a copy of a copy. *)
Lemma fresh_fresh e : forall d0 d fs', fresh (match fresh e d0 with Elem m d t cs _ => Elem m d t cs fs' end) d = fresh e d.
Proof.
  induction e as [m dd t cs fs IHc _] using elem_ind2. intros d0 d fs'.
  rewrite fresh_unfold. rewrite !fresh_unfold. f_equal.
  revert d0 d. induction cs as [|c cs IH]; intros d0 d; cbn; [reflexivity|].
  inversion IHc as [|? ? (P & _) IHc']; subst. rewrite elen_fresh.
  f_equal; [|apply IH; exact IHc'].
  specialize (P (option_map (firstn (elen c)) d0) (option_map (firstn (elen c)) d) []).
  destruct c as [mc dc tc ccs fc]. rewrite fresh_unfold in *. exact P.
Qed.

Lemma copied_comp_elen d c : elen (copied_comp d c) = elen c.
Proof. destruct c; reflexivity. Qed.

Lemma copied_twice fs : Forall (fun p => proper (snd p) -> copy_new (copy_new (snd p)) = copy_new (snd p)) fs ->
  Forall (fun p => proper (snd p)) fs -> copied (copied fs) = copied fs.
Proof.
  intros IH P. unfold copied. rewrite map_map. apply map_ext_in. intros (n & x) Hi. cbn.
  rewrite Forall_forall in IH, P. f_equal. apply (IH _ Hi). exact (P _ Hi).
Qed.

Lemma copy_copy a : proper a -> copy_new (copy_new a) = copy_new a.
Proof.
  induction a as [m d t cs fs IHc IHf] using elem_ind2. intro H.
  assert (H' := copy_proper _ _ H (proper_blank (Elem m d t cs fs))). fold (copy_new (Elem m d t cs fs)) in H'.
  rewrite copy_new_unfold in * by exact H. rewrite copy_new_unfold by exact H'.
  apply proper_inv in H as (A1 & A2 & A3 & A4 & A5). f_equal; [|apply copied_twice; assumption].
  clear - IHc A4. revert d. induction cs as [|c cs IH]; intro d; cbn; [reflexivity|].
  inversion IHc as [|? ? (_ & IHx) IHc']; inversion A4 as [|? ? P A4']; subst.
  rewrite copied_comp_elen. f_equal; [|apply IH; auto].
  set (d' := option_map (firstn (elen c)) d). clearbody d'.
  unfold copied_comp at 1.
  assert (E : fresh (copied_comp d' c) d' = fresh c d') by (unfold copied_comp; apply fresh_fresh).
  rewrite E. destruct (proper_fields c P) as (_ & Pf).
  assert (E2 : fields (copied_comp d' c) = copied (fields c)) by (destruct c; reflexivity).
  rewrite E2, copied_twice by assumption. reflexivity.
Qed.

(** ** Assigning to a product of the same kind *)
Lemma same_shape_true ta csa b : types b = ta -> map elen (comps b) = map elen csa -> same_shape ta csa b = true.
Proof.
  intros E1 E2. unfold same_shape. rewrite E1, Nat.eqb_refl. cbn.
  destruct (list_eq_dec _ _ _) as [|N]; [reflexivity|contradiction].
Qed.
Lemma Forall2_map {A} (R : elem -> elem -> Prop) (f : elem -> A) l l' :
  Forall2 R l l' -> (forall x y, R x y -> f x = f y) -> map f l = map f l'.
Proof. induction 1; cbn; intro H'; [reflexivity|f_equal; auto]. Qed.
Lemma rebind_data_comps c d : comps c = [] -> rebind c d = Elem (meta c) d (types c) [] (fields c).
Proof. destruct c as [m d0 t cs fs]. cbn. intros ->. reflexivity. Qed.

Lemma copy_same_kind a b :
  proper a -> proper b -> types a = types b ->
  Forall2 (fun ca cb => meta ca = meta cb /\ comps ca = [] /\ comps cb = [] /\
             (forall n, get n (fields ca) = None -> get n (fields cb) = None)) (comps a) (comps b) ->
  Forall (fun c => Forall (fun p => plain (snd p)) (fields c)) (comps a) ->
  Forall (fun p => plain (snd p)) (fields a) ->
  same a (copy_to a b).
Proof.
  intros Ha Hb Ht F Pc Pf. destruct a as [ma da ta csa fsa].
  apply proper_inv in Ha as (A1 & A2 & A3 & A4 & A5). destruct (proper_fields b Hb) as (B1 & B2).
  cbn [comps types fields] in *. cbn [copy_to].
  assert (El : map elen csa = map elen (comps b)).
  { apply (Forall2_map _ _ _ _ F). intros x y (E & _). unfold elen. rewrite E. reflexivity. }
  assert (S := same_shape_true ta csa b (eq_sym Ht) (eq_sym El)).
  constructor; cbn [meta data types comps fields]; auto.
  - unfold reset_types. rewrite S. destruct ta; [reflexivity|cbn; congruence].
  - unfold reset_comps. destruct ta as [|t0 ta]; cbn [List.length Nat.eqb].
    + destruct A2 as (A2 & _). rewrite (A2 eq_refl). constructor.
    + rewrite S. clear S El B1 B2 Ht A2 A1 A5 Pf.
      assert (Hb' : Forall proper (comps b)) by (destruct Hb; assumption). clear Hb.
      revert da A3. induction F as [|ca cb csa csb (E1 & E2 & E3 & E4) F IH]; intros da A3; cbn; [constructor|].
      inversion A4 as [|? ? P1 A4']; inversion Pc as [|? ? P2 Pc']; inversion Hb' as [|? ? P3 Hb'']; subst.
      destruct A3 as (D & A3).
      rewrite (rebind_data_comps cb) by exact E3.
      destruct (proper_fields ca P1) as (C1 & C2). destruct (proper_fields cb P3) as (D1 & D2).
      destruct ca as [m d0 t cs0 fs]. cbn [comps meta fields data] in *. subst cs0.
      assert (Et : t = types cb).
      { apply proper_inv in P1 as (_ & (_ & Q) & _). rewrite (Q eq_refl). destruct P3 as [cb _ (_ & Q') _ _ _].
        symmetry. exact (Q' E3). }
      constructor.
      * constructor; cbn [meta data types comps fields]; auto.
        -- unfold elen in *. cbn [meta] in D. rewrite D, E1. reflexivity.
        -- intros n x E. rewrite copy_fields_get by exact C1. rewrite E. eexists. split; [reflexivity|].
           apply copy_plain.
           ++ rewrite Forall_forall in P2. exact (P2 _ (get_in _ _ _ E)).
           ++ exact (proper_get _ _ _ C2 E).
           ++ exact (target_proper _ n x D2).
        -- intros n E. rewrite copy_fields_get by exact C1. rewrite E. exact (E4 n E).
      * unfold elen at 1 in A3. cbn [meta] in A3. rewrite E1 in A3. apply IH; assumption.
  - intros n x E. rewrite copied_get, E by assumption. eexists. split; [reflexivity|]. apply copy_plain.
    + rewrite Forall_forall in Pf. exact (Pf _ (get_in _ _ _ E)).
    + exact (proper_get _ _ _ A5 E).
    + exact (target_proper _ n x B2).
  - intros n E. rewrite copied_get, E by assumption. reflexivity.
Qed.

(** ** The other operations *)
Lemma add_field_get n x e k : proper e -> proper x ->
  get k (fields (add_field n x e)) =
  if String.eqb k n then Some (copy_to x (target (fields e) n x)) else get k (fields e).
Proof.
  intros _ _. destruct e as [m d t cs fs]. cbn. unfold target. destruct (get n fs) eqn:E.
  - rewrite get_put, E. reflexivity.
  - rewrite get_app. cbn. destruct (String.eqb_spec k n) as [->|Hn].
    + rewrite E, String.eqb_refl. reflexivity.
    + destruct (get k fs); [reflexivity|]. destruct (String.eqb_spec n k); [congruence|reflexivity].
Qed.
Lemma add_field_proper n x e : proper x -> proper e -> proper (add_field n x e).
Proof.
  intros Px Pe. assert (G := fun k => add_field_get n x e k Pe Px).
  destruct e as [m d t cs fs]. assert (P := proper_inv _ _ _ _ _ Pe). destruct P as (A1 & A2 & A3 & A4 & A5).
  cbn [add_field fields] in *.
  assert (N : NoDup (map fst (match get n fs with Some y => put n (copy_to x y) fs | None => fs ++ [(n, copy_new x)] end))).
  { exact (copy_fields_nodup copy_to [(n, x)] fs A1). }
  apply proper_mk; auto. apply proper_all; [exact N|]. intros k z. rewrite G.
  destruct (String.eqb k n); [intros [= <-]|exact (proper_get _ _ _ A5)].
  apply copy_proper; [exact Px|exact (target_proper _ _ _ A5)].
Qed.
Lemma remove_field_get n e k :
  get k (fields (remove_field n e)) = if String.eqb k n then None else get k (fields e).
Proof.
  destruct e as [m d t cs fs]. cbn. rewrite (get_filter k fs (fun k => negb (String.eqb k n))).
  destruct (String.eqb k n); reflexivity.
Qed.
Lemma remove_field_proper n e : proper e -> proper (remove_field n e).
Proof.
  destruct e as [m d t cs fs]. intro H. apply proper_inv in H as (A1 & A2 & A3 & A4 & A5).
  apply proper_mk; auto; [apply filter_nodup; exact A1|].
  apply Forall_forall. intros p Hp. apply filter_In in Hp as (Hp & _). rewrite Forall_forall in A5. exact (A5 _ Hp).
Qed.
Lemma remove_all_bare e : bare (remove_all e).
Proof.
  induction e as [m d t cs fs IHc _] using elem_ind2. constructor; cbn; [reflexivity|].
  apply Forall_forall. intros c Hc. apply in_map_iff in Hc as (c0 & <- & Hc). rewrite Forall_forall in IHc.
  apply (IHc _ Hc).
Qed.
Lemma elen_remove_all e : elen (remove_all e) = elen e.
Proof. destruct e; reflexivity. Qed.
Lemma data_remove_all e : data (remove_all e) = data e.
Proof. destruct e; reflexivity. Qed.
Lemma remove_all_proper e : proper e -> proper (remove_all e).
Proof.
  induction e as [m d t cs fs IHc _] using elem_ind2. intro H. apply proper_inv in H as (A1 & A2 & A3 & A4 & A5).
  apply proper_mk; cbn; auto using NoDup_nil.
  - destruct cs; cbn; [exact A2|]. split; [intro E; apply A2 in E; discriminate|discriminate].
  - eapply pieces_ext; [..|exact A3]; rewrite map_map; apply map_ext; intro c; [symmetry; apply elen_remove_all|symmetry; apply data_remove_all].
  - apply Forall_forall. intros c Hc. apply in_map_iff in Hc as (c0 & <- & Hc). rewrite Forall_forall in IHc, A4.
    apply (IHc _ Hc). exact (A4 _ Hc).
Qed.
Lemma rebind_bare e : forall d, bare e -> bare (rebind e d).
Proof.
  induction e as [m d0 t cs fs IHc _] using elem_ind2. intros d H. inversion H as [? H1 H2]; subst. cbn in H1, H2.
  rewrite rebind_unfold. constructor; cbn; [exact H1|].
  clear - IHc H2. revert d. induction cs as [|c cs IH]; intro d; cbn; [constructor|].
  inversion IHc as [|? ? (P & _) IHc']; inversion H2; subst. constructor; auto.
Qed.
Lemma overwrite_ok l e : proper e -> proper (overwrite l e) /\ bare (overwrite l e) /\ data (overwrite l e) = Some l /\
  meta (overwrite l e) = meta e /\ types (overwrite l e) = types e.
Proof.
  intro H. unfold overwrite. split; [apply rebind_proper, remove_all_proper, H|].
  split; [apply rebind_bare, remove_all_bare|]. split; [apply data_rebind|]. destruct e; split; reflexivity.
Qed.
End proofs.
