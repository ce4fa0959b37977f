(** Construction of a matrix, and its products. *)
From Coq Require Import List Bool Arith ZArith Lia Ring Ring_theory.
From Verif Require Import SparseModel SparseSpec SparseProofs.
Import ListNotations.

Section proofs.
Context {K : scal} (L : lawful K).
Local Lemma Kring : ring_theory (@s0 K) s1 sadd smul ssub sopp eq.
Proof. exact (law_ring K L). Qed.
Add Ring Kr2 : Kring.
Local Open Scope Z_scope.
Infix "+'" := (@sadd K) (at level 50, left associativity).
Infix "*'" := (@smul K) (at level 40, left associativity).
Notation "0'" := (@s0 K).
Local Notation trip := (triplet K).

(** ** Properties *)
Definition setp (ps : list prop) (m : smat K) : smat K := fold_left (fun m p => ussp K p m) ps m.
Lemma setp_flags ps : forall m,
  rows K (setp ps m) = rows K m /\ cols K (setp ps m) = cols K m /\ stat K (setp ps m) = stat K m
  /\ diag K (setp ps m) = diag K m /\ S_ K (setp ps m) = S_ K m /\ nnz K (setp ps m) = nnz K m
  /\ unit_diag K (setp ps m) = unit_diag K m || has UnitDiag ps
  /\ ltri K (setp ps m) = ltri K m || has LowerTri ps /\ utri K (setp ps m) = utri K m || has UpperTri ps
  /\ lsym K (setp ps m) = lsym K m || has LowerSym ps /\ usym K (setp ps m) = usym K m || has UpperSym ps
  /\ lher K (setp ps m) = lher K m || has LowerHer ps /\ uher K (setp ps m) = uher K m || has UpperHer ps.
Proof.
  induction ps as [|p ps IH]; intros m.
  - cbn. rewrite !orb_false_r. repeat split.
  - change (setp (p :: ps) m) with (setp ps (ussp K p m)).
    destruct (IH (ussp K p m)) as (H1 & H2 & H3 & H4 & H5 & H6 & H7 & H8 & H9 & H10 & H11 & H12 & H13).
    rewrite H1, H2, H3, H4, H5, H6, H7, H8, H9, H10, H11, H12, H13.
    destruct p; cbn; rewrite ?orb_false_l, ?orb_true_r, ?orb_true_l; repeat split.
Qed.
Lemma setp_base ps : forall m, (if one_base K (setp ps m) then 1 else 0) =
  fold_left (fun b p => match p with ZeroBase => 0 | OneBase => 1 | _ => b end) ps (if one_base K m then 1 else 0).
Proof.
  induction ps as [|p ps IH]; intros m; [reflexivity|].
  change (setp (p :: ps) m) with (setp ps (ussp K p m)). rewrite IH. cbn [fold_left]. f_equal.
  destruct p; reflexivity.
Qed.

(** What insertion never changes. *)
Definition shape (m m0 : smat K) : Prop :=
  rows K m = rows K m0 /\ cols K m = cols K m0 /\ one_base K m = one_base K m0 /\ unit_diag K m = unit_diag K m0
  /\ is_tri K m = is_tri K m0 /\ is_sym K m = is_sym K m0 /\ is_her K m = is_her K m0 /\ ltri K m = ltri K m0.

(** ** Lists *)
Lemma lset_ok {X} (l : list X) : forall n v, (n < length l)%nat ->
  exists l', lset l n v = Some l' /\ length l' = length l /\ forall k d, nth k l' d = if Nat.eqb k n then v else nth k l d.
Proof.
  induction l as [|x l IH]; intros n v Hn; cbn [length] in Hn; [lia|].
  destruct n as [|n]; cbn [lset].
  - eexists; split; [reflexivity|]. split; [reflexivity|]. intros [|k] d; reflexivity.
  - destruct (IH n v ltac:(lia)) as (l' & E & El & En). rewrite E. cbn [obind]. eexists; split; [reflexivity|].
    split; [cbn [length]; lia|]. intros [|k] d; [reflexivity|]. cbn [nth Nat.eqb]. apply En.
Qed.
Lemma vecset_ok {X} (l : list X) i v : 0 <= i < Z.of_nat (length l) ->
  exists l', vecset l i v = Some l' /\ length l' = length l
    /\ forall k d, 0 <= k -> nth (Z.to_nat k) l' d = if Z.eqb i k then v else nth (Z.to_nat k) l d.
Proof.
  intros H. unfold vecset. destruct (Z.ltb_spec i 0); [lia|].
  destruct (lset_ok l (Z.to_nat i) v ltac:(lia)) as (l' & E & El & En). exists l'. repeat split; auto.
  intros k d Hk. rewrite En. destruct (Z.eqb_spec i k) as [->|Hne]; [now rewrite Nat.eqb_refl|].
  destruct (Nat.eqb_spec (Z.to_nat k) (Z.to_nat i)); [lia|reflexivity].
Qed.
Lemma vecnth_ok {X} (l : list X) i d : 0 <= i < Z.of_nat (length l) -> vecnth l i = Some (nth (Z.to_nat i) l d).
Proof. intros H. unfold vecnth. destruct (Z.ltb_spec i 0); [lia|]. apply nth_error_nth'. lia. Qed.

Lemma nth_repeat_any {X} (x : X) n k d : (k < n)%nat -> nth k (repeat x n) d = x.
Proof. revert k. induction n as [|n IH]; intros k Hk; [lia|]. destruct k; cbn; [reflexivity|]. apply IH. lia. Qed.

(** ** Insertion *)
Section insertion.
Context (m0 : smat K) (M N : nat) (b : Z).
Context (Hr : rows K m0 = M) (Hc : cols K m0 = N) (Hb : b = if one_base K m0 then 1 else 0).
Context (Hher : is_her K m0 = false).
Definition structured := is_tri K m0 || is_sym K m0.

Definition inside (t : trip) : bool :=
  let '(_, r, c) := t in Z.leb 0 (r - b) && Z.ltb (r - b) (Z.of_nat M) && Z.leb 0 (c - b) && Z.ltb (c - b) (Z.of_nat N).
Definition diag_ok (m : smat K) (ts : list trip) : Prop :=
  if structured then length (diag K m) = M /\ forall i, 0 <= i < Z.of_nat M ->
      nth (Z.to_nat i) (diag K m) 0' = if unit_diag K m0 then s1 else inserted b ts i i
  else diag K m = [].
Record inv (ts : list trip) (m : smat K) : Prop := {
  inv_shape : shape m m0;
  inv_S : length (S_ K m) = M;
  inv_in : forall i, 0 <= i < Z.of_nat M -> row_in N (row m i);
  inv_coef : forall i j, 0 <= i < Z.of_nat M -> 0 <= j < Z.of_nat N ->
     (i = j -> Z.of_nat M = Z.of_nat N \/ structured = false) ->
     coef m i j = if structured && Z.eqb i j then 0' else inserted b ts i j;
  inv_diag : if existsb inside ts then stat K m = Open /\ diag_ok m ts else stat K m = New /\ diag K m = [] }.

Lemma inserted_app ts v r c i j : inserted b (ts ++ [(v, r, c)]) i j =
  inserted b ts i j +' (if Z.eqb (r - b) i && Z.eqb (c - b) j then v else 0').
Proof.
  unfold inserted. rewrite filter_app, map_app, (lsum_app L). cbn [filter hits].
  destruct (Z.eqb (r - b) i && Z.eqb (c - b) j); cbn [map lsum]; try unfold value; cbn [fst]; ring.
Qed.
Lemma inserted_nothing ts i j : existsb inside ts = false -> 0 <= i < Z.of_nat M -> 0 <= j < Z.of_nat N -> inserted b ts i j = 0'.
Proof.
  intros H Hi Hj. unfold inserted. induction ts as [|[[v r] c] ts IH]; [reflexivity|].
  cbn [existsb] in H. apply orb_false_elim in H as [H1 H2]. cbn [filter hits].
  destruct (Z.eqb_spec (r - b) i), (Z.eqb_spec (c - b) j); cbn [andb]; try (now apply IH).
  exfalso. unfold inside in H1. rewrite !(proj2 (Z.leb_le _ _)), !(proj2 (Z.ltb_lt _ _)) in H1 by lia. discriminate.
Qed.


(** A square matrix when it is structured. *)
Context (Hsq : structured = true -> M = N).

Lemma insert_step ts m v r c : inv ts m ->
  exists code m', insert_entry K v r c m = Some (code, m') /\ inv (ts ++ [(v, r, c)]) m'
    /\ code = (if inside (v, r, c) then 0 else 1).
Proof.
  intros I. pose proof (inv_shape _ _ I) as Sh. destruct Sh as (E1 & E2 & E3 & E4 & E5 & E6 & E7 & E8).
  unfold insert_entry.
  assert (Eb : forall a, (if one_base K m then a - 1 else a) = a - b) by (intros a; rewrite E3, Hb; destruct (one_base K m0); lia).
  rewrite !Eb. clear Eb. rewrite E1, E2, Hr, Hc.
  assert (Hex : existsb inside (ts ++ [(v, r, c)]) = existsb inside ts || inside (v, r, c)).
  { rewrite existsb_app. cbn [existsb]. now rewrite orb_false_r. }
  assert (Out : inside (v, r, c) = false -> inv (ts ++ [(v, r, c)]) m).
  { intros O. destruct I as [A1 A2 A3 A4 A5]. constructor; auto.
    - intros i j Hi Hj Hij. rewrite A4 by auto. rewrite inserted_app.
      destruct (Z.eqb_spec (r - b) i), (Z.eqb_spec (c - b) j); cbn [andb]; try (destruct (structured && Z.eqb i j); [reflexivity|ring]).
      exfalso. unfold inside in O. rewrite !(proj2 (Z.leb_le _ _)), !(proj2 (Z.ltb_lt _ _)) in O by lia. discriminate.
    - rewrite Hex, O, orb_false_r. destruct (existsb inside ts); [|exact A5]. destruct A5 as [A5 A6]. split; [exact A5|].
      unfold diag_ok in *. destruct structured eqn:Est; [|exact A6]. destruct A6 as [A6 A7]. split; [exact A6|].
      intros i Hi. rewrite A7 by exact Hi. rewrite inserted_app.
      destruct (Z.eqb_spec (r - b) i), (Z.eqb_spec (c - b) i); cbn [andb]; try (destruct (unit_diag K m0); [reflexivity|ring]).
      exfalso. pose proof (Hsq eq_refl). unfold inside in O.
      rewrite !(proj2 (Z.leb_le _ _)), !(proj2 (Z.ltb_lt _ _)) in O by lia. discriminate. }
  destruct (Z.leb_spec 0 (r - b)) as [B1|B1]; cbn [negb];
    [|exists 1, m; unfold inside in *; rewrite (proj2 (Z.leb_gt _ _)) in * by lia; cbn [andb] in *; auto].
  destruct (Z.ltb_spec (r - b) (Z.of_nat M)) as [B2|B2]; cbn [negb];
    [|exists 1, m; unfold inside in *; rewrite (proj2 (Z.leb_le _ _)), (proj2 (Z.ltb_ge _ _)) in * by lia; cbn [andb] in *; auto].
  destruct (Z.leb_spec 0 (c - b)) as [B3|B3]; cbn [negb];
    [|exists 1, m; unfold inside in *; rewrite (proj2 (Z.leb_le 0 (r - b))), (proj2 (Z.ltb_lt (r - b) _)), (proj2 (Z.leb_gt _ _)) in * by lia; cbn [andb] in *; auto].
  destruct (Z.ltb_spec (c - b) (Z.of_nat N)) as [B4|B4]; cbn [negb];
    [|exists 1, m; unfold inside in *; rewrite (proj2 (Z.leb_le 0 (r - b))), (proj2 (Z.ltb_lt (r - b) _)), (proj2 (Z.leb_le 0 (c - b))), (proj2 (Z.ltb_ge (c - b) _)) in * by lia; cbn [andb] in *; auto].
  assert (Oin : inside (v, r, c) = true).
  { unfold inside. rewrite !(proj2 (Z.leb_le _ _)), !(proj2 (Z.ltb_lt _ _)) by lia. reflexivity. }
  clear Out. rewrite Oin in Hex |- *. rewrite orb_true_r in Hex.
  set (i := r - b) in *. set (j := c - b) in *.
  (* the matrix after the first-insertion step *)
  set (m1 := if is_new K m then _ else m).
  assert (P : shape m1 m0 /\ length (S_ K m1) = M /\ stat K m1 = Open /\ S_ K m1 = S_ K m /\ diag_ok m1 ts).
  { destruct I as [A1 A2 A3 A4 A5]. unfold m1, is_new. destruct (existsb inside ts) eqn:Ee; destruct A5 as [A5 A6]; rewrite A5.
    - repeat split; auto; apply A6.
    - assert (Est : is_tri K (set_stat K Open m) || is_sym K (set_stat K Open m) = structured).
      { unfold structured. rewrite <- E5, <- E6. reflexivity. }
      rewrite Est. unfold diag_ok. destruct structured eqn:Es.
      + split; [exact A1|]. split; [exact A2|]. split; [reflexivity|]. split; [reflexivity|].
        split; [cbn; rewrite repeat_length; lia|].
        intros q Hq. cbn [diag set_diag set_stat]. rewrite nth_repeat_any by (cbn [rows set_stat]; lia).
        cbn [unit_diag set_stat]. rewrite E4. destruct (unit_diag K m0); [reflexivity|].
        symmetry. apply inserted_nothing; auto. rewrite <- (Hsq eq_refl). exact Hq.
      + split; [exact A1|]. split; [exact A2|]. split; [reflexivity|]. split; [reflexivity|]. exact A6. }
  clearbody m1. destruct P as (Shp & PS & Pst & PSS & Pd). pose proof Shp as (F1 & F2 & F3 & F4 & F5 & F6 & F7 & F8).
  unfold is_open. rewrite Pst.
  assert (Est : is_tri K m1 || is_sym K m1 || is_her K m1 = structured).
  { unfold structured. rewrite F5, F6, F7, Hher. now rewrite orb_false_r. }
  rewrite Est.
  assert (Cf : forall p q, 0 <= p < Z.of_nat M -> 0 <= q < Z.of_nat N -> (p = q -> Z.of_nat M = Z.of_nat N \/ structured = false) ->
     coef m1 p q = if structured && Z.eqb p q then 0' else inserted b ts p q).
  { intros p q Hp Hq Hpq. unfold coef, row. rewrite PSS. now apply (inv_coef _ _ I). }
  assert (Hin : forall p, 0 <= p < Z.of_nat M -> row_in N (row m1 p)).
  { intros p Hp. unfold row. rewrite PSS. now apply (inv_in _ _ I). }
  destruct (Z.eqb_spec i j) as [Eij|Eij]; cbn [andb]; [destruct structured eqn:Es|].
  - (* on the diagonal of a structured matrix *)
    pose proof (Hsq eq_refl) as EMN. unfold diag_ok in Pd. rewrite Es in Pd. destruct Pd as [Pl Pn]. rewrite F4.
    assert (Cf' : forall p q, 0 <= p < Z.of_nat M -> 0 <= q < Z.of_nat N -> (p = q -> Z.of_nat M = Z.of_nat N \/ true = false) ->
       coef m1 p q = if true && Z.eqb p q then 0' else inserted b (ts ++ [(v, r, c)]) p q).
    { intros p q Hp Hq Hpq. rewrite Cf by auto. rewrite inserted_app. fold i j.
      destruct (Z.eqb_spec p q) as [->|Hne]; cbn [andb]; [reflexivity|].
      destruct (Z.eqb_spec i p), (Z.eqb_spec j q); cbn [andb]; try ring. lia. }
    destruct (unit_diag K m0) eqn:Eu; cbn [negb].
    + assert (G : inv (ts ++ [(v, r, c)]) m1).
      { constructor; auto.
        - rewrite Es. exact Cf'.
        - rewrite Hex. split; [exact Pst|]. unfold diag_ok. rewrite Es, Eu. split; [exact Pl|]. intros p Hp. apply Pn. exact Hp. }
      destruct (seqb v s1); cbn [negb].
      * eexists 0, _. split; [reflexivity|]. split; [|reflexivity]. destruct G as [G1 G2 G3 G4 G5]. constructor; auto.
      * eexists 0, _. split; [reflexivity|]. split; [exact G|reflexivity].
    + rewrite (vecnth_ok _ i 0') by lia. cbn [obind].
      destruct (vecset_ok (diag K m1) i (nth (Z.to_nat i) (diag K m1) 0' +' v) ltac:(lia)) as (ds & Eds & Lds & Nds).
      rewrite Eds. cbn [obind]. eexists 0, _. split; [reflexivity|]. split; [|reflexivity]. constructor; auto.
      * rewrite Es. exact Cf'.
      * rewrite Hex. split; [exact Pst|]. unfold diag_ok. rewrite Es, Eu. cbn [diag set_diag bump]. split; [lia|].
        intros p Hp. rewrite Nds by lia. rewrite inserted_app. fold i j. rewrite <- Eij.
        destruct (Z.eqb_spec i p) as [<-|Hne]; cbn [andb]; rewrite Pn by lia; ring.
  - (* general matrix, diagonal entry *)
    rewrite (vecnth_ok _ i []) by lia. cbn [obind].
    destruct (vecset_ok (S_ K m1) i (nth (Z.to_nat i) (S_ K m1) [] ++ [(v, j)]) ltac:(lia)) as (ss & Ess & Lss & Nss).
    rewrite Ess. cbn [obind]. eexists 0, _. split; [reflexivity|]. split; [|reflexivity]. constructor.
    + exact Shp.
    + cbn. lia.
    + intros p Hp. unfold row. cbn [S_ set_S bump]. rewrite Nss by lia. destruct (Z.eqb_spec i p) as [<-|Hne]; [|now apply Hin].
      intros q Hq. apply in_app_or in Hq as [Hq|[<-|[]]]; [now apply (Hin i Hp)|cbn; lia].
    + intros p q Hp Hq Hpq. unfold coef, row. cbn [S_ set_S bump]. rewrite Nss by lia. rewrite inserted_app. fold i j.
      destruct (Z.eqb_spec i p) as [<-|Hne]; cbn [andb].
      * rewrite (rowcoef_app L). change (nth (Z.to_nat i) (S_ K m1) []) with (row m1 i).
        change (rowcoef (row m1 i) q) with (coef m1 i q). rewrite Cf by auto. rewrite Es. reflexivity.
      * change (rowcoef (nth (Z.to_nat p) (S_ K m1) []) q) with (coef m1 p q). rewrite Cf by auto. rewrite Es. cbn [andb]. ring.
    + rewrite Hex. split; [exact Pst|]. unfold diag_ok in *. rewrite Es in *. exact Pd.
  - (* off the diagonal *)
    rewrite (vecnth_ok _ i []) by lia. cbn [obind].
    destruct (vecset_ok (S_ K m1) i (nth (Z.to_nat i) (S_ K m1) [] ++ [(v, j)]) ltac:(lia)) as (ss & Ess & Lss & Nss).
    rewrite Ess. cbn [obind]. eexists 0, _. split; [reflexivity|]. split; [|reflexivity]. constructor.
    + exact Shp.
    + cbn. lia.
    + intros p Hp. unfold row. cbn [S_ set_S bump]. rewrite Nss by lia. destruct (Z.eqb_spec i p) as [<-|Hne]; [|now apply Hin].
      intros q Hq. apply in_app_or in Hq as [Hq|[<-|[]]]; [now apply (Hin i Hp)|cbn; lia].
    + intros p q Hp Hq Hpq. unfold coef, row. cbn [S_ set_S bump]. rewrite Nss by lia. rewrite inserted_app. fold i j.
      destruct (Z.eqb_spec i p) as [<-|Hne]; cbn [andb].
      * rewrite (rowcoef_app L). change (nth (Z.to_nat i) (S_ K m1) []) with (row m1 i).
        change (rowcoef (row m1 i) q) with (coef m1 i q). rewrite Cf by auto.
        destruct (Z.eqb_spec i q) as [<-|Hiq]; [|rewrite andb_false_r; reflexivity].
        destruct (Z.eqb_spec j i); [lia|]. destruct structured; cbn [andb]; ring.
      * change (rowcoef (nth (Z.to_nat p) (S_ K m1) []) q) with (coef m1 p q). rewrite Cf by auto.
        destruct (structured && Z.eqb p q); ring.
    + rewrite Hex. split; [exact Pst|]. unfold diag_ok in *. destruct structured eqn:Es; [|exact Pd].
      destruct Pd as [Pl Pn]. split; [exact Pl|]. intros p Hp. cbn [diag set_S bump]. rewrite Pn by exact Hp. rewrite inserted_app. fold i j.
      destruct (unit_diag K m0); [reflexivity|].
      destruct (Z.eqb_spec i p), (Z.eqb_spec j p); cbn [andb]; try ring. lia.
Qed.

Lemma insert_all ts : forall done m, inv done m ->
  exists m', insert_entries K ts m = Some m' /\ inv (done ++ ts) m'.
Proof.
  induction ts as [|[[v r] c] ts IH]; intros done m I; unfold insert_entries; cbn [each].
  - exists m. split; [reflexivity|]. now rewrite app_nil_r.
  - destruct (insert_step done m v r c I) as (code & m1 & E & I1 & _). rewrite E. cbn [obind snd].
    destruct (IH _ m1 I1) as (m2 & E2 & I2). exists m2. split; [exact E2|]. now rewrite <- app_assoc in I2.
Qed.
End insertion.

(** ** The finished matrix *)
Section finished.
Context (ps : list prop) (M N : nat) (ts : list trip).
Context (Hher : hermitian ps = false).
Context (Hst : triangular ps || symmetric ps = true -> M = N).

Lemma begin_inv : let m0 := setp ps (begin K M N) in inv m0 M N (base ps) [] m0.
Proof.
  cbv zeta.
  destruct (setp_flags ps (begin K M N)) as (H1 & H2 & H3 & H4 & H5 & H6 & H7 & H8 & H9 & H10 & H11 & H12 & H13).
  set (m0 := setp ps (begin K M N)) in *. constructor.
  - repeat split.
  - rewrite H5. cbn. apply repeat_length.
  - intros i Hi. unfold row. rewrite H5. cbn. rewrite nth_repeat_any by lia. intros p [].
  - intros i j Hi Hj _. unfold coef, row. rewrite H5. cbn. rewrite nth_repeat_any by lia. unfold rowcoef, inserted. cbn.
    now destruct (structured m0 && Z.eqb i j).
  - cbn [existsb]. rewrite H3, H4. split; reflexivity.
Qed.

Lemma build_ok : (triangular ps || symmetric ps = true -> exists t, In t ts /\ in_range (base ps) M N t) ->
  exists m, build ps M N ts = Some m /\ wf m M N /\ stat K m = Valid
  /\ is_tri K m = triangular ps /\ is_sym K m = symmetric ps /\ ltri K m = has LowerTri ps
  /\ (forall i j, 0 <= i < Z.of_nat M -> 0 <= j < Z.of_nat N ->
      coef m i j = if (triangular ps || symmetric ps) && Z.eqb i j then 0' else inserted (base ps) ts i j)
  /\ (triangular ps || symmetric ps = true -> length (diag K m) = M /\ forall i, 0 <= i < Z.of_nat M ->
        nth (Z.to_nat i) (diag K m) 0' = if has UnitDiag ps then s1 else inserted (base ps) ts i i).
Proof.
  intros Hex. pose proof begin_inv as I0. cbv zeta in I0.
  destruct (setp_flags ps (begin K M N)) as (H1 & H2 & H3 & H4 & H5 & H6 & H7 & H8 & H9 & H10 & H11 & H12 & H13).
  pose proof (setp_base ps (begin K M N)) as Eb.
  set (m0 := setp ps (begin K M N)) in *. cbn [rows cols begin unit_diag ltri utri lsym usym lher uher] in *. rewrite orb_false_l in *.
  assert (Et : is_tri K m0 = triangular ps) by (unfold is_tri, triangular; rewrite H8, H9; apply orb_comm).
  assert (Es : is_sym K m0 = symmetric ps) by (unfold is_sym, symmetric; rewrite H10, H11; apply orb_comm).
  assert (Eh : is_her K m0 = false) by (unfold is_her; rewrite H12, H13; exact Hher).
  symmetry in Eb. change (base ps = if one_base K m0 then 1 else 0) in Eb.
  assert (Est : structured m0 = triangular ps || symmetric ps) by (unfold structured; now rewrite Et, Es).
  destruct (insert_all m0 M N (base ps) H1 H2 Eb Eh) with (ts := ts) (done := @nil trip) (m := m0) as (m & E & I).
  - rewrite Est. exact Hst.
  - exact I0.
  - cbn [app] in I. destruct I as [(E1 & E2 & E3 & E4 & E5 & E6 & E7 & E8) A2 A3 A4 A5].
    assert (Eend : snd (end_ K m) = set_stat K Valid m).
    { unfold end_, is_open, is_new. destruct (existsb _ ts); destruct A5 as [-> _]; reflexivity. }
    exists (set_stat K Valid m). unfold build. unfold m0, setp in E. rewrite E, Eend.
    split; [reflexivity|]. split; [constructor; cbn; congruence || assumption|]. split; [reflexivity|].
    split; [unfold is_tri in *; cbn; congruence|]. split; [unfold is_sym in *; cbn; congruence|].
    split; [cbn; congruence|]. split.
    + intros i j Hi Hj. change (coef (set_stat K Valid m) i j) with (coef m i j). rewrite A4, Est; auto.
      intros Eij. rewrite Est. destruct (triangular ps || symmetric ps) eqn:Q; [left|now right]. now rewrite (Hst eq_refl).
    + intros Q. destruct (Hex Q) as (t & Ht & Rt).
      assert (Ex : existsb (inside M N (base ps)) ts = true).
      { apply existsb_exists. exists t. split; [exact Ht|]. destruct t as [[v r] c]. unfold in_range in Rt. unfold inside.
        rewrite !(proj2 (Z.leb_le _ _)), !(proj2 (Z.ltb_lt _ _)) by lia. reflexivity. }
      rewrite Ex in A5. destruct A5 as [_ A5]. unfold diag_ok in A5. rewrite Est, Q in A5. rewrite H7 in A5. exact A5.
Qed.
End finished.
End proofs.
