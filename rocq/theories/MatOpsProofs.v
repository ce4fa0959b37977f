(** Proofs about MatOpsModel.v. *)
From Coq Require Import List Arith Lia QArith Reals Lra.
From Verif Require Import Arith MatOpsModel MatOpsSpec.
Import ListNotations.
Local Open Scope nat_scope.
Local Open Scope list_scope.

(** ** Arrays *)
Lemma set_nth_length {B} (l : list B) p v : length (set_nth l p v) = length l.
Proof. revert p. induction l as [|x l IH]; intros [|p]; cbn; auto. Qed.
Lemma set_nth_same {B} (l : list B) p v : p < length l -> nth_error (set_nth l p v) p = Some v.
Proof. revert p. induction l as [|x l IH]; intros [|p]; cbn; try lia; auto. intro H. apply IH. lia. Qed.
Lemma set_nth_other {B} (l : list B) p q v : p <> q -> nth_error (set_nth l p v) q = nth_error l q.
Proof.
  revert p q. induction l as [|x l IH]; intros [|p] [|q]; cbn; try congruence; auto.
Qed.
Lemma for_in {B} lo hi (body : nat -> list B) x :
  In x (for_ lo hi body) <-> exists i, lo <= i < hi /\ In x (body i).
Proof.
  unfold for_, range. rewrite in_flat_map. setoid_rewrite in_seq.
  split; intros (i & H & K); exists i; (split; [lia|exact K]).
Qed.
Lemma in1 {B C} (p a : B) (v x : C) : In (p, v) [(a, x)] -> a = p /\ x = v.
Proof. intros [E|[]]. inversion E. auto. Qed.
Lemma in2 {B C} (p a b : B) (v x y : C) : In (p, v) [(a, x); (b, y)] -> a = p /\ x = v \/ b = p /\ y = v.
Proof. intros [E|[E|[]]]; inversion E; auto. Qed.
Lemma idx_inj m i j i' j' : i < m -> i' < m -> i + j * m = i' + j' * m -> i = i' /\ j = j'.
Proof.
  intros H H' E. destruct (Nat.lt_total j j') as [L|[->|L]]; [|split; lia|].
  - assert (j * m + m <= j' * m) by nia. lia.
  - assert (j' * m + m <= j * m) by nia. lia.
Qed.
Lemma idx_lt m n i j : i < m -> j < n -> i + j * m < m * n.
Proof. intros. assert (j * m + m <= m * n) by nia. lia. Qed.
Lemma idx_split m n p : p < m * n -> exists i j, i < m /\ j < n /\ p = i + j * m.
Proof.
  intro H. assert (Hm : m <> 0) by nia. exists (p mod m), (p / m).
  assert (E := Nat.div_mod p m Hm). assert (p mod m < m) by (apply Nat.mod_upper_bound; exact Hm).
  split; [assumption|]. split; [apply Nat.div_lt_upper_bound; assumption|]. nia.
Qed.

Section store.
Context {A : arith}.
Notation F := (F A).
Notation cells := (cells A).
Implicit Types (l : list (nat * option F)) (r : cells).

Definition functional l := forall p v v', In (p, v) l -> In (p, v') l -> v = v'.

Lemma store_ok l : forall r,
  (forall p v, In (p, v) l -> p < length r /\ v <> None) -> functional l ->
  exists r', store l r = Some r' /\ length r' = length r /\
    (forall p v, In (p, Some v) l -> nth_error r' p = Some (Some v)) /\
    (forall p, (forall v, ~ In (p, v) l) -> nth_error r' p = nth_error r p).
Proof.
  induction l as [|(p & v) l IH]; intros r B Fn.
  - exists r. split; [reflexivity|]. split; [reflexivity|]. split; [intros ? ? []|reflexivity].
  - destruct (B p v (or_introl eq_refl)) as (Hp & Hv). destruct v as [v|]; [clear Hv|congruence].
    cbn [store]. assert (Lt : (p <? length r) = true) by (apply Nat.ltb_lt; exact Hp). rewrite Lt.
    destruct (IH (set_nth r p (Some v))) as (r' & E & L & P & Q).
    + intros q w Hi. rewrite set_nth_length. apply B. right. exact Hi.
    + intros q w w' H1 H2. apply (Fn q w w'); right; assumption.
    + exists r'. rewrite set_nth_length in L. split; [exact E|]. split; [exact L|].
      assert (K : (forall w, ~ In (p, w) l) -> nth_error r' p = Some (Some v)).
      { intro N. rewrite (Q p N). apply set_nth_same. exact Hp. }
      split.
      * intros q w [[= <- <-]|Hi]; [|exact (P q w Hi)].
        destruct (in_dec Nat.eq_dec p (map fst l)) as [Hi|Hn].
        -- apply in_map_iff in Hi as ((q & w) & Eq & Hi). cbn in Eq. subst q.
           assert (w = Some v) by (apply (Fn p w (Some v)); [right; exact Hi|left; reflexivity]). subst w.
           exact (P p v Hi).
        -- apply K. intros w Hi. apply Hn. change p with (fst (p, w)). apply in_map. exact Hi.
      * intros q N. rewrite Q by (intros w Hi; apply (N w); right; exact Hi).
        apply set_nth_other. intros ->. apply (N (Some v)). left. reflexivity.
Qed.

Lemma all_written r : (forall p, p < length r -> exists v, nth_error r p = Some (Some v)) -> exists t, r = filled t.
Proof.
  induction r as [|c r IH]; intro H; [exists []; reflexivity|].
  destruct (H 0) as (v & E); [cbn; lia|]. cbn in E. injection E as ->.
  destruct IH as (t & ->).
  { intros p Hp. apply (H (S p)). cbn. lia. }
  exists (v :: t). reflexivity.
Qed.
Lemma filled_length (t : list F) : length (filled t) = length t.
Proof. apply map_length. Qed.
Lemma filled_nth (t : list F) p : nth_error (filled t) p = option_map Some (nth_error t p).
Proof. apply nth_error_map. Qed.
Lemma filled_inj (t t' : list F) : filled t = filled t' -> t = t'.
Proof.
  revert t'. induction t as [|x t IH]; intros [|y t']; cbn; try discriminate; [reflexivity|].
  intros [= -> E]. f_equal. exact (IH _ E).
Qed.
Lemma nth_ext (r r' : cells) : length r = length r' ->
  (forall p, p < length r -> nth_error r p = nth_error r' p) -> r = r'.
Proof.
  revert r'. induction r as [|x r IH]; intros [|y r']; cbn; try discriminate; [reflexivity|].
  intros [= E] H. assert (H0 := H 0 ltac:(lia)). cbn in H0. injection H0 as ->. f_equal. apply IH; [exact E|].
  intros p Hp. apply (H (S p)). lia.
Qed.
Lemma nth_some {B} (l : list B) p : p < length l -> exists v, nth_error l p = Some v.
Proof. intro H. destruct (nth_error l p) eqn:E; [eauto|]. apply nth_error_None in E. lia. Qed.
Lemma new_length n : length (new n : cells) = n.
Proof. apply repeat_length. Qed.

(** ** Transposition *)
Lemma transpose_real_ok m n (sp : list F) : m * n <= length sp ->
  exists r, transpose_real m n sp = Some r /\ length r = n * m /\
    forall i j, i < m -> j < n -> rentry n r j i = Some (rentry m sp i j).
Proof.
  intro L. unfold transpose_real.
  destruct (store_ok (for_ 0 m (fun i => for_ 0 n (fun j => [(j + i * n, nth_error sp (i + j * m))]))) (new (n * m)))
    as (r & E & Lr & P & _).
  - intros p v H. apply for_in in H as (i & Hi & H). apply for_in in H as (j & Hj & H).
    apply in1 in H as (<- & <-). rewrite new_length. split; [apply idx_lt; lia|].
    apply nth_error_Some. assert (i + j * m < m * n) by (apply idx_lt; lia). lia.
  - intros p v v' H H'. apply for_in in H as (i & Hi & H). apply for_in in H as (j & Hj & H).
    apply for_in in H' as (i' & Hi' & H'). apply for_in in H' as (j' & Hj' & H').
    apply in1 in H as (<- & <-). apply in1 in H' as (E' & <-).
    apply idx_inj in E' as (-> & ->); [reflexivity|lia|lia].
  - exists r. split; [exact E|]. split; [rewrite Lr; apply new_length|].
    intros i j Hi Hj. unfold rentry. destruct (nth_some sp (i + j * m)) as (v & Ev).
    { assert (i + j * m < m * n) by (apply idx_lt; lia). lia. }
    rewrite Ev. apply P. apply for_in. exists i. split; [lia|]. apply for_in. exists j. split; [lia|].
    left. rewrite Ev. reflexivity.
Qed.

Lemma transpose_real_twice m n (sp : list F) : length sp = m * n ->
  exists t, transpose_real m n sp = Some (filled t) /\ transpose_real n m t = Some (filled sp).
Proof.
  intro L. destruct (transpose_real_ok m n sp ltac:(lia)) as (r & E & Lr & H).
  destruct (all_written r) as (t & ->).
  { intros p Hp. rewrite Lr in Hp. apply idx_split in Hp as (j & i & Hj & Hi & ->).
    specialize (H i j Hi Hj). unfold rentry in H. rewrite H.
    destruct (nth_some sp (i + j * m)) as (v & Ev); [rewrite L; apply idx_lt; assumption|]. rewrite Ev. eauto. }
  exists t. split; [exact E|]. rewrite filled_length in Lr.
  destruct (transpose_real_ok n m t ltac:(lia)) as (r & E2 & Lr2 & H2). rewrite E2. f_equal.
  apply nth_ext; [rewrite filled_length; lia|]. intros p Hp. rewrite Lr2 in Hp.
  apply idx_split in Hp as (i & j & Hi & Hj & ->).
  specialize (H2 j i Hj Hi). specialize (H i j Hi Hj). unfold rentry in *. rewrite H2.
  rewrite filled_nth in *. destruct (nth_some sp (i + j * m)) as (v & Ev); [rewrite L; apply idx_lt; assumption|].
  rewrite Ev in *. destruct (nth_error t (j + i * n)); cbn in *; [|discriminate]. injection H as ->. reflexivity.
Qed.

Lemma transpose_complex_ok m n (sp : list F) : 2 * m * n <= length sp ->
  exists r, transpose_complex m n sp = Some r /\ length r = 2 * n * m /\
    forall i j, i < m -> j < n ->
      re n r j i = Some (re m sp i j) /\ im n r j i = Some (option_map fopp (im m sp i j)).
Proof.
  intro L. unfold transpose_complex.
  destruct (store_ok (for_ 0 n (fun i => for_ 0 m (fun j =>
    [(2 * i + 2 * j * n, nth_error sp (2 * j + i * 2 * m));
     (2 * i + 1 + 2 * j * n, option_map fopp (nth_error sp (2 * j + 1 + i * 2 * m)))])))
    (new (2 * n * m))) as (r & E & Lr & P & _).
  - intros p v H. apply for_in in H as (i & Hi & H). apply for_in in H as (j & Hj & H). rewrite new_length.
    assert (i + j * n < n * m) by (apply idx_lt; lia). assert (j + i * m < m * n) by (apply idx_lt; lia).
    apply in2 in H as [(<- & <-)|(<- & <-)].
    + split; [nia|]. apply nth_error_Some. nia.
    + split; [nia|]. destruct (nth_some sp (2 * j + 1 + i * 2 * m)) as (w & Ew); [nia|]. rewrite Ew. discriminate.
  - intros p v v' H H'. apply for_in in H as (i & Hi & H). apply for_in in H as (j & Hj & H).
    apply for_in in H' as (i' & Hi' & H'). apply for_in in H' as (j' & Hj' & H').
    apply in2 in H as [(<- & <-)|(<- & <-)]; apply in2 in H' as [(E' & <-)|(E' & <-)].
    + assert (E2 : i + j * n = i' + j' * n) by lia. apply idx_inj in E2 as (-> & ->); [reflexivity|lia|lia].
    + exfalso. assert (E2 : 2 * (i + j * n) = 2 * (i' + j' * n) + 1) by lia. lia.
    + exfalso. assert (E2 : 2 * (i + j * n) + 1 = 2 * (i' + j' * n)) by lia. lia.
    + assert (E2 : i + j * n = i' + j' * n) by lia. apply idx_inj in E2 as (-> & ->); [reflexivity|lia|lia].
  - exists r. split; [exact E|]. split; [rewrite Lr; apply new_length|].
    intros i j Hi Hj. assert (Lt : i + j * m < m * n) by (apply idx_lt; lia).
    unfold re, im. split.
    + destruct (nth_some sp (2 * (i + j * m))) as (v & Ev); [nia|]. rewrite Ev. apply P.
      apply for_in. exists j. split; [lia|]. apply for_in. exists i. split; [lia|].
      left. replace (2 * i + j * 2 * m) with (2 * (i + j * m)) by lia. rewrite Ev. f_equal. lia.
    + destruct (nth_some sp (2 * (i + j * m) + 1)) as (v & Ev); [nia|]. rewrite Ev. apply P.
      apply for_in. exists j. split; [lia|]. apply for_in. exists i. split; [lia|].
      right. left. replace (2 * i + 1 + j * 2 * m) with (2 * (i + j * m) + 1) by lia. rewrite Ev. f_equal. lia.
Qed.

Lemma idx2_split m n p : p < 2 * m * n ->
  exists i j, i < m /\ j < n /\ (p = 2 * (i + j * m) \/ p = 2 * (i + j * m) + 1).
Proof.
  intro H. destruct (idx_split m n (p / 2)) as (i & j & Hi & Hj & E).
  { apply Nat.div_lt_upper_bound; lia. }
  exists i, j. split; [exact Hi|]. split; [exact Hj|]. rewrite <- E.
  assert (D := Nat.div_mod p 2 ltac:(lia)). assert (p mod 2 < 2) by (apply Nat.mod_upper_bound; lia). lia.
Qed.

Lemma transpose_complex_twice m n (sp : list F) :
  (forall x : F, fopp (fopp x) = x) -> length sp = 2 * m * n ->
  exists t, transpose_complex m n sp = Some (filled t) /\ transpose_complex n m t = Some (filled sp).
Proof.
  intros Opp L. destruct (transpose_complex_ok m n sp ltac:(lia)) as (r & E & Lr & H).
  destruct (all_written r) as (t & ->).
  { intros p Hp. rewrite Lr in Hp. apply idx2_split in Hp as (j & i & Hj & Hi & C).
    assert (Lt : i + j * m < m * n) by (apply idx_lt; lia).
    destruct (H i j Hi Hj) as (H1 & H2). unfold re, im in H1, H2.
    destruct C as [->| ->]; [rewrite H1|rewrite H2].
    - destruct (nth_some sp (2 * (i + j * m))) as (v & Ev); [nia|]. rewrite Ev. eauto.
    - destruct (nth_some sp (2 * (i + j * m) + 1)) as (v & Ev); [nia|]. rewrite Ev. cbn. eauto. }
  exists t. split; [exact E|]. rewrite filled_length in Lr.
  destruct (transpose_complex_ok n m t ltac:(lia)) as (r & E2 & Lr2 & H2). rewrite E2. f_equal.
  apply nth_ext; [rewrite filled_length; lia|]. intros p Hp. rewrite Lr2 in Hp.
  apply idx2_split in Hp as (i & j & Hi & Hj & C).
  assert (Lt : i + j * m < m * n) by (apply idx_lt; lia).
  destruct (H2 j i Hj Hi) as (K1 & K2). destruct (H i j Hi Hj) as (H3 & H4). unfold re, im in *.
  rewrite filled_nth in H3, H4.
  destruct C as [->| ->]; rewrite filled_nth; [rewrite K1|rewrite K2].
  - destruct (nth_some sp (2 * (i + j * m))) as (v & Ev); [nia|]. rewrite Ev in *.
    destruct (nth_error t (2 * (j + i * n))); cbn [option_map] in *; [injection H3 as ->; reflexivity|discriminate].
  - destruct (nth_some sp (2 * (i + j * m) + 1)) as (v & Ev); [nia|]. rewrite Ev in *.
    destruct (nth_error t (2 * (j + i * n) + 1)); cbn [option_map] in *; [injection H4 as ->; rewrite Opp; reflexivity|discriminate].
Qed.
End store.

Section more.
Context {A : arith}.
Notation F := (F A).
Notation cells := (cells A).

(** ** Blocks *)
Lemma read_some (sp : cells) p v : nth_error sp p = Some (Some v) -> read sp p = Some v.
Proof. unfold read. intros ->. reflexivity. Qed.

Lemma assign_real_ok m n (r : cells) r0 r1 c0 c1 (mat : list F) :
  r0 <= r1 < m -> c0 <= c1 < n -> m * n <= length r ->
  length mat = (r1 - r0 + 1) * (c1 - c0 + 1) ->
  exists r', assign_real m r r0 r1 c0 c1 mat = Some r' /\ length r' = length r /\
    (forall i j, r0 <= i <= r1 -> c0 <= j <= c1 ->
       rentry m r' i j = Some (rentry (r1 - r0 + 1) mat (i - r0) (j - c0))) /\
    (forall i j, i < m -> ~ (r0 <= i <= r1 /\ c0 <= j <= c1) -> rentry m r' i j = rentry m r i j).
Proof.
  intros Hr Hc L Lm. unfold assign_real.
  set (l := for_ c0 (c1 + 1) _).
  destruct (store_ok l r) as (r' & E & Lr & P & Q).
  - intros p v H. apply for_in in H as (j & Hj & H). apply for_in in H as (i & Hi & H).
    apply in1 in H as (<- & <-). split.
    + assert (i + j * m < m * n) by (apply idx_lt; lia). lia.
    + apply nth_error_Some. rewrite Lm. apply idx_lt; lia.
  - intros p v v' H H'. apply for_in in H as (j & Hj & H). apply for_in in H as (i & Hi & H).
    apply for_in in H' as (j' & Hj' & H'). apply for_in in H' as (i' & Hi' & H').
    apply in1 in H as (<- & <-). apply in1 in H' as (E' & <-).
    apply idx_inj in E' as (-> & ->); [reflexivity|lia|lia].
  - exists r'. split; [exact E|]. split; [exact Lr|]. split.
    + intros i j Hi Hj. unfold rentry.
      destruct (nth_some mat (i - r0 + (j - c0) * (r1 - r0 + 1))) as (v & Ev); [rewrite Lm; apply idx_lt; lia|].
      rewrite Ev. apply P. apply for_in. exists j. split; [lia|]. apply for_in. exists i. split; [lia|].
      left. rewrite Ev. reflexivity.
    + intros i j Hi N. unfold rentry. apply Q. intros v H. apply N.
      apply for_in in H as (j' & Hj' & H). apply for_in in H as (i' & Hi' & H). apply in1 in H as (E' & _).
      apply idx_inj in E' as (-> & ->); lia.
Qed.

Lemma assign_complex_ok m n (r : cells) r0 r1 c0 c1 (mat : list F) :
  r0 <= r1 < m -> c0 <= c1 < n -> 2 * m * n <= length r ->
  length mat = 2 * (r1 - r0 + 1) * (c1 - c0 + 1) ->
  exists r', assign_complex m r r0 r1 c0 c1 mat = Some r' /\ length r' = length r /\
    (forall i j, r0 <= i <= r1 -> c0 <= j <= c1 ->
       re m r' i j = Some (re (r1 - r0 + 1) mat (i - r0) (j - c0)) /\
       im m r' i j = Some (im (r1 - r0 + 1) mat (i - r0) (j - c0))) /\
    (forall i j, i < m -> ~ (r0 <= i <= r1 /\ c0 <= j <= c1) ->
       re m r' i j = re m r i j /\ im m r' i j = im m r i j).
Proof.
  intros Hr Hc L Lm. unfold assign_complex. cbv zeta. set (w := r1 - r0 + 1) in *.
  set (l := for_ c0 (c1 + 1) _).
  assert (Hl : forall p v, In (p, v) l -> exists i j, r0 <= i <= r1 /\ c0 <= j <= c1 /\
    (p = 2 * (i + j * m) /\ v = nth_error mat (2 * (i - r0 + (j - c0) * w)) \/
     p = 2 * (i + j * m) + 1 /\ v = nth_error mat (2 * (i - r0 + (j - c0) * w) + 1))).
  { intros p v H. apply for_in in H as (j & Hj & H). apply for_in in H as (i & Hi & H).
    exists i, j. split; [lia|]. split; [lia|]. apply in2 in H as [(<- & <-)|(<- & <-)]; [left|right].
    - split; [lia|f_equal; lia].
    - split; [lia|f_equal; lia]. }
  assert (Hl' : forall i j, r0 <= i <= r1 -> c0 <= j <= c1 ->
     In (2 * (i + j * m), nth_error mat (2 * (i - r0 + (j - c0) * w))) l /\
     In (2 * (i + j * m) + 1, nth_error mat (2 * (i - r0 + (j - c0) * w) + 1)) l).
  { intros i j Hi Hj. split; apply for_in; exists j; (split; [lia|]); apply for_in; exists i; (split; [lia|]).
    - left. f_equal; [lia|f_equal; lia].
    - right. left. f_equal; [lia|f_equal; lia]. }
  clearbody l.
  assert (Lt : forall i j, r0 <= i <= r1 -> c0 <= j <= c1 -> i + j * m < m * n /\ i - r0 + (j - c0) * w < w * (c1 - c0 + 1)).
  { intros i j Hi Hj. split; apply idx_lt; lia. }
  destruct (store_ok l r) as (r' & E & Lr & P & Q).
  - intros p v H. apply Hl in H as (i & j & Hi & Hj & H). destruct (Lt i j Hi Hj).
    destruct H as [(-> & ->)|(-> & ->)]; (split; [nia|apply nth_error_Some; nia]).
  - intros p v v' H H'. apply Hl in H as (i & j & Hi & Hj & H). apply Hl in H' as (i' & j' & Hi' & Hj' & H').
    destruct H as [(-> & ->)|(-> & ->)]; destruct H' as [(E' & ->)|(E' & ->)]; try (exfalso; lia).
    + assert (E2 : i + j * m = i' + j' * m) by lia. apply idx_inj in E2 as (-> & ->); [reflexivity|lia|lia].
    + assert (E2 : i + j * m = i' + j' * m) by lia. apply idx_inj in E2 as (-> & ->); [reflexivity|lia|lia].
  - exists r'. split; [exact E|]. split; [exact Lr|]. split.
    + intros i j Hi Hj. destruct (Lt i j Hi Hj). destruct (Hl' i j Hi Hj) as (I1 & I2). unfold re, im. split.
      * destruct (nth_some mat (2 * (i - r0 + (j - c0) * w))) as (v & Ev); [nia|]. rewrite Ev in *. apply P. exact I1.
      * destruct (nth_some mat (2 * (i - r0 + (j - c0) * w) + 1)) as (v & Ev); [nia|]. rewrite Ev in *. apply P. exact I2.
    + intros i j Hi N. unfold re, im. split; apply Q; intros v H; apply N;
        apply Hl in H as (i' & j' & Hi' & Hj' & [(E' & _)|(E' & _)]); try (exfalso; lia);
        (assert (E2 : i + j * m = i' + j' * m) by lia; apply idx_inj in E2 as (-> & ->); lia).
Qed.

Lemma submatrix_real_ok m (sp : cells) r0 r1 c0 c1 (mat : list F) :
  r0 <= r1 -> c0 <= c1 -> length mat = (r1 - r0 + 1) * (c1 - c0 + 1) ->
  (forall i j, r0 <= i <= r1 -> c0 <= j <= c1 ->
     rentry m sp i j = Some (rentry (r1 - r0 + 1) mat (i - r0) (j - c0))) ->
  submatrix_real m sp r0 r1 c0 c1 = Some (filled mat).
Proof.
  intros Hr Hc Lm H. unfold submatrix_real. cbv zeta. set (w := r1 - r0 + 1) in *.
  set (l := for_ c0 (c1 + 1) _).
  assert (Hv : forall i j, r0 <= i <= r1 -> c0 <= j <= c1 -> exists v,
    nth_error mat (i - r0 + (j - c0) * w) = Some v /\ read sp (i + j * m) = Some v).
  { intros i j Hi Hj. destruct (nth_some mat (i - r0 + (j - c0) * w)) as (v & Ev); [rewrite Lm; apply idx_lt; lia|].
    exists v. split; [exact Ev|]. apply read_some. specialize (H i j Hi Hj). unfold rentry in H. rewrite Ev in H. exact H. }
  destruct (store_ok l (new (w * (c1 - c0 + 1)))) as (r' & E & Lr & P & _).
  - intros p v Hi. apply for_in in Hi as (j & Hj & Hi). apply for_in in Hi as (i & Hii & Hi).
    apply in1 in Hi as (<- & <-). rewrite new_length. split; [apply idx_lt; lia|].
    destruct (Hv i j) as (v & _ & Ev); [lia|lia|]. rewrite Ev. discriminate.
  - intros p v v' K K'. apply for_in in K as (j & Hj & K). apply for_in in K as (i & Hi & K).
    apply for_in in K' as (j' & Hj' & K'). apply for_in in K' as (i' & Hi' & K').
    apply in1 in K as (<- & <-). apply in1 in K' as (E' & <-).
    apply idx_inj in E' as (E1 & E2); [|lia|lia]. replace i' with i by lia. replace j' with j by lia. reflexivity.
  - rewrite E. f_equal. rewrite new_length in Lr. apply nth_ext; [rewrite filled_length; lia|].
    intros p Hp. rewrite Lr in Hp. apply idx_split in Hp as (i & j & Hi & Hj & ->).
    destruct (Hv (i + r0) (j + c0)) as (v & E1 & E2); [lia|lia|].
    replace (i + r0 - r0) with i in E1 by lia. replace (j + c0 - c0) with j in E1 by lia.
    rewrite filled_nth, E1. apply P. apply for_in. exists (j + c0). split; [lia|]. apply for_in. exists (i + r0).
    split; [lia|]. left. rewrite E2. f_equal. lia.
Qed.

Lemma submatrix_complex_ok m (sp : cells) r0 r1 c0 c1 (mat : list F) :
  r0 <= r1 -> c0 <= c1 -> length mat = 2 * (r1 - r0 + 1) * (c1 - c0 + 1) ->
  (forall i j, r0 <= i <= r1 -> c0 <= j <= c1 ->
     re m sp i j = Some (re (r1 - r0 + 1) mat (i - r0) (j - c0)) /\
     im m sp i j = Some (im (r1 - r0 + 1) mat (i - r0) (j - c0))) ->
  submatrix_complex m sp r0 r1 c0 c1 = Some (filled mat).
Proof.
  intros Hr Hc Lm H. unfold submatrix_complex. cbv zeta. set (w := r1 - r0 + 1) in *.
  set (l := for_ c0 (c1 + 1) _).
  assert (Lt : forall i j, i < w -> j < c1 - c0 + 1 -> i + j * w < w * (c1 - c0 + 1)) by (intros; apply idx_lt; lia).
  assert (Hv : forall i j, i < w -> j < c1 - c0 + 1 -> exists u v,
    nth_error mat (2 * (i + j * w)) = Some u /\ read sp (2 * (i + r0) + (j + c0) * (2 * m)) = Some u /\
    nth_error mat (2 * (i + j * w) + 1) = Some v /\ read sp (2 * (i + r0) + 1 + (j + c0) * (2 * m)) = Some v).
  { intros i j Hi Hj. assert (L1 := Lt i j Hi Hj).
    destruct (nth_some mat (2 * (i + j * w))) as (u & Eu); [nia|].
    destruct (nth_some mat (2 * (i + j * w) + 1)) as (v & Ev); [nia|].
    exists u, v. destruct (H (i + r0) (j + c0)) as (H1 & H2); [lia|lia|].
    replace (i + r0 - r0) with i in * by lia. replace (j + c0 - c0) with j in * by lia.
    unfold re, im in H1, H2. rewrite Eu in H1. rewrite Ev in H2.
    split; [exact Eu|]. split; [|split; [exact Ev|]]; apply read_some.
    - rewrite <- H1. f_equal. lia.
    - rewrite <- H2. f_equal. lia. }
  assert (Hl : forall p v, In (p, v) l -> exists i j, i < w /\ j < c1 - c0 + 1 /\
    (p = 2 * (i + j * w) /\ v = read sp (2 * (i + r0) + (j + c0) * (2 * m)) \/
     p = 2 * (i + j * w) + 1 /\ v = read sp (2 * (i + r0) + 1 + (j + c0) * (2 * m)))).
  { intros p v K. apply for_in in K as (j & Hj & K). apply for_in in K as (i & Hi & K).
    exists (i - r0), (j - c0). split; [lia|]. split; [lia|]. replace (i - r0 + r0) with i by lia. replace (j - c0 + c0) with j by lia.
    apply in2 in K as [(<- & <-)|(<- & <-)]; [left|right]; (split; [lia|reflexivity]). }
  assert (Hl' : forall i j, i < w -> j < c1 - c0 + 1 ->
    In (2 * (i + j * w), read sp (2 * (i + r0) + (j + c0) * (2 * m))) l /\
    In (2 * (i + j * w) + 1, read sp (2 * (i + r0) + 1 + (j + c0) * (2 * m))) l).
  { intros i j Hi Hj. split; apply for_in; exists (j + c0); (split; [lia|]); apply for_in; exists (i + r0); (split; [lia|]).
    - left. f_equal. replace (i + r0 - r0) with i by lia. replace (j + c0 - c0) with j by lia. lia.
    - right. left. f_equal. replace (i + r0 - r0) with i by lia. replace (j + c0 - c0) with j by lia. lia. }
  clearbody l.
  destruct (store_ok l (new (2 * w * (c1 - c0 + 1)))) as (r' & E & Lr & P & _).
  - intros p v K. apply Hl in K as (i & j & Hi & Hj & K). destruct (Hv i j Hi Hj) as (u & v' & _ & E1 & _ & E2).
    assert (L1 := Lt i j Hi Hj). rewrite new_length.
    destruct K as [(-> & ->)|(-> & ->)]; (split; [nia|]); [rewrite E1|rewrite E2]; discriminate.
  - intros p v v' K K'. apply Hl in K as (i & j & Hi & Hj & K). apply Hl in K' as (i' & j' & Hi' & Hj' & K').
    destruct K as [(-> & ->)|(-> & ->)]; destruct K' as [(E' & ->)|(E' & ->)]; try (exfalso; lia);
      (assert (E2 : i + j * w = i' + j' * w) by lia; apply idx_inj in E2 as (-> & ->); [reflexivity|lia|lia]).
  - rewrite E. f_equal. rewrite new_length in Lr. apply nth_ext; [rewrite filled_length; lia|].
    intros p Hp. rewrite Lr in Hp. apply idx2_split in Hp as (i & j & Hi & Hj & C).
    destruct (Hv i j Hi Hj) as (u & v & E1 & E2 & E3 & E4). destruct (Hl' i j Hi Hj) as (I1 & I2).
    destruct C as [->| ->]; rewrite filled_nth; [rewrite E1|rewrite E3]; apply P; [rewrite <- E2; exact I1|rewrite <- E4; exact I2].
Qed.

(** ** Identities *)
Lemma repeat_nth {B} (v : B) n p : p < n -> nth_error (repeat v n) p = Some v.
Proof. revert p. induction n as [|n IH]; intros [|p] H; cbn; try lia; [reflexivity|apply IH; lia]. Qed.

Lemma identity_real_ok m n : exists r, identity_real (A := A) m n = Some r /\ length r = m * n /\
  forall i j, i < m -> j < n -> rentry m r i j = Some (Some (if i =? j then fq 1%Q else fq 0%Q)).
Proof.
  unfold identity_real. set (l := for_ 0 _ _).
  destruct (store_ok l (filled (repeat (fq 0%Q) (m * n)))) as (r & E & Lr & P & Q).
  - intros p v H. apply for_in in H as (i & Hi & H). apply in1 in H as (<- & <-).
    rewrite filled_length, repeat_length. split; [apply idx_lt; lia|discriminate].
  - intros p v v' H H'. apply for_in in H as (i & Hi & H). apply for_in in H' as (i' & Hi' & H').
    apply in1 in H as (_ & <-). apply in1 in H' as (_ & <-). reflexivity.
  - rewrite filled_length, repeat_length in Lr. exists r. split; [exact E|]. split; [exact Lr|].
    intros i j Hi Hj. unfold rentry. destruct (Nat.eqb_spec i j) as [->|N].
    + apply P. apply for_in. exists j. split; [lia|]. left. reflexivity.
    + rewrite Q.
      * rewrite filled_nth, repeat_nth by (apply idx_lt; lia). reflexivity.
      * intros v H. apply for_in in H as (k & Hk & H). apply in1 in H as (E' & _).
        apply idx_inj in E' as (E1 & E2); lia.
Qed.

Lemma identity_complex_ok m n : exists r, identity_complex (A := A) m n = Some r /\ length r = 2 * m * n /\
  forall i j, i < m -> j < n -> re m r i j = Some (Some (if i =? j then fq 1%Q else fq 0%Q)) /\
    im m r i j = Some (Some (fq 0%Q)).
Proof.
  unfold identity_complex. set (l := for_ 0 _ _).
  assert (Hl : forall p v, In (p, v) l <-> exists i, i < Nat.min m n /\ p = 2 * (i + i * m) /\ v = Some (fq 1%Q)).
  { intros p v. unfold l. rewrite for_in. split.
    - intros (i & Hi & H). apply in1 in H as (<- & <-). exists i. split; [lia|]. split; [lia|reflexivity].
    - intros (i & Hi & -> & ->). exists i. split; [lia|]. left. f_equal. lia. }
  clearbody l.
  destruct (store_ok l (filled (repeat (fq 0%Q) (2 * m * n)))) as (r & E & Lr & P & Q).
  - intros p v H. apply Hl in H as (i & Hi & -> & ->).
    rewrite filled_length, repeat_length. split; [|discriminate]. assert (i + i * m < m * n) by (apply idx_lt; lia). nia.
  - intros p v v' H H'. apply Hl in H as (i & Hi & _ & ->). apply Hl in H' as (i' & Hi' & _ & ->). reflexivity.
  - rewrite filled_length, repeat_length in Lr. exists r. split; [exact E|]. split; [exact Lr|].
    intros i j Hi Hj. assert (Lt : i + j * m < m * n) by (apply idx_lt; lia). unfold re, im. split.
    + destruct (Nat.eqb_spec i j) as [->|N].
      * apply P. apply Hl. exists j. split; [lia|]. split; reflexivity.
      * rewrite Q; [rewrite filled_nth, repeat_nth by nia; reflexivity|].
        intros v H. apply Hl in H as (k & Hk & E' & _). assert (E2 : i + j * m = k + k * m) by lia.
        apply idx_inj in E2 as (E1 & E2); lia.
    + rewrite Q; [rewrite filled_nth, repeat_nth by nia; reflexivity|].
      intros v H. apply Hl in H as (k & Hk & E' & _). lia.
Qed.

Lemma scaled_identity_ok n (s : F) : exists r, scaled_identity n s = Some r /\ length r = n * n /\
  forall i j, i < n -> j < n -> rentry n r i j = Some (Some (if i =? j then s else fq 0%Q)).
Proof.
  unfold scaled_identity. set (l := for_ 0 n _).
  assert (Hl : forall p v, In (p, v) l -> exists i j, i < n /\ j < n /\ p = i + j * n /\
     v = Some (if i =? j then s else fq 0%Q)).
  { intros p v H. apply for_in in H as (i & Hi & [[= <- <-]|H]).
    - exists i, i. rewrite Nat.eqb_refl. repeat split; lia.
    - apply for_in in H as (j & Hj & H). apply in2 in H as [(<- & <-)|(<- & <-)].
      + exists i, j. destruct (Nat.eqb_spec i j); [lia|]. repeat split; lia.
      + exists j, i. destruct (Nat.eqb_spec j i); [lia|]. repeat split; lia. }
  assert (Hl' : forall i j, i < n -> j < n -> In (i + j * n, Some (if i =? j then s else fq 0%Q)) l).
  { intros i j Hi Hj. destruct (Nat.lt_total i j) as [L|[->|L]].
    - apply for_in. exists i. split; [lia|]. right. apply for_in. exists j. split; [lia|]. left.
      destruct (Nat.eqb_spec i j); [lia|]. reflexivity.
    - apply for_in. exists j. split; [lia|]. left. rewrite Nat.eqb_refl. reflexivity.
    - apply for_in. exists j. split; [lia|]. right. apply for_in. exists i. split; [lia|]. right. left.
      destruct (Nat.eqb_spec i j); [lia|]. reflexivity. }
  clearbody l. destruct (store_ok l (new (n * n))) as (r & E & Lr & P & _).
  - intros p v H. apply Hl in H as (i & j & Hi & Hj & -> & ->). rewrite new_length. split; [apply idx_lt; lia|discriminate].
  - intros p v v' H H'. apply Hl in H as (i & j & Hi & Hj & -> & ->). apply Hl in H' as (i' & j' & Hi' & Hj' & E' & ->).
    apply idx_inj in E' as (-> & ->); [reflexivity|lia|lia].
  - rewrite new_length in Lr. exists r. split; [exact E|]. split; [exact Lr|].
    intros i j Hi Hj. apply P. apply Hl'; assumption.
Qed.

(** ** Diagonal scaling *)
Lemma diag_left_ok n m (d M : list F) : length d = n -> length M = n * m ->
  exists r, diag_left_real n m d M = Some r /\ length r = n * m /\
    forall i j, i < n -> j < m -> rentry n r i j = Some (both fmul (nth_error d i) (rentry n M i j)).
Proof.
  intros Ld LM. unfold diag_left_real. set (l := for_ 0 n _).
  assert (Hv : forall i j, i < n -> j < m -> exists v, both fmul (nth_error d i) (nth_error M (i + j * n)) = Some v).
  { intros i j Hi Hj. destruct (nth_some d i) as (x & ->); [lia|].
    destruct (nth_some M (i + j * n)) as (y & ->); [rewrite LM; apply idx_lt; lia|]. cbn. eauto. }
  destruct (store_ok l (filled M)) as (r & E & Lr & P & _).
  - intros p v H. apply for_in in H as (i & Hi & H). apply for_in in H as (j & Hj & H). apply in1 in H as (<- & <-).
    rewrite filled_length, LM. split; [apply idx_lt; lia|]. destruct (Hv i j) as (v & ->); [lia|lia|discriminate].
  - intros p v v' H H'. apply for_in in H as (i & Hi & H). apply for_in in H as (j & Hj & H).
    apply for_in in H' as (i' & Hi' & H'). apply for_in in H' as (j' & Hj' & H').
    apply in1 in H as (<- & <-). apply in1 in H' as (E' & <-). apply idx_inj in E' as (-> & ->); [reflexivity|lia|lia].
  - rewrite filled_length, LM in Lr. exists r. split; [exact E|]. split; [exact Lr|].
    intros i j Hi Hj. unfold rentry. destruct (Hv i j Hi Hj) as (v & Ev). rewrite Ev. apply P.
    apply for_in. exists i. split; [lia|]. apply for_in. exists j. split; [lia|]. left. rewrite Ev. reflexivity.
Qed.
Lemma diag_right_ok n m (d M : list F) : length d = m -> length M = n * m ->
  exists r, diag_right_real n m d M = Some r /\ length r = n * m /\
    forall i j, i < n -> j < m -> rentry n r i j = Some (both fmul (nth_error d j) (rentry n M i j)).
Proof.
  intros Ld LM. unfold diag_right_real. set (l := for_ 0 m _).
  assert (Hv : forall i j, i < n -> j < m -> exists v, both fmul (nth_error d j) (nth_error M (j * n + i)) = Some v).
  { intros i j Hi Hj. destruct (nth_some d j) as (x & ->); [lia|].
    destruct (nth_some M (j * n + i)) as (y & ->); [rewrite LM, Nat.add_comm; apply idx_lt; lia|]. cbn. eauto. }
  destruct (store_ok l (filled M)) as (r & E & Lr & P & _).
  - intros p v H. apply for_in in H as (j & Hj & H). apply for_in in H as (i & Hi & H). apply in1 in H as (<- & <-).
    rewrite filled_length, LM. split; [rewrite Nat.add_comm; apply idx_lt; lia|]. destruct (Hv i j) as (v & ->); [lia|lia|discriminate].
  - intros p v v' H H'. apply for_in in H as (j & Hj & H). apply for_in in H as (i & Hi & H).
    apply for_in in H' as (j' & Hj' & H'). apply for_in in H' as (i' & Hi' & H').
    apply in1 in H as (<- & <-). apply in1 in H' as (E' & <-). rewrite (Nat.add_comm (j' * n)), (Nat.add_comm (j * n)) in E'.
    apply idx_inj in E' as (-> & ->); [reflexivity|lia|lia].
  - rewrite filled_length, LM in Lr. exists r. split; [exact E|]. split; [exact Lr|].
    intros i j Hi Hj. unfold rentry. destruct (Hv i j Hi Hj) as (v & Ev). rewrite (Nat.add_comm i (j * n)), Ev. apply P.
    apply for_in. exists j. split; [lia|]. apply for_in. exists i. split; [lia|]. left. rewrite Ev. reflexivity.
Qed.

(** ** Real and complex *)
Lemma real_to_complex_ok m n (sp : list F) : length sp = m * n ->
  exists r, real_to_complex sp = Some r /\ length r = 2 * m * n /\
    forall i j, i < m -> j < n -> re m r i j = Some (rentry m sp i j) /\ im m r i j = Some (Some (fq 0%Q)).
Proof.
  intro L. unfold real_to_complex. set (l := for_ 0 _ _).
  assert (Hl : forall p v, In (p, v) l <-> exists k, k < m * n /\ p = 2 * k /\ v = nth_error sp k).
  { intros p v. unfold l. rewrite for_in, L. split.
    - intros (i & Hi & H). apply in1 in H as (<- & <-). exists i. split; [lia|]. split; reflexivity.
    - intros (i & Hi & -> & ->). exists i. split; [lia|]. left. reflexivity. }
  clearbody l.
  destruct (store_ok l (filled (repeat (fq 0%Q) (2 * length sp)))) as (r & E & Lr & P & Q).
  - intros p v H. apply Hl in H as (k & Hk & -> & ->). rewrite filled_length, repeat_length. split; [lia|].
    apply nth_error_Some. lia.
  - intros p v v' H H'. apply Hl in H as (k & Hk & -> & ->). apply Hl in H' as (k' & Hk' & E' & ->).
    replace k' with k by lia. reflexivity.
  - rewrite filled_length, repeat_length, L in Lr. exists r. split; [exact E|]. split; [lia|].
    intros i j Hi Hj. assert (Lt : i + j * m < m * n) by (apply idx_lt; lia). unfold re, im, rentry. split.
    + destruct (nth_some sp (i + j * m)) as (v & Ev); [lia|]. rewrite Ev. apply P. apply Hl.
      exists (i + j * m). split; [exact Lt|]. split; [reflexivity|]. symmetry. exact Ev.
    + rewrite Q; [rewrite filled_nth, repeat_nth by lia; reflexivity|].
      intros v H. apply Hl in H as (k & _ & E' & _). lia.
Qed.
End more.
