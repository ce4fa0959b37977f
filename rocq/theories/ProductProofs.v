(** Proofs about product objects. *)
From stdpp Require Import gmap list.
From Coq Require Import ZArith Lia.
From Verif Require Import SmartSpaceModel ProductModel ProductSpec.
Open Scope nat_scope.

Section proofs.
Context {V : Type}.
Notation mem := (@mem V).
Notation pst := (@pst V).
Implicit Types (m : mem) (h : hdl) (H L : list hdl) (C : list nat).

Definition is_c (c : nat) h : bool := bool_decide (h_share h = Some c).
Fixpoint cnt (c : nat) (H : list hdl) : nat :=
  match H with [] => 0 | h :: H => (if is_c c h then 1 else 0) + cnt c H end.

Lemma cnt_perm c H H' : H ≡ₚ H' -> cnt c H = cnt c H'.
Proof. induction 1; cbn; lia. Qed.
Lemma is_c_true c h : h_share h = Some c -> is_c c h = true.
Proof. intro E. unfold is_c. apply bool_decide_eq_true_2, E. Qed.
Lemma is_c_false c h : h_share h <> Some c -> is_c c h = false.
Proof. intro E. unfold is_c. apply bool_decide_eq_false_2, E. Qed.
Lemma cnt_pos c h H : h ∈ H -> h_share h = Some c -> 0 < cnt c H.
Proof.
  induction 1; cbn; intro E; [rewrite (is_c_true _ _ E); lia|].
  specialize (IHelem_of_list E). destruct (is_c c y); lia.
Qed.
Lemma cnt_zero c H : (forall h, h ∈ H -> h_share h <> Some c) -> cnt c H = 0.
Proof.
  induction H as [|h H IH]; cbn; intro E; [reflexivity|].
  rewrite (is_c_false c h) by (apply E; left). rewrite IH; [reflexivity|].
  intros x Hx. apply E. right. exact Hx.
Qed.

(** Handles of variables: counters count them, storage is alive and long enough. *)
Definition hok m (H : list hdl) h : Prop :=
  (h_share h = None /\ h_ptr h = None) \/
  exists c d l, h_share h = Some c /\ h_ptr h = Some (d, 0) /\
    m_counts m !! c = Some (Z.of_nat (cnt c H)) /\ m_datas m !! d = Some l /\ length l = h_len h.

Record PI m (H : list hdl) : Prop := {
  pi_h : forall h, h ∈ H -> hok m H h;
  pi_pair : forall h1 h2 c, h1 ∈ H -> h2 ∈ H -> h_share h1 = Some c -> h_share h2 = Some c ->
     h_ptr h1 = h_ptr h2;
  pi_pair' : forall h1 h2 p, h1 ∈ H -> h2 ∈ H -> h_ptr h1 = Some p -> h_ptr h2 = Some p ->
     h_share h1 = h_share h2;
  pi_nc : forall c k, m_counts m !! c = Some k -> c < m_next m;
  pi_nd : forall d l, m_datas m !! d = Some l -> d < m_next m
}.

(** Counters of components: 1, each used once, not used by a variable. *)
Record CI m (H : list hdl) (C : list nat) : Prop := {
  ci_nodup : NoDup C;
  ci_one : forall c, c ∈ C -> m_counts m !! c = Some 1%Z;
  ci_sep : forall c h, c ∈ C -> h ∈ H -> h_share h <> Some c;
  (* nothing is allocated that nobody owns *)
  ci_cu : forall c k, m_counts m !! c = Some k -> c ∈ C \/ exists h, h ∈ H /\ h_share h = Some c;
  ci_du : forall d l, m_datas m !! d = Some l -> exists h o, h ∈ H /\ h_ptr h = Some (d, o)
}.

Lemma PI_perm m H H' : H ≡ₚ H' -> PI m H -> PI m H'.
Proof.
  intros P [A1 A2 A3 A4 A5]. constructor; [..|exact A4|exact A5].
  - intros h Hh. rewrite <- P in Hh. destruct (A1 h Hh) as [E|(c & d & l & E)]; [left; exact E|right].
    exists c, d, l. rewrite <- (cnt_perm c _ _ P). exact E.
  - intros h1 h2 c. rewrite <- P. apply A2.
  - intros h1 h2 c. rewrite <- P. apply A3.
Qed.
Lemma CI_perm m H H' C C' : H ≡ₚ H' -> C ≡ₚ C' -> CI m H C -> CI m H' C'.
Proof.
  intros P Q [A1 A2 A3 A4 A5]. constructor.
  - rewrite <- Q. exact A1.
  - intros c. rewrite <- Q. apply A2.
  - intros c h. rewrite <- P, <- Q. apply A3.
  - intros c k E. destruct (A4 c k E) as [F|(h & F1 & F2)]; [left; rewrite <- Q; exact F|].
    right. exists h. rewrite <- P. auto.
  - intros d l E. destruct (A5 d l E) as (h & o & F1 & F2). exists h, o. rewrite <- P. auto.
Qed.

Lemma PI_null m h H : h_share h = None -> h_ptr h = None -> PI m (h :: H) <-> PI m H.
Proof.
  intros E1 E2. assert (forall c, cnt c (h :: H) = cnt c H) as Ec.
  { intro c. cbn. rewrite is_c_false by congruence. reflexivity. }
  split; intros [A1 A2 A3 A4 A5]; constructor; try assumption.
  - intros x Hx. destruct (A1 x) as [E|(c & d & l & E)]; [right; exact Hx|left; exact E|right].
    exists c, d, l. rewrite Ec in E. exact E.
  - intros x y c Hx Hy. apply A2; right; assumption.
  - intros x y c Hx Hy. apply A3; right; assumption.
  - intros x Hx. inversion Hx; subst; [left; auto|].
    destruct (A1 x) as [E|(c & d & l & E)]; [assumption|left; exact E|right].
    exists c, d, l. rewrite Ec. exact E.
  - intros x y c Hx Hy. inversion Hx; inversion Hy; subst; intros; try congruence. eapply A2; eauto.
  - intros x y c Hx Hy. inversion Hx; inversion Hy; subst; intros; try congruence. eapply A3; eauto.
Qed.
Lemma CI_null m h H C : h_share h = None -> h_ptr h = None -> CI m (h :: H) C <-> CI m H C.
Proof.
  intros E1 E2. split; intros [A1 A2 A3 A4 A5]; constructor; try assumption.
  - intros c x Hc Hx. apply A3; [exact Hc|right; exact Hx].
  - intros c k E. destruct (A4 c k E) as [F|(x & F1 & F2)]; [left; exact F|]. right. exists x.
    inversion F1; subst; [congruence|auto].
  - intros d l E. destruct (A5 d l E) as (x & o & F1 & F2). exists x, o.
    inversion F1; subst; [congruence|auto].
  - intros c x Hc Hx. inversion Hx; subst; [congruence|]. apply A3; assumption.
  - intros c k E. destruct (A4 c k E) as [F|(x & F1 & F2)]; [left; exact F|]. right. exists x.
    split; [right; exact F1|exact F2].
  - intros d l E. destruct (A5 d l E) as (x & o & F1 & F2). exists x, o. split; [right; exact F1|exact F2].
Qed.
Lemma cnt_ex c H : 0 < cnt c H -> exists h, h ∈ H /\ h_share h = Some c.
Proof.
  induction H as [|h H IH]; cbn; [lia|]. unfold is_c at 1. destruct (bool_decide_reflect (h_share h = Some c)) as [E|E].
  - intros _. exists h. split; [left|exact E].
  - intro Hc. destruct IH as (x & A & B); [lia|]. exists x. split; [right; exact A|exact B].
Qed.

Lemma hok_some m H h : hok m H h -> h_share h <> None ->
  exists c d l, h_share h = Some c /\ h_ptr h = Some (d, 0) /\
    m_counts m !! c = Some (Z.of_nat (cnt c H)) /\ m_datas m !! d = Some l /\ length l = h_len h.
Proof. intros [[E _]|E]; [congruence|auto]. Qed.

(** Two handles with the same storage have the same counter, and conversely. *)
Lemma other_data m h H x d c : PI m (h :: H) -> x ∈ H ->
  h_share h = Some c -> h_ptr h = Some (d, 0) -> h_share x <> Some c ->
  forall d' o, h_ptr x = Some (d', o) -> d' <> d.
Proof.
  intros P Hx Es Ep Ex d' o Ed ->.
  destruct (pi_h _ _ P x) as [[_ E]|(cx & dx & lx & E1 & E2 & _)]; [right; exact Hx|congruence|].
  rewrite E2 in Ed. injection Ed as -> <-.
  apply Ex. rewrite <- Es. apply (pi_pair' _ _ P x h (d, 0)); auto; [right; exact Hx|left].
Qed.

Lemma rel_many m h H C c k : PI m (h :: H) -> CI m (h :: H) C ->
  h_share h = Some c -> m_counts m !! c = Some k -> (1 < k)%Z ->
  let m' := mkMem (<[c := (k - 1)%Z]> (m_counts m)) (m_datas m) (m_next m) in
  PI m' H /\ CI m' H C.
Proof.
  intros P Q Es Ek Hk. cbv zeta.
  destruct (hok_some _ _ _ (pi_h _ _ P h ltac:(left))) as (c0 & d & l & E1 & E2 & E3 & E4 & E5); [congruence|].
  assert (c0 = c) as -> by congruence.
  assert (Hcc : cnt c (h :: H) = S (cnt c H)) by (cbn; rewrite (is_c_true _ _ Es); reflexivity).
  rewrite Hcc in E3. assert (Hkk : k = Z.of_nat (S (cnt c H))) by congruence.
  split; constructor; cbn.
  - intros x Hx. destruct (pi_h _ _ P x) as [E|(cx & dx & lx & F1 & F2 & F3 & F4 & F5)]; [right; exact Hx|left; exact E|].
    right. exists cx, dx, lx. repeat split; auto.
    destruct (decide (cx = c)) as [->|Hne].
    + cbn [m_counts]. rewrite lookup_insert. f_equal. lia.
    + cbn. rewrite lookup_insert_ne by congruence. rewrite F3. f_equal. cbn.
      rewrite (is_c_false cx h) by congruence. reflexivity.
  - intros x y cc Hx Hy. apply (pi_pair _ _ P); right; assumption.
  - intros x y p Hx Hy. apply (pi_pair' _ _ P); right; assumption.
  - intros c' k'. destruct (decide (c' = c)) as [->|Hne].
    + intros _. apply (pi_nc _ _ P c k Ek).
    + rewrite lookup_insert_ne by congruence. apply (pi_nc _ _ P).
  - apply (pi_nd _ _ P).
  - apply (ci_nodup _ _ _ Q).
  - intros c' Hc'. rewrite lookup_insert_ne; [apply (ci_one _ _ _ Q c' Hc')|].
    intros ->. apply (ci_sep _ _ _ Q c' h Hc'); [left|exact Es].
  - intros c' x Hc' Hx. apply (ci_sep _ _ _ Q c' x Hc'). right; exact Hx.
  - intros c' k' Hc'. destruct (decide (c' = c)) as [->|Hne].
    + right. apply cnt_ex. lia.
    + rewrite lookup_insert_ne in Hc' by congruence. destruct (ci_cu _ _ _ Q c' k' Hc') as [F|(x & F1 & F2)]; [left; exact F|].
      right. exists x. inversion F1; subst; [congruence|auto].
  - intros d' l' Hd. destruct (ci_du _ _ _ Q d' l' Hd) as (x & o & F1 & F2).
    inversion F1 as [|? ? ? F1']; subst; [|exists x, o; auto].
    destruct (cnt_ex c H) as (y & G1 & G2); [lia|]. exists y, o. split; [exact G1|]. rewrite <- F2.
    apply (pi_pair _ _ P y h c); [right; exact G1|left|exact G2|exact Es].
Qed.

Lemma rel_one m h H C c p : PI m (h :: H) -> CI m (h :: H) C ->
  h_share h = Some c -> h_ptr h = Some p -> cnt c H = 0 ->
  let m' := mkMem (delete c (m_counts m)) (delete p.1 (m_datas m)) (m_next m) in
  PI m' H /\ CI m' H C.
Proof.
  intros P Q Es Ep H0. cbv zeta.
  destruct (hok_some _ _ _ (pi_h _ _ P h ltac:(left))) as (c0 & d & l & E1 & E2 & E3 & E4 & E5); [congruence|].
  assert (c0 = c) as -> by congruence. assert (p = (d, 0)) as -> by congruence.
  assert (Hno : forall x, x ∈ H -> h_share x <> Some c).
  { intros x Hx E. pose proof (cnt_pos c x H Hx E). lia. }
  split; constructor; cbn.
  - intros x Hx. destruct (pi_h _ _ P x) as [E|(cx & dx & lx & F1 & F2 & F3 & F4 & F5)]; [right; exact Hx|left; exact E|].
    right. exists cx, dx, lx.
    assert (cx <> c) by (intros ->; apply (Hno x Hx F1)).
    assert (dx <> d) by (apply (other_data m h H x d c P Hx Es E2 (Hno x Hx) dx 0 F2)).
    repeat split; auto; cbn.
    + rewrite lookup_delete_ne by congruence. rewrite F3. cbn. rewrite (is_c_false cx h) by congruence. reflexivity.
    + rewrite lookup_delete_ne by congruence. exact F4.
  - intros x y cc Hx Hy. apply (pi_pair _ _ P); right; assumption.
  - intros x y p Hx Hy. apply (pi_pair' _ _ P); right; assumption.
  - intros c' k' Hc'. apply lookup_delete_Some in Hc'. apply (pi_nc _ _ P c' k'), Hc'.
  - intros c' k' Hc'. apply lookup_delete_Some in Hc'. apply (pi_nd _ _ P c' k'), Hc'.
  - apply (ci_nodup _ _ _ Q).
  - intros c' Hc'. rewrite lookup_delete_ne; [apply (ci_one _ _ _ Q c' Hc')|].
    intros ->. apply (ci_sep _ _ _ Q c' h Hc'); [left|exact Es].
  - intros c' x Hc' Hx. apply (ci_sep _ _ _ Q c' x Hc'). right; exact Hx.
  - intros c' k' Hc'. apply lookup_delete_Some in Hc'. destruct Hc' as [Hne Hc'].
    destruct (ci_cu _ _ _ Q c' k' Hc') as [F|(x & F1 & F2)]; [left; exact F|].
    right. exists x. inversion F1; subst; [congruence|auto].
  - intros d' l' Hd. apply lookup_delete_Some in Hd. destruct Hd as [Hne Hd].
    destruct (ci_du _ _ _ Q d' l' Hd) as (x & o & F1 & F2). exists x, o. inversion F1; subst; [congruence|auto].
Qed.

(** A fresh counter for a component. *)
Lemma calloc_ok m H C : PI m H -> CI m H C ->
  PI (calloc m).1 H /\ CI (calloc m).1 H ((calloc m).2 :: C).
Proof.
  intros P Q. cbn.
  assert (Hf : m_counts m !! m_next m = None).
  { destruct (m_counts m !! m_next m) eqn:E; [|reflexivity]. apply (pi_nc _ _ P) in E. lia. }
  split; constructor; cbn.
  - intros x Hx. destruct (pi_h _ _ P x Hx) as [E|(cx & dx & lx & F1 & F2 & F3 & F4 & F5)]; [left; exact E|].
    right. exists cx, dx, lx. repeat split; auto. cbn. rewrite lookup_insert_ne by congruence. exact F3.
  - apply (pi_pair _ _ P).
  - apply (pi_pair' _ _ P).
  - intros c k. destruct (decide (c = m_next m)) as [->|Hne]; [lia|].
    rewrite lookup_insert_ne by congruence. intro E. apply (pi_nc _ _ P) in E. lia.
  - intros d l E. apply (pi_nd _ _ P) in E. lia.
  - constructor; [|apply (ci_nodup _ _ _ Q)]. intro E. apply (ci_one _ _ _ Q) in E. congruence.
  - intros c Hc. inversion Hc as [|? ? ? Hc']; subst; [apply lookup_insert|].
    rewrite lookup_insert_ne; [apply (ci_one _ _ _ Q c Hc')|].
    intros <-. apply (ci_one _ _ _ Q) in Hc'. congruence.
  - intros c x Hc Hx. inversion Hc as [|? ? ? Hc']; subst; [|apply (ci_sep _ _ _ Q); assumption].
    intro E. destruct (pi_h _ _ P x Hx) as [[F _]|(cx & dx & lx & F1 & F2 & F3 & _)]; congruence.
  - intros c k. destruct (decide (c = m_next m)) as [->|Hne]; [intros _; left; left|].
    rewrite lookup_insert_ne by congruence. intro E.
    destruct (ci_cu _ _ _ Q c k E) as [F|F]; [left; right; exact F|right; exact F].
  - apply (ci_du _ _ _ Q).
Qed.

(** Fresh storage for a variable. *)
Lemma fresh_ok m H C len (c : nat) : PI m H -> CI m H C ->
  c = S (m_next m) ->
  let m' := mkMem (<[c := 1%Z]> (m_counts m)) (<[m_next m := replicate len None]> (m_datas m)) (S (S (m_next m))) in
  let h' := mkHdl len (Some c) (Some (m_next m, 0)) in
  PI m' (h' :: H) /\ CI m' (h' :: H) C.
Proof.
  intros P Q Hc. cbv zeta. subst c.
  assert (Hf : m_counts m !! S (m_next m) = None).
  { destruct (m_counts m !! S (m_next m)) eqn:E; [|reflexivity]. apply (pi_nc _ _ P) in E. lia. }
  assert (Hg : m_datas m !! m_next m = None).
  { destruct (m_datas m !! m_next m) eqn:E; [|reflexivity]. apply (pi_nd _ _ P) in E. lia. }
  assert (Hno : forall x, x ∈ H -> h_share x <> Some (S (m_next m))).
  { intros x Hx E. destruct (pi_h _ _ P x Hx) as [[F _]|(cx & dx & lx & F1 & F2 & F3 & _)]; congruence. }
  assert (Hnp : forall x o, x ∈ H -> h_ptr x <> Some (m_next m, o)).
  { intros x o Hx E. destruct (pi_h _ _ P x Hx) as [[_ F]|(cx & dx & lx & F1 & F2 & F3 & F4 & _)]; congruence. }
  split; constructor; cbn.
  - intros x Hx. inversion Hx as [|? ? ? Hx']; subst.
    + right. exists (S (m_next m)), (m_next m), (replicate len None). cbn.
      rewrite !lookup_insert, replicate_length, is_c_true by reflexivity.
      rewrite cnt_zero by exact Hno. auto.
    + destruct (pi_h _ _ P x Hx') as [E|(cx & dx & lx & F1 & F2 & F3 & F4 & F5)]; [left; exact E|].
      right. exists cx, dx, lx. repeat split; auto; cbn.
      * rewrite lookup_insert_ne by congruence. rewrite F3. rewrite is_c_false; [reflexivity|]. cbn. congruence.
      * rewrite lookup_insert_ne by congruence. exact F4.
  - intros x y c Hx Hy. inversion Hx as [|? ? ? Hx']; inversion Hy as [|? ? ? Hy']; subst; cbn; auto.
    + intros [= <-] E. exfalso. apply (Hno y Hy' E).
    + intros E [= <-]. exfalso. apply (Hno x Hx' E).
    + apply (pi_pair _ _ P); assumption.
  - intros x y p Hx Hy. inversion Hx as [|? ? ? Hx']; inversion Hy as [|? ? ? Hy']; subst; cbn; auto.
    + intros [= <-] E. exfalso. apply (Hnp y 0 Hy' E).
    + intros E [= <-]. exfalso. apply (Hnp x 0 Hx' E).
    + apply (pi_pair' _ _ P); assumption.
  - intros c k. destruct (decide (c = S (m_next m))) as [->|Hne]; [lia|].
    rewrite lookup_insert_ne by congruence. intro E. apply (pi_nc _ _ P) in E. lia.
  - intros d l. destruct (decide (d = m_next m)) as [->|Hne]; [lia|].
    rewrite lookup_insert_ne by congruence. intro E. apply (pi_nd _ _ P) in E. lia.
  - apply (ci_nodup _ _ _ Q).
  - intros c Hc. rewrite lookup_insert_ne; [apply (ci_one _ _ _ Q c Hc)|].
    intros <-. apply (ci_one _ _ _ Q) in Hc. congruence.
  - intros c x Hc Hx. inversion Hx as [|? ? ? Hx']; subst; cbn; [|apply (ci_sep _ _ _ Q); assumption].
    intros [= <-]. apply (ci_one _ _ _ Q) in Hc. congruence.
  - intros c k. destruct (decide (c = S (m_next m))) as [->|Hne].
    + intros _. right. eexists. split; [left|reflexivity].
    + rewrite lookup_insert_ne by congruence. intro E.
      destruct (ci_cu _ _ _ Q c k E) as [F|(x & F1 & F2)]; [left; exact F|].
      right. exists x. split; [right; exact F1|exact F2].
  - intros d l. destruct (decide (d = m_next m)) as [->|Hne].
    + intros _. eexists _, _. split; [left|reflexivity].
    + rewrite lookup_insert_ne by congruence. intro E.
      destruct (ci_du _ _ _ Q d l E) as (x & o & F1 & F2). exists x, o. split; [right; exact F1|exact F2].
Qed.

Lemma share_ok m H C src : PI m H -> CI m H C -> src ∈ H ->
  exists m', p_share m src = Ok (m', src) /\ PI m' (src :: H) /\ CI m' (src :: H) C /\ m_datas m' = m_datas m.
Proof.
  intros P Q Hs. unfold p_share.
  destruct (pi_h _ _ P src Hs) as [[E1 E2]|(c & d & l & E1 & E2 & E3 & E4 & E5)].
  - rewrite E1. exists m. split; [reflexivity|]. rewrite PI_null, CI_null by assumption. auto.
  - rewrite E1. unfold pcount, pset_count, from_opt. rewrite ?E3. cbn [rbind]. rewrite ?E3. cbn [rbind].
    eexists. split; [reflexivity|]. cbn.
    split; [|split; [|reflexivity]]; constructor; cbn.
    + intros x Hx. assert (Hx' : x ∈ H) by (inversion Hx; subst; assumption).
      destruct (pi_h _ _ P x Hx') as [E|(cx & dx & lx & F1 & F2 & F3 & F4 & F5)]; [left; exact E|].
      right. exists cx, dx, lx. repeat split; auto; cbn.
      destruct (decide (cx = c)) as [->|Hne].
      * rewrite lookup_insert. f_equal. rewrite is_c_true by exact E1. lia.
      * rewrite lookup_insert_ne by congruence. rewrite F3. rewrite is_c_false by congruence. reflexivity.
    + intros x y cc Hx Hy. apply (pi_pair _ _ P); [inversion Hx|inversion Hy]; subst; assumption.
    + intros x y cc Hx Hy. apply (pi_pair' _ _ P); [inversion Hx|inversion Hy]; subst; assumption.
    + intros c' k'. destruct (decide (c' = c)) as [->|Hne].
      * intros _. apply (pi_nc _ _ P c _ E3).
      * rewrite lookup_insert_ne by congruence. apply (pi_nc _ _ P).
    + apply (pi_nd _ _ P).
    + apply (ci_nodup _ _ _ Q).
    + intros c' Hc'. rewrite lookup_insert_ne; [apply (ci_one _ _ _ Q c' Hc')|].
      intros ->. apply (ci_sep _ _ _ Q c' src Hc' Hs E1).
    + intros c' x Hc' Hx. apply (ci_sep _ _ _ Q c' x Hc'). inversion Hx; subst; assumption.
    + intros c' k' Hc'. destruct (decide (c' = c)) as [->|Hne].
      * right. exists src. split; [left|exact E1].
      * rewrite lookup_insert_ne in Hc' by congruence.
        destruct (ci_cu _ _ _ Q c' k' Hc') as [F|(x & F1 & F2)]; [left; exact F|].
        right. exists x. split; [right; exact F1|exact F2].
    + intros d' l' Hd. destruct (ci_du _ _ _ Q d' l' Hd) as (x & o & F1 & F2).
      exists x, o. split; [right; exact F1|exact F2].
Qed.

(** Writing in place. *)
Definition write_at (l : list (option V)) (o : nat) (vs : list (option V)) : list (option V) :=
  take o l ++ vs ++ drop (o + length vs) l.
Lemma write_at_length l o vs : o + length vs <= length l -> length (write_at l o vs) = length l.
Proof. intro E. unfold write_at. rewrite !app_length, take_length, drop_length. lia. Qed.

Lemma pwrite_ok m d o vs l : m_datas m !! d = Some l -> o + length vs <= length l ->
  pwrite m (d, o) vs = Ok (mkMem (m_counts m) (<[d := write_at l o vs]> (m_datas m)) (m_next m)).
Proof.
  intros E Hl. unfold pwrite. cbn [fst snd]. rewrite E.
  destruct (Nat.ltb_spec (length l) (o + length vs)); [lia|]. reflexivity.
Qed.
Lemma pread_ok m d o len l : m_datas m !! d = Some l -> o + len <= length l ->
  pread m (d, o) len = Ok (take len (drop o l)).
Proof.
  intros E Hl. unfold pread. cbn [fst snd]. rewrite E.
  destruct (Nat.ltb_spec (length l) (o + len)); [lia|]. reflexivity.
Qed.

Lemma data_write m H C d l l' : PI m H -> CI m H C -> m_datas m !! d = Some l -> length l' = length l ->
  let m' := mkMem (m_counts m) (<[d := l']> (m_datas m)) (m_next m) in PI m' H /\ CI m' H C.
Proof.
  intros P Q E El. cbv zeta. split; constructor; cbn.
  - intros x Hx. destruct (pi_h _ _ P x Hx) as [F|(cx & dx & lx & F1 & F2 & F3 & F4 & F5)]; [left; exact F|].
    right. destruct (decide (dx = d)) as [->|Hne].
    + exists cx, d, l'. cbn. rewrite lookup_insert. repeat split; auto. congruence.
    + exists cx, dx, lx. cbn. rewrite lookup_insert_ne by congruence. auto.
  - apply (pi_pair _ _ P).
  - apply (pi_pair' _ _ P).
  - apply (pi_nc _ _ P).
  - intros d' l''. destruct (decide (d' = d)) as [->|Hne]; [intros _; apply (pi_nd _ _ P d l E)|].
    rewrite lookup_insert_ne by congruence. apply (pi_nd _ _ P).
  - apply (ci_nodup _ _ _ Q).
  - apply (ci_one _ _ _ Q).
  - apply (ci_sep _ _ _ Q).
  - apply (ci_cu _ _ _ Q).
  - intros d' l''. destruct (decide (d' = d)) as [->|Hne]; [intros _; apply (ci_du _ _ _ Q d l E)|].
    rewrite lookup_insert_ne by congruence. apply (ci_du _ _ _ Q).
Qed.

(** The entries of a variable, and that the others keep theirs. *)
Definition data_of m h : option (list (option V)) :=
  match h_ptr h with Some p => m_datas m !! p.1 | None => None end.
Definition frame m m' (H : list hdl) : Prop := forall x, x ∈ H -> data_of m' x = data_of m x.

Lemma frame_same m m' H : m_datas m' = m_datas m -> frame m m' H.
Proof. intros E x Hx. unfold data_of. rewrite E. reflexivity. Qed.
Lemma frame_trans m1 m2 m3 H : frame m1 m2 H -> frame m2 m3 H -> frame m1 m3 H.
Proof. intros A B x Hx. rewrite (B x Hx). apply A, Hx. Qed.
Lemma frame_off m m' H d : (forall x o, x ∈ H -> h_ptr x <> Some (d, o)) ->
  (forall d', d' <> d -> m_datas m' !! d' = m_datas m !! d') -> frame m m' H.
Proof.
  intros A B x Hx. unfold data_of. destruct (h_ptr x) as [[d' o]|] eqn:E; [|reflexivity].
  cbn. apply B. intros ->. apply (A x o Hx E).
Qed.
Lemma fresh_off m H : PI m H -> forall x o, x ∈ H -> h_ptr x <> Some (m_next m, o).
Proof.
  intros P x o Hx E. destruct (pi_h _ _ P x Hx) as [[_ F]|(cx & dx & lx & F1 & F2 & F3 & F4 & _)]; [congruence|].
  apply (pi_nd _ _ P) in F4. rewrite E in F2. injection F2 as <- _. lia.
Qed.
Lemma own_off m h H c d : PI m (h :: H) -> h_share h = Some c -> h_ptr h = Some (d, 0) -> cnt c H = 0 ->
  forall x o, x ∈ H -> h_ptr x <> Some (d, o).
Proof.
  intros P Es Ep H0 x o Hx E.
  refine (other_data m h H x d c P Hx Es Ep _ d o E eq_refl).
  intro F. pose proof (cnt_pos c x H Hx F). lia.
Qed.

(** Storage of its own. *)
Definition sole (H : list hdl) h : Prop := exists c, h_share h = Some c /\ cnt c H = 0.
Lemma sole_fresh m H h c : PI m H -> m_next m <= c -> h_share h = Some c -> sole H h.
Proof.
  intros P Hc E. exists c. split; [exact E|]. apply cnt_zero. intros x Hx F.
  destruct (pi_h _ _ P x Hx) as [[G _]|(cx & dx & lx & G1 & G2 & G3 & _)]; [congruence|].
  apply (pi_nc _ _ P) in G3. rewrite F in G1. injection G1 as <-. lia.
Qed.
Lemma sole_one m h H : PI m (h :: H) -> sole H h <-> exists c, h_share h = Some c /\ m_counts m !! c = Some 1%Z.
Proof.
  intro P. split; intros (c & E & F); exists c; (split; [exact E|]);
    destruct (pi_h _ _ P h ltac:(left)) as [[G _]|(cx & dx & lx & G1 & G2 & G3 & _)]; try congruence;
    assert (cx = c) as -> by congruence; cbn in G3; rewrite (is_c_true _ _ E) in G3.
  - rewrite G3, F. reflexivity.
  - rewrite F in G3. injection G3 as G3. lia.
Qed.

(** ** The SmartSpace operations on a variable *)
Lemma new_memory_ok m h H C : PI m (h :: H) -> CI m (h :: H) C ->
  exists m' h', p_new_memory m h = Ok (m', h') /\ PI m' (h' :: H) /\ CI m' (h' :: H) C /\
    h_len h' = h_len h /\ h_ptr h' <> None /\ sole H h' /\ frame m m' H.
Proof.
  intros P Q. unfold p_new_memory.
  destruct (pi_h _ _ P h ltac:(left)) as [[E1 E2]|(c & d & l & E1 & E2 & E3 & E4 & E5)].
  - rewrite E1. unfold palloc, calloc. cbn [m_counts m_datas m_next].
    apply PI_null in P; [|assumption..]. apply CI_null in Q; [|assumption..].
    eexists _, _. split; [reflexivity|].
    destruct (fresh_ok m H C (h_len h) _ P Q eq_refl) as [A B]. cbn.
    split; [exact A|]. split; [exact B|]. split; [reflexivity|]. split; [discriminate|].
    split; [eapply (sole_fresh m); [exact P| |reflexivity]; lia|].
    apply (frame_off _ _ _ (m_next m)); [apply fresh_off, P|]. intros d' Hd. cbn. apply lookup_insert_ne. congruence.
  - rewrite E1. unfold pcount, from_opt. rewrite ?E3. cbn [rbind].
    destruct (Z.ltb_spec 1 (Z.of_nat (cnt c (h :: H)))) as [Hk|Hk].
    + unfold palloc, pset_count. cbn [m_counts m_datas m_next]. rewrite ?E3. cbn [rbind].
      unfold calloc. cbn [m_counts m_datas m_next].
      destruct (rel_many m h H C c _ P Q E1 E3 Hk) as [P' Q'].
      eexists _, _. split; [reflexivity|].
      destruct (fresh_ok _ H C (h_len h) _ P' Q' eq_refl) as [A B]. cbn in A, B |- *.
      split; [exact A|]. split; [exact B|]. split; [reflexivity|]. split; [discriminate|].
    split; [eapply (sole_fresh _); [exact P'| |reflexivity]; cbn; lia|].
      apply (frame_off _ _ _ (m_next m)); [exact (fresh_off _ _ P')|]. intros d' Hd. cbn. apply lookup_insert_ne. congruence.
    + exists m, h. rewrite E2. split; [reflexivity|]. split; [exact P|]. split; [exact Q|].
      split; [reflexivity|]. split; [discriminate|]. split; [exists c; split; [exact E1|cbn in Hk; rewrite (is_c_true _ _ E1) in Hk; lia]|]. apply frame_same. reflexivity.
Qed.

Lemma copy_on_write_ok m h H C : PI m (h :: H) -> CI m (h :: H) C ->
  exists m' h', p_copy_on_write m h = Ok (m', h') /\ PI m' (h' :: H) /\ CI m' (h' :: H) C /\
    h_len h' = h_len h /\ h_ptr h' <> None /\ sole H h' /\ frame m m' H /\
    data_of m' h' = Some (match data_of m h with Some l => l | None => replicate (h_len h) None end).
Proof.
  intros P Q. unfold p_copy_on_write.
  destruct (pi_h _ _ P h ltac:(left)) as [[E1 E2]|(c & d & l & E1 & E2 & E3 & E4 & E5)].
  - rewrite E1. unfold palloc, calloc. cbn [m_counts m_datas m_next].
    apply PI_null in P; [|assumption..]. apply CI_null in Q; [|assumption..].
    eexists _, _. split; [reflexivity|].
    destruct (fresh_ok m H C (h_len h) _ P Q eq_refl) as [A B]. cbn.
    split; [exact A|]. split; [exact B|]. split; [reflexivity|]. split; [discriminate|].
    split; [eapply (sole_fresh m); [exact P| |reflexivity]; lia|].
    split; [|unfold data_of; cbn; rewrite E2, lookup_insert; reflexivity].
    apply (frame_off _ _ _ (m_next m)); [apply fresh_off, P|]. intros d' Hd. cbn. apply lookup_insert_ne. congruence.
  - rewrite E1. unfold pcount, from_opt. rewrite ?E3. cbn [rbind].
    destruct (Z.ltb_spec 1 (Z.of_nat (cnt c (h :: H)))) as [Hk|Hk].
    + rewrite E2. cbn [rbind]. rewrite (pread_ok m d 0 (h_len h) l E4) by lia. cbn [rbind].
      unfold palloc, pset_count. cbn [m_counts m_datas m_next]. rewrite ?E3. cbn [rbind].
      unfold calloc. cbn [m_counts m_datas m_next].
      destruct (rel_many m h H C c _ P Q E1 E3 Hk) as [P' Q'].
      destruct (fresh_ok _ H C (h_len h) _ P' Q' eq_refl) as [A B]. cbn in A, B.
      erewrite pwrite_ok; cycle 1.
      { cbn. apply lookup_insert. }
      { rewrite replicate_length, take_length, drop_length. lia. }
      cbn [rbind]. eexists _, _. split; [reflexivity|].
      eapply (data_write _ _ C _ _ (write_at _ 0 _)) in A; [|exact B|cbn; apply lookup_insert|].
      * destruct A as [A B']. cbn in A, B' |- *. split; [exact A|]. split; [exact B'|].
        split; [reflexivity|]. split; [discriminate|].
        split; [eapply (sole_fresh _); [exact P'| |reflexivity]; cbn; lia|]. split.
        -- apply (frame_off _ _ _ (m_next m)); [exact (fresh_off _ _ P')|].
           intros d' Hd. cbn. rewrite !lookup_insert_ne by congruence. reflexivity.
        -- unfold data_of. cbn. rewrite E2, lookup_insert. cbn. rewrite E4. f_equal.
           unfold write_at. rewrite drop_0, take_0, take_ge by lia.
           cbn. rewrite drop_ge by (rewrite replicate_length; lia). apply app_nil_r.
      * apply write_at_length. rewrite replicate_length, take_length, drop_length. lia.
    + exists m, h. rewrite E2. split; [reflexivity|]. split; [exact P|]. split; [exact Q|].
      split; [reflexivity|]. split; [discriminate|]. split; [exists c; split; [exact E1|cbn in Hk; rewrite (is_c_true _ _ E1) in Hk; lia]|]. split; [apply frame_same; reflexivity|].
      unfold data_of. rewrite E2. cbn. rewrite E4. reflexivity.
Qed.

Lemma copy_to_ok m dst src H C : PI m (dst :: H) -> CI m (dst :: H) C -> src ∈ H ->
  exists m' h', p_copy_to m src dst = Ok (m', h') /\ PI m' (h' :: H) /\ CI m' (h' :: H) C /\
    h_len h' = h_len src /\ frame m m' H /\ data_of m' h' = data_of m src.
Proof.
  intros P Q Hs. unfold p_copy_to.
  destruct (same_ptr (h_ptr dst) (h_ptr src)) eqn:Esp.
  { exists m, dst. split; [reflexivity|]. split; [exact P|]. split; [exact Q|]. unfold same_ptr in Esp.
    destruct (h_ptr dst) as [p|] eqn:E1; [|discriminate]. destruct (h_ptr src) as [q|] eqn:E2; [|discriminate].
    apply bool_decide_eq_true in Esp. subst q.
    destruct (pi_h _ _ P dst ltac:(left)) as [[_ E]|(c & d & l & F1 & F2 & F3 & F4 & F5)]; [congruence|].
    destruct (pi_h _ _ P src ltac:(right; exact Hs)) as [[_ E]|(c' & d' & l' & G1 & G2 & G3 & G4 & G5)]; [congruence|].
    split; [congruence|]. split; [apply frame_same; reflexivity|]. unfold data_of. rewrite E1, E2. reflexivity. }
  assert (Hsrc : forall m2, m_datas m2 = m_datas m -> data_of m2 src = data_of m src).
  { intros m2 E. apply (frame_same m m2 H E src Hs). }
  destruct (pi_h _ _ P dst ltac:(left)) as [[E1 E2]|(c & d & l & E1 & E2 & E3 & E4 & E5)].
  - rewrite E1. apply PI_null in P; [|assumption..]. apply CI_null in Q; [|assumption..].
    destruct (share_ok m H C src P Q Hs) as (m' & A1 & A2 & A3 & A4). rewrite A1.
    exists m', src. split; [reflexivity|]. split; [exact A2|]. split; [exact A3|]. split; [reflexivity|].
    split; [apply frame_same, A4|apply Hsrc, A4].
  - rewrite E1. unfold pcount, from_opt. rewrite ?E3. cbn [rbind].
    destruct (Z.eqb_spec (Z.of_nat (cnt c (dst :: H))) 1) as [Hk|Hk].
    + assert (H0 : cnt c H = 0) by (cbn in Hk; rewrite (is_c_true _ _ E1) in Hk; lia).
      destruct (rel_one m dst H C c (d, 0) P Q E1 E2 H0) as [P' Q'].
      pose proof (own_off m dst H c d P E1 E2 H0) as Hoff.
      assert (Hfr : forall m2, (forall d', d' <> d -> m_datas m2 !! d' = m_datas m !! d') -> frame m m2 H).
      { intros m2 E. apply (frame_off _ _ _ d Hoff E). }
      assert (Hfree : forall (f : mem -> res (mem * hdl)),
        rbind (pfree_count m c) (fun m => rbind (pfree_data m (d, 0)) f)
        = f (mkMem (delete c (m_counts m)) (delete d (m_datas m)) (m_next m))).
      { intro f. unfold pfree_count. rewrite ?E3. cbn [rbind]. unfold pfree_data. cbn. rewrite ?E4. reflexivity. }
      destruct (Nat.eqb_spec (h_len dst) (h_len src)) as [Hl|Hl]; cbn [andb].
      * destruct (pi_h _ _ P src ltac:(right; exact Hs)) as [[F1 F2]|(c' & d' & l' & F1 & F2 & F3 & F4 & F5)].
        -- rewrite F2. unfold from_opt. rewrite E2. cbn [rbind]. rewrite Hfree.
           eexists _, _. split; [reflexivity|].
           rewrite PI_null, CI_null by reflexivity. cbn in P', Q' |- *.
           split; [exact P'|]. split; [exact Q'|]. split; [exact Hl|].
           split; [|unfold data_of; cbn; rewrite F2; reflexivity].
           apply Hfr. intros d' Hd. cbn. apply lookup_delete_ne. congruence.
        -- rewrite F2. unfold from_opt. rewrite E2. cbn [rbind].
           rewrite (pread_ok m d' 0 (h_len src) l' F4) by lia. cbn [rbind].
           assert (Hw : 0 + length (take (h_len src) (drop 0 l')) <= length l)
             by (rewrite take_length, drop_length; lia).
           rewrite (pwrite_ok m d 0 _ l E4 Hw). cbn [rbind].
           eexists _, _. split; [reflexivity|].
           destruct (data_write m (dst :: H) C d l _ P Q E4 (write_at_length l 0 _ Hw)) as [A B].
           split; [exact A|]. split; [exact B|]. split; [exact Hl|]. split.
           { apply Hfr. intros d'' Hd. cbn. apply lookup_insert_ne. congruence. }
           unfold data_of. rewrite E2, F2. cbn. rewrite lookup_insert, F4. f_equal.
           unfold write_at. rewrite drop_0, take_0, take_ge by lia.
           cbn. rewrite drop_ge by lia. apply app_nil_r.
      * destruct (Z.ltb_spec 1 (Z.of_nat (cnt c (dst :: H)))); [lia|].
        unfold from_opt. rewrite E2. cbn [rbind]. rewrite Hfree.
        destruct (share_ok _ H C src P' Q' Hs) as (m' & A1 & A2 & A3 & A4). cbn [fst snd] in A1, A4. rewrite A1.
        assert (Hf : frame m m' H).
        { apply Hfr. intros d' Hd. rewrite A4. cbn. apply lookup_delete_ne. congruence. }
        exists m', src. split; [reflexivity|]. split; [exact A2|]. split; [exact A3|]. split; [reflexivity|].
        split; [exact Hf|apply Hf, Hs].
    + cbn [andb]. assert (0 < cnt c (dst :: H)) by (apply (cnt_pos c dst); [left|exact E1]).
      destruct (Z.ltb_spec 1 (Z.of_nat (cnt c (dst :: H)))) as [Hk1|]; [|lia].
      destruct (rel_many m dst H C c _ P Q E1 E3 Hk1) as [P' Q'].
      unfold pset_count. rewrite ?E3. cbn [rbind].
      destruct (share_ok _ H C src P' Q' Hs) as (m' & A1 & A2 & A3 & A4). cbn [fst snd m_datas] in A1, A4. rewrite A1.
      exists m', src. split; [reflexivity|]. split; [exact A2|]. split; [exact A3|]. split; [reflexivity|].
      split; [apply frame_same, A4|apply Hsrc, A4].
Qed.

Lemma destroy_ok m h H C : PI m (h :: H) -> CI m (h :: H) C ->
  exists m', p_destroy m h = Ok m' /\ PI m' H /\ CI m' H C /\ frame m m' H.
Proof.
  intros P Q. unfold p_destroy.
  destruct (pi_h _ _ P h ltac:(left)) as [[E1 E2]|(c & d & l & E1 & E2 & E3 & E4 & E5)].
  - rewrite E1. apply PI_null in P; [|assumption..]. apply CI_null in Q; [|assumption..].
    exists m. split; [reflexivity|]. split; [exact P|]. split; [exact Q|]. apply frame_same. reflexivity.
  - rewrite E1. unfold pcount, from_opt. rewrite ?E3. cbn [rbind].
    unfold pset_count. rewrite ?E3. cbn [rbind]. rewrite E2.
    assert (0 < cnt c (h :: H)) by (apply (cnt_pos c h); [left|exact E1]).
    destruct (Z.eqb_spec (Z.of_nat (cnt c (h :: H)) - 1) 0) as [Hk|Hk].
    + assert (H0' : cnt c H = 0) by (cbn in Hk; rewrite (is_c_true _ _ E1) in Hk; lia).
      destruct (rel_one m h H C c (d, 0) P Q E1 E2 H0') as [P' Q'].
      unfold pfree_count. cbn [m_counts]. rewrite lookup_insert. cbn [rbind].
      unfold pfree_data. cbn [fst snd m_datas m_counts m_next]. rewrite E4.
      eexists. split; [reflexivity|]. rewrite delete_insert_delete. split; [exact P'|]. split; [exact Q'|].
      apply (frame_off _ _ _ d); [exact (own_off m h H c d P E1 E2 H0')|].
      intros d' Hd. cbn. apply lookup_delete_ne. congruence.
    + assert (Hk1 : (1 < Z.of_nat (cnt c (h :: H)))%Z) by lia.
      destruct (rel_many m h H C c _ P Q E1 E3 Hk1) as [P' Q'].
      eexists. split; [reflexivity|]. split; [exact P'|]. split; [exact Q'|]. apply frame_same. reflexivity.
Qed.

(** ** Components *)
Definition shares (cs : list hdl) : list nat := omap h_share cs.

Lemma free_count_ok m H C c : PI m H -> CI m H (c :: C) ->
  exists m', pfree_count m c = Ok m' /\ PI m' H /\ CI m' H C /\ m_datas m' = m_datas m.
Proof.
  intros P Q. unfold pfree_count. rewrite (ci_one _ _ _ Q c ltac:(left)).
  eexists. split; [reflexivity|]. split; [|split; [|reflexivity]]; constructor; cbn.
  - intros x Hx. destruct (pi_h _ _ P x Hx) as [E|(cx & dx & lx & F1 & F2 & F3 & F4 & F5)]; [left; exact E|].
    right. exists cx, dx, lx. repeat split; auto. cbn. rewrite lookup_delete_ne; [exact F3|].
    intros <-. apply (ci_sep _ _ _ Q c x ltac:(left) Hx F1).
  - apply (pi_pair _ _ P).
  - apply (pi_pair' _ _ P).
  - intros c' k' Hc'. apply lookup_delete_Some in Hc'. apply (pi_nc _ _ P c' k'), Hc'.
  - apply (pi_nd _ _ P).
  - pose proof (ci_nodup _ _ _ Q) as N. inversion N; assumption.
  - intros c' Hc'. pose proof (ci_nodup _ _ _ Q) as N. inversion N; subst.
    rewrite lookup_delete_ne; [apply (ci_one _ _ _ Q); right; exact Hc'|]. intros <-. contradiction.
  - intros c' x Hc'. apply (ci_sep _ _ _ Q). right; exact Hc'.
  - intros c' k' Hc'. apply lookup_delete_Some in Hc'. destruct Hc' as [Hne Hc'].
    destruct (ci_cu _ _ _ Q c' k' Hc') as [F|F]; [|right; exact F].
    left. inversion F; subst; [congruence|assumption].
  - apply (ci_du _ _ _ Q).
Qed.

Lemma delete_multi_ok cs : forall m H C, PI m H -> CI m H (shares cs ++ C) ->
  exists m', delete_multi m cs = Ok m' /\ PI m' H /\ CI m' H C /\ m_datas m' = m_datas m.
Proof.
  induction cs as [|k cs IH]; intros m H C P Q; cbn; [eauto|].
  cbn in Q. destruct (h_share k) as [c|]; [|apply IH; assumption].
  unfold pcount, from_opt. rewrite (ci_one _ _ _ Q c ltac:(left)). cbn [rbind].
  unfold pset_count. rewrite (ci_one _ _ _ Q c ltac:(left)). cbn [rbind]. change (1 - 1 =? 0)%Z with true. cbn iota.
  destruct (free_count_ok m H _ c P Q) as (m' & A1 & A2 & A3 & A4).
  unfold pfree_count in A1 |- *. rewrite (ci_one _ _ _ Q c ltac:(left)) in A1. injection A1 as A1.
  cbn [m_counts]. rewrite lookup_insert. cbn [rbind m_datas m_next]. rewrite delete_insert_delete, A1.
  destruct (IH m' H C A2 A3) as (m'' & B1 & B2 & B3 & B4). exists m''. rewrite B4. auto.
Qed.

(** The components are attached to [sp]. *)
Definition attached (sp : option (nat * nat)) (shift : nat) (cs : list hdl) : Prop :=
  (forall j k, cs !! j = Some k ->
     h_ptr k = shift_ptr sp (shift + sum_list (take j (lens cs)))) /\
  (sp = None -> forall k, k ∈ cs -> h_share k = None) /\
  (sp <> None -> forall k, k ∈ cs -> h_share k <> None).

Lemma attached_nil sp shift : attached sp shift [].
Proof. split; [intros j k; rewrite lookup_nil; discriminate|]. split; intros _ k Hk; inversion Hk. Qed.

Lemma attached_cons sp shift k cs :
  h_ptr k = shift_ptr sp shift ->
  (sp = None -> h_share k = None) -> (sp <> None -> h_share k <> None) ->
  attached sp (match sp with Some _ => shift + h_len k | None => shift end) cs ->
  attached sp shift (k :: cs).
Proof.
  intros E1 E2 E3 (A1 & A2 & A3). split; [|split].
  - intros [|j] x; cbn.
    + intros [= <-]. rewrite E1. f_equal. lia.
    + intro Hx. rewrite (A1 j x Hx). destruct sp as [[d o]|]; [|reflexivity]. cbn. f_equal. f_equal.
      unfold lens. lia.
  - intros Hsp x Hx. inversion Hx; subst; auto.
  - intros Hsp x Hx. inversion Hx; subst; auto.
Qed.

Lemma rebind_ok own sp : (own = true -> sp <> None) ->
  forall cs m H C shift, PI m H -> CI m H (shares cs ++ C) ->
  exists m' cs', rebind own m sp shift cs = Ok (m', cs') /\ PI m' H /\ CI m' H (shares cs' ++ C) /\
    m_datas m' = m_datas m /\ lens cs' = lens cs /\ attached sp shift cs'.
Proof.
  intro Hown. induction cs as [|k cs IH]; intros m H C shift P Q; cbn [rebind].
  { exists m, []. split; [reflexivity|]. split; [exact P|]. split; [exact Q|]. split; [reflexivity|].
    split; [reflexivity|apply attached_nil]. }
  destruct (h_share k) as [c|] eqn:Ek; destruct sp as [[d o]|] eqn:Esp.
  - cbn [rbind]. cbn in Q. rewrite Ek in Q. cbn in Q.
    edestruct (IH m H (c :: C) (shift + h_len k)) as (m' & cs' & E & A1 & A2 & A3 & A4 & A5); [exact P| |].
    { eapply CI_perm; [reflexivity| |exact Q]. solve_Permutation. }
    rewrite E. cbn [rbind]. eexists _, _. split; [reflexivity|]. split; [exact A1|].
    split; [eapply CI_perm; [reflexivity| |exact A2]; cbn; solve_Permutation|].
    split; [exact A3|]. split; [cbn; f_equal; exact A4|].
    apply attached_cons; cbn; auto; congruence.
  - cbn in Q. rewrite Ek in Q. cbn in Q.
    destruct own; [exfalso; apply Hown; reflexivity|].
    destruct (free_count_ok m H _ c P Q) as (m1 & F1 & F2 & F3 & F4). rewrite F1. cbn [rbind].
    edestruct (IH m1 H C shift F2 F3) as (m' & cs' & E & A1 & A2 & A3 & A4 & A5).
    rewrite E. cbn [rbind]. eexists _, _. split; [reflexivity|]. split; [exact A1|].
    split; [exact A2|]. split; [congruence|]. split; [cbn; f_equal; exact A4|].
    apply attached_cons; cbn; auto; congruence.
  - cbn in Q. rewrite Ek in Q. cbn in Q.
    destruct (calloc_ok m H _ P Q) as [F1 F2]. unfold calloc in *. cbn [rbind fst snd] in *.
    edestruct (IH _ H (m_next m :: C) (shift + h_len k) F1) as (m' & cs' & E & A1 & A2 & A3 & A4 & A5).
    { eapply CI_perm; [reflexivity| |exact F2]. solve_Permutation. }
    rewrite E. cbn [rbind]. eexists _, _. split; [reflexivity|]. split; [exact A1|].
    split; [eapply CI_perm; [reflexivity| |exact A2]; cbn; solve_Permutation|].
    split; [exact A3|]. split; [cbn; f_equal; exact A4|].
    apply attached_cons; cbn; auto; congruence.
  - cbn in Q. rewrite Ek in Q. cbn in Q.
    destruct own; [exfalso; apply Hown; reflexivity|]. cbn [rbind].
    edestruct (IH m H C shift P Q) as (m' & cs' & E & A1 & A2 & A3 & A4 & A5).
    rewrite E. cbn [rbind]. eexists _, _. split; [reflexivity|]. split; [exact A1|].
    split; [exact A2|]. split; [exact A3|]. split; [cbn; f_equal; exact A4|].
    apply attached_cons; cbn; auto; congruence.
Qed.

Lemma fresh_comps_ok sp : forall cs m H C shift, PI m H -> CI m H C ->
  exists m' cs', fresh_comps m sp shift cs = (m', cs') /\ PI m' H /\ CI m' H (shares cs' ++ C) /\
    m_datas m' = m_datas m /\ lens cs' = lens cs /\ attached sp shift cs'.
Proof.
  induction cs as [|k cs IH]; intros m H C shift P Q; cbn [fresh_comps].
  { exists m, []. split; [reflexivity|]. split; [exact P|]. split; [exact Q|]. split; [reflexivity|].
    split; [reflexivity|apply attached_nil]. }
  destruct sp as [[d o]|] eqn:Esp.
  - destruct (calloc_ok m H _ P Q) as [F1 F2]. unfold calloc in *. cbn [fst snd] in *.
    edestruct (IH _ H (m_next m :: C) (shift + h_len k) F1 F2) as (m' & cs' & E & A1 & A2 & A3 & A4 & A5).
    rewrite E. eexists _, _. split; [reflexivity|]. split; [exact A1|].
    split; [eapply CI_perm; [reflexivity| |exact A2]; cbn; solve_Permutation|].
    split; [exact A3|]. split; [cbn; f_equal; exact A4|].
    apply attached_cons; cbn; auto; congruence.
  - edestruct (IH m H C shift P Q) as (m' & cs' & E & A1 & A2 & A3 & A4 & A5).
    rewrite E. eexists _, _. split; [reflexivity|]. split; [exact A1|].
    split; [exact A2|]. split; [exact A3|]. split; [cbn; f_equal; exact A4|].
    apply attached_cons; cbn; auto; congruence.
Qed.

(** ** Elements *)
Record eok (e : elt) : Prop := {
  eo_zero : e_types e = 0 -> e_comps e = [];
  eo_sum : e_types e <> 0 -> sum_list (lens (e_comps e)) = h_len (e_self e);
  eo_att : attached (h_ptr (e_self e)) 0 (e_comps e)
}.

Definition cc (E : list elt) : list nat := concat ((fun e => shares (e_comps e)) <$> E).
Definition selfs (E : list elt) : list hdl := e_self <$> E.

Record EI m (E : list elt) : Prop := {
  ei_p : PI m (selfs E);
  ei_c : CI m (selfs E) (cc E);
  ei_e : forall e, e ∈ E -> eok e
}.

Lemma EI_perm m E E' : E ≡ₚ E' -> EI m E -> EI m E'.
Proof.
  intros P [A B D]. constructor.
  - eapply PI_perm; [|exact A]. unfold selfs. rewrite P. reflexivity.
  - eapply CI_perm; [| |exact B]; unfold selfs, cc; rewrite P; reflexivity.
  - intros e. rewrite <- P. apply D.
Qed.

Lemma reset_from_ok m self dst src E C :
  PI m (self :: selfs E) -> CI m (self :: selfs E) (shares (e_comps dst) ++ C) ->
  (e_types dst = 0 -> e_comps dst = []) -> eok src -> h_len self = h_len (e_self src) ->
  exists m' e', reset_from m self dst src = Ok (m', e') /\ e_self e' = self /\
    PI m' (self :: selfs E) /\ CI m' (self :: selfs E) (shares (e_comps e') ++ C) /\ eok e' /\
    m_datas m' = m_datas m /\ lens (e_comps e') = lens (e_comps src).
Proof.
  intros P Q Hz [S1 S2 S3] Hl. unfold reset_from.
  destruct (Nat.eqb_spec (e_types src) 0) as [H0|H0].
  { destruct (delete_multi_ok (e_comps dst) m _ C P Q) as (m' & A1 & A2 & A3 & A4). rewrite A1. cbn [rbind].
    eexists _, _. split; [reflexivity|]. cbn [e_self e_comps e_types]. split; [reflexivity|]. split; [exact A2|].
    split; [exact A3|]. split; [|split; [exact A4|rewrite (S1 H0); reflexivity]].
    split; cbn; auto; [congruence|apply attached_nil]. }
  destruct ((e_types dst =? e_types src) && bool_decide (lens (e_comps dst) = lens (e_comps src))) eqn:Ed.
  - apply andb_true_iff in Ed. destruct Ed as [Ed1 Ed2]. apply Nat.eqb_eq in Ed1.
    apply bool_decide_eq_true in Ed2.
    destruct (rebind_ok false (h_ptr self) ltac:(discriminate) (e_comps dst) m _ C 0 P Q)
      as (m' & cs' & A1 & A2 & A3 & A4 & A5 & A6). rewrite A1. cbn [rbind].
    eexists _, _. split; [reflexivity|]. cbn [e_self e_comps e_types]. split; [reflexivity|]. split; [exact A2|].
    split; [exact A3|]. split; [|split; [exact A4|cbn [e_comps]; congruence]]. split; cbn [e_types e_comps e_self]; auto.
    + congruence.
    + intros _. rewrite A5, Ed2, S2 by exact H0. congruence.
  - destruct (delete_multi_ok (e_comps dst) m _ C P Q) as (m1 & A1 & A2 & A3 & A4). rewrite A1. cbn [rbind].
    destruct (fresh_comps_ok (h_ptr self) (e_comps src) m1 _ C 0 A2 A3) as (m' & cs' & B1 & B2 & B3 & B4 & B5 & B6).
    rewrite B1. eexists _, _. split; [reflexivity|]. cbn [e_self e_comps e_types]. split; [reflexivity|]. split; [exact B2|].
    split; [exact B3|]. split; [|split; [congruence|exact B5]]. split; cbn [e_types e_comps e_self]; auto.
    + congruence.
    + intros _. rewrite B5, S2 by exact H0. congruence.
Qed.

Lemma reset_own_ok m self e E C :
  PI m (self :: selfs E) -> CI m (self :: selfs E) (shares (e_comps e) ++ C) ->
  eok e -> h_len self = h_len (e_self e) -> h_ptr self <> None ->
  exists m' e', reset_own m self e = Ok (m', e') /\ e_self e' = self /\
    PI m' (self :: selfs E) /\ CI m' (self :: selfs E) (shares (e_comps e') ++ C) /\ eok e' /\
    m_datas m' = m_datas m /\ lens (e_comps e') = lens (e_comps e).
Proof.
  intros P Q [S1 S2 S3] Hl Hp. unfold reset_own.
  destruct (Nat.eqb_spec (e_types e) 0) as [H0|H0].
  { destruct (delete_multi_ok (e_comps e) m _ C P Q) as (m' & A1 & A2 & A3 & A4). rewrite A1. cbn [rbind].
    eexists _, _. split; [reflexivity|]. cbn [e_self e_comps e_types]. split; [reflexivity|]. split; [exact A2|].
    split; [exact A3|]. split; [|split; [exact A4|rewrite (S1 H0); reflexivity]].
    split; cbn; auto; [congruence|apply attached_nil]. }
  destruct (rebind_ok true (h_ptr self) ltac:(intros _; exact Hp) (e_comps e) m _ C 0 P Q)
    as (m' & cs' & A1 & A2 & A3 & A4 & A5 & A6). rewrite A1. cbn [rbind].
  eexists _, _. split; [reflexivity|]. cbn [e_self e_comps e_types]. split; [reflexivity|]. split; [exact A2|].
  split; [exact A3|]. split; [|split; [exact A4|cbn [e_comps]; congruence]]. split; cbn [e_types e_comps e_self]; auto.
  - congruence.
  - intros _. rewrite A5, S2 by exact H0. congruence.
Qed.

Lemma EI_build m e E : PI m (e_self e :: selfs E) ->
  CI m (e_self e :: selfs E) (shares (e_comps e) ++ cc E) -> eok e ->
  (forall x, x ∈ E -> eok x) -> EI m (e :: E).
Proof.
  intros P Q O A. constructor; [exact P|exact Q|].
  intros x Hx. inversion Hx; subst; auto.
Qed.

Lemma e_new_memory_ok m e E : EI m (e :: E) ->
  exists m' e', e_new_memory m e = Ok (m', e') /\ EI m' (e' :: E) /\ h_len (e_self e') = h_len (e_self e) /\
    h_ptr (e_self e') <> None /\ sole (selfs E) (e_self e') /\ frame m m' (selfs E) /\ lens (e_comps e') = lens (e_comps e).
Proof.
  intros [P Q O]. unfold e_new_memory.
  destruct (new_memory_ok m (e_self e) (selfs E) _ P Q) as (m1 & h1 & A1 & A2 & A3 & A4 & A5 & A0 & A6).
  rewrite A1. cbn [rbind].
  destruct (reset_own_ok m1 h1 e E (cc E) A2 A3 (O e ltac:(left)) A4 A5) as (m' & e' & B1 & B2 & B3 & B4 & B5 & B6 & B7).
  exists m', e'. split; [exact B1|]. rewrite B2. split.
  { apply EI_build; rewrite ?B2; auto. intros x Hx. apply O. right; exact Hx. }
  split; [exact A4|]. split; [exact A5|]. split; [exact A0|]. split; [|exact B7].
  apply (frame_trans _ m1); [exact A6|apply frame_same, B6].
Qed.
Lemma e_copy_on_write_ok m e E : EI m (e :: E) ->
  exists m' e', e_copy_on_write m e = Ok (m', e') /\ EI m' (e' :: E) /\ h_len (e_self e') = h_len (e_self e) /\
    h_ptr (e_self e') <> None /\ sole (selfs E) (e_self e') /\ frame m m' (selfs E) /\ lens (e_comps e') = lens (e_comps e) /\
    data_of m' (e_self e') = Some (match data_of m (e_self e) with Some l => l | None => replicate (h_len (e_self e)) None end).
Proof.
  intros [P Q O]. unfold e_copy_on_write.
  destruct (copy_on_write_ok m (e_self e) (selfs E) _ P Q) as (m1 & h1 & A1 & A2 & A3 & A4 & A5 & A0 & A6 & A7).
  rewrite A1. cbn [rbind].
  destruct (reset_own_ok m1 h1 e E (cc E) A2 A3 (O e ltac:(left)) A4 A5) as (m' & e' & B1 & B2 & B3 & B4 & B5 & B6 & B7).
  exists m', e'. split; [exact B1|]. rewrite B2. split.
  { apply EI_build; rewrite ?B2; auto. intros x Hx. apply O. right; exact Hx. }
  split; [exact A4|]. split; [exact A5|]. split; [exact A0|]. split; [|split; [exact B7|]].
  - apply (frame_trans _ m1); [exact A6|apply frame_same, B6].
  - unfold data_of at 1. rewrite B6. exact A7.
Qed.

Lemma e_copy_to_ok m dst src E : EI m (dst :: E) -> src ∈ E ->
  exists m' e', e_copy_to m src dst = Ok (m', e') /\ EI m' (e' :: E) /\
    h_len (e_self e') = h_len (e_self src) /\ frame m m' (selfs E) /\
    lens (e_comps e') = lens (e_comps src) /\ data_of m' (e_self e') = data_of m (e_self src).
Proof.
  intros [P Q O] Hs. unfold e_copy_to.
  assert (Hin : e_self src ∈ selfs E) by (apply elem_of_list_fmap; eauto).
  destruct (copy_to_ok m (e_self dst) (e_self src) (selfs E) _ P Q Hin) as (m1 & h1 & A1 & A2 & A3 & A4 & A5 & A6).
  rewrite A1. cbn [rbind].
  destruct (reset_from_ok m1 h1 dst src E (cc E) A2 A3) as (m' & e' & B1 & B2 & B3 & B4 & B5 & B6 & B7);
    [apply (O dst ltac:(left))|apply O; right; exact Hs|exact A4|].
  exists m', e'. split; [exact B1|]. rewrite B2. split.
  { apply EI_build; rewrite ?B2; auto. intros x Hx. apply O. right; exact Hx. }
  split; [exact A4|]. split; [|split; [exact B7|]].
  - apply (frame_trans _ m1); [exact A5|apply frame_same, B6].
  - unfold data_of at 1. rewrite B6. exact A6.
Qed.

Lemma e_destroy_ok m e E : EI m (e :: E) -> exists m', e_destroy m e = Ok m' /\ EI m' E /\ frame m m' (selfs E).
Proof.
  intros [P Q O]. unfold e_destroy.
  destruct (delete_multi_ok (e_comps e) m _ (cc E) P Q) as (m1 & A1 & A2 & A3 & A4). rewrite A1. cbn [rbind].
  destruct (destroy_ok m1 (e_self e) (selfs E) _ A2 A3) as (m' & B1 & B2 & B3 & B4).
  exists m'. split; [exact B1|]. split.
  - constructor; auto. intros x Hx. apply O. right; exact Hx.
  - apply (frame_trans _ m1); [apply frame_same, A4|exact B4].
Qed.

(** ** States *)
Definition elts (s : gmap nat elt) : list elt := (map_to_list s).*2.
Definition SI (s : pst) : Prop := EI (ps_mem s) (elts (ps_objs s)).

Lemma elts_insert (o : gmap nat elt) n e : elts (<[n := e]> o) ≡ₚ e :: elts (delete n o).
Proof.
  unfold elts. rewrite <- insert_delete_insert. rewrite map_to_list_insert by apply lookup_delete.
  reflexivity.
Qed.
Lemma elts_delete (o : gmap nat elt) n e : o !! n = Some e -> elts o ≡ₚ e :: elts (delete n o).
Proof.
  intro H. rewrite <- (elts_insert o n e). rewrite insert_id by exact H. reflexivity.
Qed.
Lemma elts_fresh (o : gmap nat elt) n e : o !! n = None -> elts (<[n := e]> o) ≡ₚ e :: elts o.
Proof. intro H. rewrite elts_insert, delete_notin by exact H. reflexivity. Qed.
Lemma elts_elem (o : gmap nat elt) n e : o !! n = Some e -> e ∈ elts o.
Proof.
  intro H. unfold elts. apply elem_of_list_fmap. exists (n, e). split; [reflexivity|].
  apply elem_of_map_to_list, H.
Qed.

Lemma SI_init : SI init_pst.
Proof.
  unfold SI, init_pst, elts. cbn. rewrite map_to_list_empty. cbn. constructor.
  - constructor; try (intros; inversion H; fail); cbn; intros c k H; rewrite lookup_empty in H; discriminate.
  - constructor; cbn; [constructor| | | |].
    + intros c H. inversion H.
    + intros c h H. inversion H.
    + intros c k H. rewrite lookup_empty in H. discriminate.
    + intros c k H. rewrite lookup_empty in H. discriminate.
  - intros e H. inversion H.
Qed.

Lemma SI_get (s : pst) n e : SI s -> ps_objs s !! n = Some e ->
  EI (ps_mem s) (e :: elts (delete n (ps_objs s))).
Proof. intros H E. eapply EI_perm; [apply elts_delete, E|exact H]. Qed.
Lemma SI_put m o n e : EI m (e :: elts (delete n o)) -> SI (mkPst m (<[n := e]> o)).
Proof. intro H. unfold SI. cbn. eapply EI_perm; [symmetry; apply elts_insert|exact H]. Qed.

Lemma null_eok ls t : (t = 0 -> ls = []) -> eok (mkElt (null_hdl (sum_list ls)) t (null_hdl <$> ls)).
Proof.
  intro Ht. split; cbn.
  - intro E. rewrite (Ht E). reflexivity.
  - intros _. unfold lens. rewrite <- list_fmap_compose. cbn.
    rewrite (list_fmap_ext _ id) by reflexivity. rewrite list_fmap_id. reflexivity.
  - split; [|split].
    + intros j k Hk. apply list_lookup_fmap_inv in Hk. destruct Hk as (l & -> & _). reflexivity.
    + intros _ k Hk. apply elem_of_list_fmap in Hk. destruct Hk as (l & -> & _). reflexivity.
    + congruence.
Qed.
Lemma null_shares ls : shares (null_hdl <$> ls) = [].
Proof. induction ls; cbn; auto. Qed.

Lemma EI_add_null m E e : EI m E -> eok e -> h_share (e_self e) = None -> h_ptr (e_self e) = None ->
  shares (e_comps e) = [] -> EI m (e :: E).
Proof.
  intros [P Q O] He E1 E2 Es. apply EI_build; auto.
  - apply PI_null; assumption.
  - rewrite Es. apply CI_null; assumption.
Qed.

(** A component of an object with storage. *)
Lemma comp_live (s : pst) n e j k : SI s -> ps_objs s !! n = Some e -> e_comps e !! j = Some k ->
  (h_ptr (e_self e) = None /\ h_ptr k = None /\ h_share k = None) \/
  exists c d l o, h_ptr (e_self e) = Some (d, 0) /\ h_ptr k = Some (d, o) /\
    o = sum_list (take j (lens (e_comps e))) /\ o + h_len k <= length l /\
    m_datas (ps_mem s) !! d = Some l /\ h_share k = Some c /\ m_counts (ps_mem s) !! c = Some 1%Z /\
    length l = h_len (e_self e).
Proof.
  intros HS En Ej. pose proof (SI_get s n e HS En) as [P Q O].
  destruct (O e ltac:(left)) as [O1 O2 (O3 & O4 & O5)].
  assert (Hk : k ∈ e_comps e) by (apply elem_of_list_lookup; eauto).
  destruct (pi_h _ _ P (e_self e) ltac:(left)) as [[E1 E2]|(c & d & l & E1 & E2 & E3 & E4 & E5)].
  - left. rewrite (O3 j k Ej), E2. auto.
  - right. rewrite E2 in *. destruct (h_share k) as [ck|] eqn:Ek; [|exfalso; apply (O5 ltac:(discriminate) k Hk Ek)].
    exists ck, d, l, (sum_list (take j (lens (e_comps e)))).
    split; [reflexivity|]. split; [rewrite (O3 j k Ej); reflexivity|]. split; [reflexivity|].
    assert (e_types e <> 0) as Ht.
    { intro Ez. rewrite (O1 Ez) in Ej. rewrite lookup_nil in Ej. discriminate. }
    split.
    { rewrite E5, <- (O2 Ht). rewrite <- (take_drop_middle (lens (e_comps e)) j (h_len k)) at 2.
      - rewrite sum_list_with_app. cbn. lia.
      - unfold lens. rewrite list_lookup_fmap, Ej. reflexivity. }
    split; [exact E4|]. split; [reflexivity|]. split; [|exact E5].
    apply (ci_one _ _ _ Q). cbn. apply elem_of_app. left.
    apply elem_of_list_omap. exists k. auto.
Qed.

Lemma var_live (s : pst) n e : SI s -> ps_objs s !! n = Some e ->
  (h_ptr (e_self e) = None /\ h_share (e_self e) = None) \/
  exists c d l, h_ptr (e_self e) = Some (d, 0) /\ h_share (e_self e) = Some c /\
    m_datas (ps_mem s) !! d = Some l /\ length l = h_len (e_self e).
Proof.
  intros HS En. pose proof (SI_get s n e HS En) as [P Q O].
  destruct (pi_h _ _ P (e_self e) ltac:(left)) as [[E1 E2]|(c & d & l & E1 & E2 & E3 & E4 & E5)]; [auto|].
  right. eauto 10.
Qed.

(** The state after a write into a block that keeps its length. *)
Lemma SI_data (s : pst) d l l' : SI s -> m_datas (ps_mem s) !! d = Some l -> length l' = length l ->
  SI (mkPst (mkMem (m_counts (ps_mem s)) (<[d := l']> (m_datas (ps_mem s))) (m_next (ps_mem s))) (ps_objs s)).
Proof.
  intros [P Q O] E El. destruct (data_write _ _ _ d l l' P Q E El) as [A B]. constructor; auto.
Qed.

Lemma put_comp_id (s : pst) m n j e k : ps_objs s !! n = Some e -> e_comps e !! j = Some k ->
  put_ref s m (Comp n j) (mkElt k 0 []) = Ok (mkPst m (ps_objs s)).
Proof.
  intros En Ej. unfold put_ref, get_elt, from_opt. rewrite En. cbn [rbind].
  rewrite list_insert_id by exact Ej. rewrite insert_id; [reflexivity|]. destruct e; exact En.
Qed.

Lemma get_comp_inv (s : pst) n j (x : elt) : get_ref s (Comp n j) = Ok x ->
  exists e k, ps_objs s !! n = Some e /\ e_comps e !! j = Some k /\ x = mkElt k 0 [].
Proof.
  unfold get_ref, get_comp, get_elt, from_opt.
  destruct (ps_objs s !! n) as [e|] eqn:En; [|discriminate]. cbn [rbind].
  destruct (e_comps e !! j) as [k|] eqn:Ej; [|discriminate]. cbn [rbind]. intros [= <-]. eauto.
Qed.
Lemma get_var_inv (s : pst) n (x : elt) : get_ref s (Var n) = Ok x -> ps_objs s !! n = Some x.
Proof.
  unfold get_ref, get_elt, from_opt. destruct (ps_objs s !! n); [|discriminate]. intros [= <-]. reflexivity.
Qed.
Lemma get_ref_err (s : pst) r er : get_ref s r = Err er -> er = Misuse.
Proof.
  destruct r as [n|n j]; unfold get_ref, get_comp, get_elt, from_opt; destruct (ps_objs s !! n) as [e|]; cbn;
    try congruence. destruct (e_comps e !! j); cbn; congruence.
Qed.

(** What the values are. *)
Lemma view_some (s : pst) n e : SI s -> ps_objs s !! n = Some e ->
  view s n = Some (mkV (data_of (ps_mem s) (e_self e)) (lens (e_comps e)) (h_len (e_self e))).
Proof.
  intros HS En. unfold view, comp_lens. rewrite En. f_equal. f_equal.
  unfold preads, get_ref, get_elt, from_opt, data_of. rewrite En. cbn [rbind].
  destruct (var_live s n e HS En) as [[E1 _]|(c & d & l & E1 & E2 & E3 & E4)]; rewrite E1; [reflexivity|].
  rewrite (pread_ok _ d 0 _ l E3) by lia. cbn. rewrite E3, drop_0, take_ge by lia. reflexivity.
Qed.
Lemma view_none (s : pst) n : ps_objs s !! n = None -> view s n = None.
Proof. intro E. unfold view. rewrite E. reflexivity. Qed.

Lemma selfs_delete (o : gmap nat elt) n k e : k <> n -> o !! k = Some e -> e_self e ∈ selfs (elts (delete n o)).
Proof.
  intros Hk E. apply elem_of_list_fmap. exists e. split; [reflexivity|]. apply (elts_elem _ k).
  rewrite lookup_delete_ne by congruence. exact E.
Qed.

Lemma view_upd (s : pst) m' n e' : SI s -> SI (mkPst m' (<[n := e']> (ps_objs s))) ->
  frame (ps_mem s) m' (selfs (elts (delete n (ps_objs s)))) ->
  forall k, view (mkPst m' (<[n := e']> (ps_objs s))) k =
    vupd (view s) n (Some (mkV (data_of m' (e_self e')) (lens (e_comps e')) (h_len (e_self e')))) k.
Proof.
  intros HS HS' F k. unfold vupd. destruct (Nat.eqb_spec k n) as [->|Hk].
  - apply (view_some _ n e' HS'). cbn. apply lookup_insert.
  - destruct (ps_objs s !! k) as [e|] eqn:E.
    + rewrite (view_some s k e HS E).
      rewrite (view_some _ k e HS') by (cbn; rewrite lookup_insert_ne by congruence; exact E).
      cbn [ps_mem]. rewrite (F (e_self e)); [reflexivity|]. apply (selfs_delete _ _ k); assumption.
    + rewrite (view_none s k E). apply view_none. cbn. rewrite lookup_insert_ne by congruence. exact E.
Qed.

(** Every allowed step of a good state ends in a good state with the values it should have, or is
    the caller's error. *)
Definition fine (s : pst) (o : pop) (r : res pst) : Prop :=
  match r with
  | Ok s' => SI s' /\ (unshared s o -> forall n, view s' n = vstep (view s) o n)
  | Err er => er = Misuse
  end.

Lemma live_ref (s : pst) r e l : SI s -> get_ref s r = Ok e -> preads s r = Ok (Some l) ->
  exists d o b, h_ptr (e_self e) = Some (d, o) /\ m_datas (ps_mem s) !! d = Some b /\
    o + h_len (e_self e) <= length b /\ length l = h_len (e_self e) /\ l = take (h_len (e_self e)) (drop o b).
Proof.
  intros HS Er. unfold preads. rewrite Er. cbn [rbind].
  destruct (h_ptr (e_self e)) as [[d o]|] eqn:Ep; [|discriminate].
  unfold pread. cbn [fst snd]. destruct (m_datas (ps_mem s) !! d) as [b|] eqn:Ed; [|discriminate].
  destruct (Nat.ltb_spec (length b) (o + h_len (e_self e))); [discriminate|]. cbn [rbind].
  intros [= <-]. exists d, o, b. split; [reflexivity|]. split; [exact Ed|]. split; [lia|].
  split; [rewrite take_length, drop_length; lia|reflexivity].
Qed.

Lemma comp_write (s : pst) n j e k d o b vs i : SI s -> ps_objs s !! n = Some e -> e_comps e !! j = Some k ->
  h_ptr k = Some (d, o) -> m_datas (ps_mem s) !! d = Some b -> o + i + length vs <= length b ->
  exists m', pwrite (ps_mem s) (d, o + i) vs = Ok m' /\
    m' = mkMem (m_counts (ps_mem s)) (<[d := write_at b (o + i) vs]> (m_datas (ps_mem s))) (m_next (ps_mem s)) /\
    put_ref s m' (Comp n j) (mkElt k 0 []) = Ok (mkPst m' (ps_objs s)) /\ SI (mkPst m' (ps_objs s)).
Proof.
  intros HS En Ej Ep Ed Hl. rewrite (pwrite_ok _ d (o + i) vs b Ed Hl).
  eexists. split; [reflexivity|]. split; [reflexivity|]. split; [apply (put_comp_id s _ n j e); assumption|].
  apply (SI_data s d b); auto. apply write_at_length. exact Hl.
Qed.

Lemma splice_id (l : list (option V)) o len : o + len <= length l ->
  splice l o (take len (drop o l)) = l.
Proof.
  intro H. unfold splice. rewrite take_length, drop_length, Nat.min_l by lia.
  rewrite <- drop_drop, take_drop, take_drop. reflexivity.
Qed.

(** A write into a component whose parent's storage is not shared. *)
Lemma comp_view (s : pst) n e d b b' : SI s -> ps_objs s !! n = Some e -> sole_owner s n ->
  h_ptr (e_self e) = Some (d, 0) -> m_datas (ps_mem s) !! d = Some b -> length b' = length b ->
  forall k, view (mkPst (mkMem (m_counts (ps_mem s)) (<[d := b']> (m_datas (ps_mem s))) (m_next (ps_mem s))) (ps_objs s)) k
    = vupd (view s) n (option_map (fun x => v_set x b') (view s n)) k.
Proof.
  intros HS En (e0 & c & En' & Ec & Ek) Ep Ed Hl. rewrite En in En'. injection En' as <-.
  pose proof (SI_get s n e HS En) as [P Q O].
  pose proof (SI_data s d b b' HS Ed Hl) as HS'.
  assert (H0 : cnt c (selfs (elts (delete n (ps_objs s)))) = 0).
  { destruct (proj2 (sole_one _ _ _ P)) as (c' & F1 & F2); [eauto|]. cbn in F1.
    assert (c' = c) as -> by congruence. exact F2. }
  pose proof (own_off _ _ _ _ _ P Ec Ep H0) as Hoff.
  intro k. unfold vupd. destruct (Nat.eqb_spec k n) as [->|Hk].
  - rewrite (view_some _ n e HS' En), (view_some s n e HS En). cbn. unfold data_of. rewrite Ep. cbn.
    rewrite lookup_insert. reflexivity.
  - destruct (ps_objs s !! k) as [x|] eqn:Ex.
    + rewrite (view_some s k x HS Ex), (view_some _ k x HS' Ex). cbn. f_equal. f_equal.
      unfold data_of. destruct (h_ptr (e_self x)) as [[d' o']|] eqn:Exp; [|reflexivity]. cbn.
      apply lookup_insert_ne. intros <-.
      apply (Hoff (e_self x) o'); [|exact Exp]. apply (selfs_delete _ _ k); assumption.
    + rewrite (view_none s k Ex). apply view_none. exact Ex.
Qed.

(** A write into a variable that has just been given storage of its own. *)
Lemma var_write (s : pst) n e e' m' : SI s -> ps_objs s !! n = Some e ->
  EI m' (e' :: elts (delete n (ps_objs s))) -> sole (selfs (elts (delete n (ps_objs s)))) (e_self e') -> h_len (e_self e') = h_len (e_self e) -> h_ptr (e_self e') <> None ->
  frame (ps_mem s) m' (selfs (elts (delete n (ps_objs s)))) -> lens (e_comps e') = lens (e_comps e) ->
  forall i vs, i + length vs <= h_len (e_self e) ->
  exists d l, h_ptr (e_self e') = Some (d, 0) /\ m_datas m' !! d = Some l /\ length l = h_len (e_self e) /\
    let m2 := mkMem (m_counts m') (<[d := write_at l i vs]> (m_datas m')) (m_next m') in
    pwrite m' (d, i) vs = Ok m2 /\ SI (mkPst m2 (<[n := e']> (ps_objs s))) /\
    forall k, view (mkPst m2 (<[n := e']> (ps_objs s))) k =
      vupd (view s) n (Some (mkV (Some (splice l i vs)) (lens (e_comps e)) (h_len (e_self e)))) k.
Proof.
  intros HS En HE A0 A3 A4 A5 A6 i vs Hi.
  destruct (proj1 (sole_one _ _ _ (ei_p _ _ HE)) A0) as (c & Ec & Ek).
  pose proof (SI_put _ (ps_objs s) n e' HE) as HS'.
  destruct (var_live _ n e' HS' (lookup_insert _ _ _)) as [[E1 _]|(c' & d & l & E1 & E2 & E3 & E4)]; [congruence|].
  cbn in E3. exists d, l. split; [exact E1|]. split; [exact E3|]. split; [congruence|]. cbv zeta.
  assert (Hl : i + length vs <= length l) by lia.
  split; [apply pwrite_ok; assumption|].
  pose proof (SI_data _ d l (write_at l i vs) HS' E3 (write_at_length _ _ _ Hl)) as HS2. split; [exact HS2|].
  intro k. change (mkPst _ (<[n:=e']> (ps_objs s))) with
    (mkPst (mkMem (m_counts (ps_mem (mkPst m' (<[n:=e']> (ps_objs s)))))
      (<[d:=write_at l i vs]> (m_datas (ps_mem (mkPst m' (<[n:=e']> (ps_objs s))))))
      (m_next (ps_mem (mkPst m' (<[n:=e']> (ps_objs s)))))) (ps_objs (mkPst m' (<[n:=e']> (ps_objs s))))).
  rewrite (comp_view (mkPst m' (<[n:=e']> (ps_objs s))) n e' d l (write_at l i vs) HS').
  - unfold vupd at 1. destruct (Nat.eqb k n) eqn:Ekn.
    + rewrite (view_upd s m' n e' HS HS' A5 n). unfold vupd. rewrite Nat.eqb_refl, Ekn. cbn.
      unfold v_set. cbn. rewrite A6, A3. reflexivity.
    + rewrite (view_upd s m' n e' HS HS' A5 k). unfold vupd. rewrite Ekn. reflexivity.
  - cbn. apply lookup_insert.
  - exists e', c. cbn. rewrite lookup_insert. auto.
  - exact E1.
  - exact E3.
  - apply write_at_length, Hl.
Qed.

Lemma add_view (s : pst) n e' m' : SI s -> ps_objs s !! n = None -> EI m' (e' :: elts (ps_objs s)) ->
  frame (ps_mem s) m' (selfs (elts (ps_objs s))) ->
  SI (mkPst m' (<[n := e']> (ps_objs s))) /\
  forall k, view (mkPst m' (<[n := e']> (ps_objs s))) k =
    vupd (view s) n (Some (mkV (data_of m' (e_self e')) (lens (e_comps e')) (h_len (e_self e')))) k.
Proof.
  intros HS En HE F.
  assert (HS' : SI (mkPst m' (<[n := e']> (ps_objs s)))).
  { unfold SI. cbn. eapply EI_perm; [symmetry; apply elts_fresh, En|exact HE]. }
  split; [exact HS'|]. apply view_upd; auto. rewrite delete_notin by exact En. exact F.
Qed.

Lemma lens_null ls : lens (null_hdl <$> ls) = ls.
Proof.
  unfold lens. rewrite <- list_fmap_compose. rewrite (list_fmap_ext _ id) by reflexivity. apply list_fmap_id.
Qed.

Lemma off_lt cs j k : cs !! j = Some k -> nth j (lens cs) 0 = h_len k.
Proof.
  intro E. apply nth_lookup_Some. unfold lens. rewrite list_lookup_fmap, E. reflexivity.
Qed.

Lemma vread_var (s : pst) k e l : SI s -> ps_objs s !! k = Some e -> preads s (Var k) = Ok (Some l) ->
  vread (view s) (Var k) = l.
Proof.
  intros HS Ee. unfold vread. rewrite (view_some s k e HS Ee). unfold entries. cbn [v_data].
  unfold preads, get_ref, get_elt, from_opt, data_of. rewrite Ee. cbn [rbind].
  destruct (var_live s k e HS Ee) as [[E1 _]|(c & d & b & E1 & E2 & E3 & E4)]; rewrite E1; [discriminate|].
  rewrite (pread_ok _ d 0 _ b E3) by lia. cbn. rewrite E3, drop_0, take_ge by lia. congruence.
Qed.
Lemma vread_comp (s : pst) k j e x l : SI s -> ps_objs s !! k = Some e -> e_comps e !! j = Some x ->
  preads s (Comp k j) = Ok (Some l) -> vread (view s) (Comp k j) = l.
Proof.
  intros HS Ee Ex. unfold vread. rewrite (view_some s k e HS Ee). unfold entries, v_off. cbn [v_data v_lens].
  rewrite (off_lt _ _ _ Ex).
  unfold preads, get_ref, get_comp, get_elt, from_opt, data_of. rewrite Ee. cbn [rbind]. rewrite Ex. cbn [rbind e_self].
  destruct (comp_live s k e j x HS Ee Ex) as [(_ & C2 & _)|(c & d & b & o & C1 & C2 & C3 & C4 & C5 & C6 & C7 & C8)]; rewrite C2; [discriminate|].
  rewrite (pread_ok _ d o _ b C5 C4). cbn. rewrite C1. cbn. rewrite C5, <- C3. congruence.
Qed.
Lemma vread_ref (s : pst) r e l : SI s -> get_ref s r = Ok e -> preads s r = Ok (Some l) -> vread (view s) r = l.
Proof.
  intros HS Er Hl. destruct r as [k|k j].
  - apply get_var_inv in Er. apply (vread_var s k e); assumption.
  - apply get_comp_inv in Er. destruct Er as (p & x & E1 & E2 & _). apply (vread_comp s k j p x); assumption.
Qed.

Lemma same_view_splice (s : pst) n e b o len : SI s -> ps_objs s !! n = Some e ->
  data_of (ps_mem s) (e_self e) = Some b -> o + len <= length b ->
  forall k, view s k = vupd (view s) n (option_map (fun x => v_set x (splice (entries x) o (take len (drop o b)))) (view s n)) k.
Proof.
  intros HS En Ed Hl k. unfold vupd. destruct (Nat.eqb_spec k n) as [->|]; [|reflexivity].
  rewrite (view_some s n e HS En). cbn. unfold entries, v_set. cbn. rewrite Ed, splice_id by exact Hl. reflexivity.
Qed.

Lemma step_fine (s : pst) o : SI s -> allowed s o -> fine s o (pstep s o).
Proof.
  intros HS Ha. destruct o as [n len|n types|n src|dst src|r vs|r i v|n]; cbn [pstep].
  - unfold pfresh. destruct (ps_objs s !! n) eqn:En; cbn [rbind]; [reflexivity|].
    destruct (add_view s n (mkElt (null_hdl len) 0 []) (ps_mem s) HS En) as [A B].
    + apply EI_add_null; auto. split; cbn; auto; [congruence|apply attached_nil].
    + apply frame_same. reflexivity.
    + split; [exact A|]. intros _. exact B.
  - unfold pfresh. destruct (ps_objs s !! n) eqn:En; cbn [rbind]; [reflexivity|].
    destruct (bool_decide_reflect (types = [])) as [Ht|Ht]; [reflexivity|].
    destruct (add_view s n (mkElt (null_hdl (sum_list (expand types))) (length types) (null_hdl <$> expand types)) (ps_mem s) HS En) as [A B].
    + apply EI_add_null; auto; [|apply null_shares].
      apply null_eok. destruct types; [congruence|discriminate].
    + apply frame_same. reflexivity.
    + split; [exact A|]. intros _ k. rewrite (B k). cbn [e_comps e_self]. rewrite lens_null. reflexivity.
  - unfold pfresh. destruct (ps_objs s !! n) eqn:En; cbn [rbind]; [reflexivity|].
    destruct src as [k|k j]; [|destruct Ha].
    destruct (get_ref s (Var k)) as [e|er] eqn:Er; cbn [rbind]; [|apply (get_ref_err _ _ _ Er)].
    apply get_var_inv in Er.
    assert (HE : EI (ps_mem s) (mkElt (null_hdl (h_len (e_self e))) 0 [] :: elts (ps_objs s))).
    { apply EI_add_null; auto. split; cbn; auto; [congruence|apply attached_nil]. }
    destruct (e_copy_to_ok _ _ e _ HE (elts_elem _ _ _ Er)) as (m' & e' & A1 & A2 & A3 & A4 & A5 & A6). rewrite A1. cbn [rbind].
    destruct (add_view s n e' m' HS En A2 A4) as [A B].
    split; [exact A|]. intros _ x. rewrite (B x). cbn [vstep]. rewrite (view_some s k e HS Er), A3, A5, A6. reflexivity.
  - destruct (get_ref s dst) as [d|er] eqn:Ed; cbn [rbind]; [|apply (get_ref_err _ _ _ Ed)].
    destruct (get_ref s src) as [e|er] eqn:Es; cbn [rbind]; [|apply (get_ref_err _ _ _ Es)].
    destruct (ref_eqb dst src) eqn:Eq.
    { split; [exact HS|]. intros Hu k. destruct dst as [n|n j], src as [n'|n' j']; cbn in Eq; try discriminate.
      - apply Nat.eqb_eq in Eq. subst n'. cbn. unfold vupd. destruct (Nat.eqb_spec k n) as [->|]; reflexivity.
      - apply andb_true_iff in Eq. destruct Eq as [Eq1 Eq2]. apply Nat.eqb_eq in Eq1, Eq2. subst n' j'.
        destruct Ha as (l & l' & H1 & H2 & H3).
        cbn [vstep]. rewrite (vread_ref s _ _ l' HS Es H2).
        destruct (live_ref s _ _ _ HS Ed H1) as (d1 & o1 & b1 & P1 & D1 & L1 & N1 & R1).
        assert (l' = l) as -> by (unfold has_data in H1, H2; congruence).
        apply get_comp_inv in Ed. destruct Ed as (p & x & Ep & Ek & ->). cbn in P1, L1, N1, R1.
        destruct (comp_live s n p j x HS Ep Ek) as [(_ & C2 & _)|(c & dd & ll & oo & C1 & C2 & C3 & C4 & C5 & C6 & C7 & C8)]; [congruence|].
        rewrite P1 in C2. injection C2 as <- <-. rewrite D1 in C5. injection C5 as <-.
        rewrite (same_view_splice s n p b1 o1 (h_len x) HS Ep) at 1; [|unfold data_of; rewrite C1; exact D1|exact C4].
        unfold vupd. destruct (Nat.eqb k n); [|reflexivity].
        rewrite (view_some s n p HS Ep). cbn [option_map]. unfold v_off. cbn [v_lens]. rewrite <- C3, R1. reflexivity. }
    destruct dst as [n|n j].
    + destruct src as [k|k j]; [|destruct Ha]. cbn iota.
      apply get_var_inv in Ed, Es. cbn in Eq. apply Nat.eqb_neq in Eq.
      destruct (e_copy_to_ok _ d e _ (SI_get s n d HS Ed)) as (m' & e' & A1 & A2 & A3 & A4 & A5 & A6).
      { apply (elts_elem _ k). rewrite lookup_delete_ne by congruence. exact Es. }
      rewrite A1. cbn [rbind put_ref fine]. pose proof (SI_put _ _ _ _ A2) as HS'. split; [exact HS'|].
      intros _ x. rewrite (view_upd s m' n e' HS HS' A4 x). cbn [vstep]. rewrite (view_some s k e HS Es), A3, A5, A6. reflexivity.
    + destruct (e_types e =? 0) eqn:Et; cbn [negb]; [|reflexivity].
      apply Nat.eqb_eq in Et.
      destruct Ha as (l & l' & H1 & H2 & H3).
      destruct (live_ref s _ _ _ HS Ed H1) as (d1 & o1 & b1 & P1 & D1 & L1 & N1 & R1).
      destruct (live_ref s _ _ _ HS Es H2) as (d2 & o2 & b2 & P2 & D2 & L2 & N2 & R2).
      pose proof (vread_ref s _ _ l' HS Es H2) as Hv.
      apply get_comp_inv in Ed. destruct Ed as (p & k & Ep & Ek & ->). cbn in P1, L1, N1, R1.
      destruct (comp_live s n p j k HS Ep Ek) as [(_ & C2 & _)|(c & dd & ll & oo & C1 & C2 & C3 & C4 & C5 & C6 & C7 & C8)]; [congruence|].
      rewrite P1 in C2. injection C2 as <- <-. rewrite D1 in C5. injection C5 as <-.
      unfold e_copy_to, p_copy_to. cbn [e_self]. rewrite P1, P2. cbn [same_ptr].
      destruct (bool_decide_reflect ((d1, o1) = (d2, o2))) as [Hpp|Hpp].
      * cbn [rbind]. unfold reset_from. rewrite Et.
        cbn [Nat.eqb delete_multi e_comps rbind]. rewrite (put_comp_id s _ n j p k Ep Ek).
        split; [destruct s; exact HS|]. intros _ x. cbn [vstep]. rewrite Hv.
        transitivity (view s x); [destruct s; reflexivity|].
        injection Hpp as <- <-. assert (b2 = b1) as -> by congruence.
        rewrite (same_view_splice s n p b1 o1 (h_len k) HS Ep) at 1; [|unfold data_of; rewrite C1; exact D1|exact C4].
        unfold vupd. destruct (Nat.eqb x n); [|reflexivity].
        rewrite (view_some s n p HS Ep). cbn [option_map]. unfold v_off. cbn [v_lens]. rewrite <- C3, R2.
        rewrite <- N2, <- H3, N1. reflexivity.
      * rewrite C6. unfold pcount, from_opt. rewrite C7. cbn [rbind].
        rewrite Z.eqb_refl. cbn [andb].
        replace (h_len k =? h_len (e_self e)) with true by (symmetry; apply Nat.eqb_eq; congruence).
        rewrite (pread_ok _ d2 o2 _ b2 D2 L2). cbn [rbind]. rewrite <- R2.
        destruct (comp_write s n j p k d1 o1 b1 l' 0 HS Ep Ek P1 D1) as (m' & W1 & W0 & W2 & W3); [lia|].
        rewrite Nat.add_0_r in W1, W0. rewrite W1. cbn [rbind]. unfold reset_from. rewrite Et.
        cbn [Nat.eqb delete_multi e_comps rbind]. rewrite W2. split; [exact W3|].
        intros Hu x. cbn [vstep]. rewrite Hv, W0.
        rewrite (comp_view s n p d1 b1 _ HS Ep Hu C1 D1) by (apply write_at_length; lia).
        unfold vupd. destruct (Nat.eqb x n); [|reflexivity]. rewrite (view_some s n p HS Ep). cbn [option_map].
        unfold v_off, entries, data_of. cbn [v_lens v_data]. rewrite C1. cbn [fst]. rewrite D1, C3. reflexivity.
  - destruct (get_ref s r) as [e|er] eqn:Er; cbn [rbind]; [|apply (get_ref_err _ _ _ Er)].
    destruct (Nat.eqb_spec (length vs) (h_len (e_self e))) as [Hv|Hv]; cbn [negb]; [|reflexivity].
    destruct r as [n|n j].
    + apply get_var_inv in Er.
      destruct (e_new_memory_ok _ e _ (SI_get s n e HS Er)) as (m' & e' & A1 & A2 & A3 & A4 & A0 & A5 & A6). rewrite A1. cbn [rbind].
      pose proof (SI_put _ (ps_objs s) n e' A2) as HS'.
      destruct (var_write s n e e' m' HS Er A2 A0 A3 A4 A5 A6 0 (Some <$> vs)) as (d & l & E1 & E3 & Hl & W1 & W2 & W3).
      { rewrite fmap_length. lia. }
      unfold from_opt. rewrite E1. cbn [rbind]. rewrite W1. cbn [rbind put_ref fine]. split; [exact W2|].
      intros _ k. rewrite W3. cbn [vstep]. rewrite (view_some s n e HS Er).
      unfold vupd. destruct (Nat.eqb k n); [|reflexivity]. cbn. unfold v_set. cbn. f_equal. f_equal. f_equal.
      unfold splice. rewrite take_0, drop_ge, app_nil_r; [reflexivity|]. rewrite fmap_length. lia.
    + destruct Ha as [l Hd]. destruct (live_ref s _ _ _ HS Er Hd) as (d & o & b & P1 & D1 & L1 & N1 & R1).
      apply get_comp_inv in Er. destruct Er as (p & k & Ep & Ek & ->). cbn in P1, L1, N1, R1, Hv.
      destruct (comp_live s n p j k HS Ep Ek) as [(_ & C2 & _)|(c & dd & ll & oo & C1 & C2 & C3 & C4 & C5 & C6 & C7 & C8)]; [congruence|].
      rewrite P1 in C2. injection C2 as <- <-. rewrite D1 in C5. injection C5 as <-.
      unfold e_new_memory, p_new_memory. cbn [e_self]. rewrite C6. unfold pcount, from_opt. rewrite C7. cbn [rbind].
      change (1 <? 1)%Z with false. cbn iota. cbn [rbind]. unfold reset_own. cbn [e_types Nat.eqb e_comps delete_multi rbind e_self].
      rewrite P1. cbn [rbind].
      destruct (comp_write s n j p k d o b (Some <$> vs) 0 HS Ep Ek P1 D1) as (m' & W1 & W0 & W2 & W3).
      { rewrite fmap_length. lia. }
      rewrite Nat.add_0_r in W1, W0. rewrite W1. cbn [rbind]. rewrite W2. split; [exact W3|].
      intros Hu x. cbn [vstep]. rewrite W0.
      rewrite (comp_view s n p d b _ HS Ep Hu C1 D1) by (apply write_at_length; rewrite fmap_length; lia).
      unfold vupd. destruct (Nat.eqb x n); [|reflexivity]. rewrite (view_some s n p HS Ep). cbn [option_map].
      unfold v_off, entries, data_of. cbn [v_lens v_data]. rewrite C1. cbn [fst]. rewrite D1, C3. reflexivity.
  - destruct (get_ref s r) as [e|er] eqn:Er; cbn [rbind]; [|apply (get_ref_err _ _ _ Er)].
    destruct (Nat.leb_spec (h_len (e_self e)) i) as [Hv|Hv]; [reflexivity|].
    destruct r as [n|n j].
    + apply get_var_inv in Er.
      destruct (e_copy_on_write_ok _ e _ (SI_get s n e HS Er)) as (m' & e' & A1 & A2 & A3 & A4 & A0 & A5 & A6 & A7). rewrite A1. cbn [rbind].
      destruct (var_write s n e e' m' HS Er A2 A0 A3 A4 A5 A6 i [Some v]) as (d & l & E1 & E3 & Hl & W1 & W2 & W3).
      { cbn. lia. }
      unfold from_opt. rewrite E1. cbn [rbind fst snd Nat.add]. rewrite W1. cbn [rbind put_ref fine]. split; [exact W2|].
      intros _ k. rewrite W3. cbn [vstep]. rewrite (view_some s n e HS Er).
      unfold vupd. destruct (Nat.eqb k n); [|reflexivity]. cbn. unfold v_set. cbn. f_equal. f_equal. f_equal.
      unfold entries. cbn. unfold data_of at 1 in A7. rewrite E1 in A7. cbn in A7. rewrite E3 in A7. injection A7 as ->.
      reflexivity.
    + destruct Ha as [l Hd]. destruct (live_ref s _ _ _ HS Er Hd) as (d & o & b & P1 & D1 & L1 & N1 & R1).
      apply get_comp_inv in Er. destruct Er as (p & k & Ep & Ek & ->). cbn in P1, L1, N1, R1, Hv.
      destruct (comp_live s n p j k HS Ep Ek) as [(_ & C2 & _)|(c & dd & ll & oo & C1 & C2 & C3 & C4 & C5 & C6 & C7 & C8)]; [congruence|].
      rewrite P1 in C2. injection C2 as <- <-. rewrite D1 in C5. injection C5 as <-.
      unfold e_copy_on_write, p_copy_on_write. cbn [e_self]. rewrite C6. unfold pcount, from_opt. rewrite C7. cbn [rbind].
      change (1 <? 1)%Z with false. cbn iota. cbn [rbind]. unfold reset_own. cbn [e_types Nat.eqb e_comps delete_multi rbind e_self].
      rewrite P1. cbn [rbind fst snd].
      destruct (comp_write s n j p k d o b [Some v] i HS Ep Ek P1 D1) as (m' & W1 & W0 & W2 & W3).
      { cbn. lia. }
      rewrite W1. cbn [rbind]. rewrite W2. split; [exact W3|].
      intros Hu x. cbn [vstep]. rewrite W0.
      rewrite (comp_view s n p d b _ HS Ep Hu C1 D1) by (apply write_at_length; cbn; lia).
      unfold vupd. destruct (Nat.eqb x n); [|reflexivity]. rewrite (view_some s n p HS Ep). cbn [option_map].
      unfold v_off, entries, data_of. cbn [v_lens v_data]. rewrite C1. cbn [fst]. rewrite D1, C3. reflexivity.
  - destruct (get_elt s n) as [e|er] eqn:Er; cbn [rbind]; [|apply (get_ref_err s (Var n) _ Er)].
    apply (get_var_inv s n) in Er.
    destruct (e_destroy_ok _ e _ (SI_get s n e HS Er)) as (m' & A1 & A2 & A3). rewrite A1. cbn [rbind fine].
    assert (HS' : SI (mkPst m' (delete n (ps_objs s)))) by exact A2.
    split; [exact HS'|]. intros _ k. cbn [vstep]. unfold vupd. destruct (Nat.eqb_spec k n) as [->|Hk].
    + apply view_none. cbn. apply lookup_delete.
    + destruct (ps_objs s !! k) as [x|] eqn:Ex.
      * rewrite (view_some s k x HS Ex).
        rewrite (view_some _ k x HS') by (cbn; rewrite lookup_delete_ne by congruence; exact Ex).
        cbn [ps_mem]. rewrite (A3 (e_self x)); [reflexivity|]. apply (selfs_delete _ _ k); assumption.
      * rewrite (view_none s k Ex). apply view_none. cbn. rewrite lookup_delete_ne by congruence. exact Ex.
Qed.

Lemma reached_SI (s : pst) : reached s -> SI s.
Proof.
  induction 1 as [|s o s' Hr IH Ha Hs]; [exact SI_init|].
  pose proof (step_fine s o IH Ha) as F. rewrite Hs in F. apply F.
Qed.

Lemma no_undef (s : pst) o : reached s -> allowed s o -> pstep s o <> Err Undef.
Proof.
  intros Hr Ha E. pose proof (step_fine s o (reached_SI s Hr) Ha) as F. rewrite E in F. discriminate.
Qed.

(** Memory that is allocated belongs to a live variable. *)
Lemma reached_owned (s : pst) : reached s ->
  (forall d l, m_datas (ps_mem s) !! d = Some l ->
     exists n e o, ps_objs s !! n = Some e /\ h_ptr (e_self e) = Some (d, o)) /\
  (forall c k, m_counts (ps_mem s) !! c = Some k ->
     exists n e h, ps_objs s !! n = Some e /\ (h = e_self e \/ h ∈ e_comps e) /\ h_share h = Some c).
Proof.
  intro Hr. pose proof (reached_SI s Hr) as [P Q O].
  assert (Hin : forall e, e ∈ elts (ps_objs s) -> exists n, ps_objs s !! n = Some e).
  { intros e He. unfold elts in He. apply elem_of_list_fmap in He. destruct He as ((n & e') & -> & He).
    exists n. apply elem_of_map_to_list, He. }
  split.
  - intros d l E. destruct (ci_du _ _ _ Q d l E) as (h & o & F1 & F2).
    apply elem_of_list_fmap in F1. destruct F1 as (e & -> & F1). destruct (Hin e F1) as (n & Hn). eauto.
  - intros c k E. destruct (ci_cu _ _ _ Q c k E) as [F|(h & F1 & F2)].
    + unfold cc in F. apply elem_of_list_In, in_concat in F. destruct F as (l & F2 & F1).
      apply elem_of_list_In in F1, F2. apply elem_of_list_fmap in F2. destruct F2 as (e & -> & F2). destruct (Hin e F2) as (n & Hn).
      unfold shares in F1. apply elem_of_list_omap in F1. destruct F1 as (h & G1 & G2). exists n, e, h. auto.
    + apply elem_of_list_fmap in F1. destruct F1 as (e & -> & F1). destruct (Hin e F1) as (n & Hn).
      exists n, e, (e_self e). auto.
Qed.
Lemma reached_no_leak (s : pst) : reached s -> ps_objs s = ∅ -> m_datas (ps_mem s) = ∅ /\ m_counts (ps_mem s) = ∅.
Proof.
  intros Hr E. destruct (reached_owned s Hr) as [A B]. split; apply map_eq; intro i; rewrite lookup_empty.
  - destruct (m_datas (ps_mem s) !! i) eqn:F; [|reflexivity]. destruct (A i _ F) as (n & e & o & G & _).
    rewrite E, lookup_empty in G. discriminate.
  - destruct (m_counts (ps_mem s) !! i) eqn:F; [|reflexivity]. destruct (B i _ F) as (n & e & o & G & _).
    rewrite E, lookup_empty in G. discriminate.
Qed.

Lemma SI_slices (s : pst) : SI s -> slices s.
Proof.
  intros HS n [e En].
  assert (Hl : comp_lens s n = lens (e_comps e)) by (unfold comp_lens; rewrite En; reflexivity).
  assert (Hc : forall j len, comp_lens s n !! j = Some len ->
    exists k, e_comps e !! j = Some k /\ h_len k = len).
  { intros j len. rewrite Hl. unfold lens. intro Hj. apply list_lookup_fmap_inv in Hj.
    destruct Hj as (k & -> & Hk). eauto. }
  assert (Hg : get_ref s (Var n) = Ok e) by (cbn; unfold get_elt, from_opt; rewrite En; reflexivity).
  destruct (var_live s n e HS En) as [[E1 _]|(c & d & l & E1 & E2 & E3 & E4)].
  - exists None. unfold preads at 1. rewrite Hg. cbn [rbind]. rewrite E1. split; [reflexivity|].
    split; [discriminate|]. intros j len Hj. destruct (Hc j len Hj) as (k & Hk & <-).
    destruct (comp_live s n e j k HS En Hk) as [(_ & C2 & _)|(c & dd & ll & oo & C1 & _)]; [|congruence].
    unfold preads, get_ref, get_comp, get_elt, from_opt. rewrite En. cbn [rbind]. rewrite Hk. cbn [rbind e_self].
    rewrite C2. reflexivity.
  - exists (Some l). unfold preads at 1. rewrite Hg. cbn [rbind]. rewrite E1.
    rewrite (pread_ok _ d 0 _ l E3) by lia. cbn [rbind]. rewrite drop_0, take_ge by lia. split; [reflexivity|].
    split.
    + intros l' [= <-] Hne. rewrite Hl in *. rewrite E4. symmetry.
      destruct (SI_get s n e HS En) as [_ _ O]. destruct (O e ltac:(left)) as [O1 O2 _]. apply O2.
      intro Ez. rewrite (O1 Ez) in Hne. apply Hne. reflexivity.
    + intros j len Hj. destruct (Hc j len Hj) as (k & Hk & <-).
      destruct (comp_live s n e j k HS En Hk) as [(C1 & _)|(c' & dd & ll & oo & C1 & C2 & C3 & C4 & C5 & _)]; [congruence|].
      rewrite E1 in C1. injection C1 as <-. rewrite E3 in C5. injection C5 as <-.
      unfold preads, get_ref, get_comp, get_elt, from_opt. rewrite En. cbn [rbind]. rewrite Hk. cbn [rbind e_self].
      rewrite C2. rewrite (pread_ok _ d oo _ l E3 C4). cbn [rbind option_map]. rewrite C3, Hl. reflexivity.
Qed.

Lemma step_view (s : pst) o s' : reached s -> allowed s o -> unshared s o -> pstep s o = Ok s' ->
  forall n, view s' n = vstep (view s) o n.
Proof.
  intros Hr Ha Hu Hs. pose proof (step_fine s o (reached_SI s Hr) Ha) as F. rewrite Hs in F. apply F, Hu.
Qed.

(** Writing a variable leaves it the only owner of its storage. *)
Lemma write_sole (s : pst) n i v s' : reached s -> pstep s (PWritePartial (Var n) i v) = Ok s' -> sole_owner s' n.
Proof.
  intros Hr. pose proof (reached_SI s Hr) as HS. cbn [pstep].
  destruct (get_ref s (Var n)) as [e|er] eqn:Er; cbn [rbind]; [|discriminate].
  destruct (Nat.leb_spec (h_len (e_self e)) i) as [Hv|Hv]; [discriminate|].
  apply get_var_inv in Er.
  destruct (e_copy_on_write_ok _ e _ (SI_get s n e HS Er)) as (m' & e' & A1 & A2 & A3 & A4 & A0 & A5 & A6 & A7). rewrite A1. cbn [rbind].
  destruct (var_write s n e e' m' HS Er A2 A0 A3 A4 A5 A6 i [Some v]) as (d & l & E1 & E3 & Hl & W1 & W2 & W3).
  { cbn. lia. }
  unfold from_opt. rewrite E1. cbn [rbind fst snd Nat.add]. rewrite W1. cbn [rbind put_ref]. intros [= <-].
  destruct (proj1 (sole_one _ _ _ (ei_p _ _ A2)) A0) as (c & Ec & Ek).
  exists e', c. cbn. rewrite lookup_insert. auto.
Qed.

Lemma reached_slices (s : pst) : reached s -> slices s.
Proof. intro H. apply SI_slices, reached_SI, H. Qed.
End proofs.
