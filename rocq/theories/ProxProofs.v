(** Proofs about the proximal mapping, part 1: any arithmetic. *)
From Coq Require Import List QArith_base Arith Lia Bool.
From Verif Require Import Arith ProblemModel ProblemSpec ProblemProofs ProxModel.
Import ListNotations.
Local Open Scope nat_scope.

Section proofs.
Context {A : arith}.
Notation vec := (list (F A)).

Lemma block_loop_spec entry nblock bs (res : vec) : nblock * bs <= length res ->
  (forall k, k < nblock * bs -> entry k (k / bs) <> None) ->
  exists r, block_loop entry nblock bs res = Some r /\ length r = length res /\
    (forall k, k < nblock * bs -> nth_error r k = entry k (k / bs)) /\
    (forall k, nblock * bs <= k -> nth_error r k = nth_error res k).
Proof.
  intros HL HE. unfold block_loop.
  set (P := fun m (r : vec) => length r = length res /\ (forall k, k < m -> nth_error r k = entry k (k / bs)) /\
    (forall k, m <= k -> nth_error r k = nth_error res k)).
  destruct (for_inv (fun i res => for_loop (fun j res => let idx := j + i * bs in
      match entry idx i with Some v => wr res idx v | None => None end) 0 bs res)
    (fun i r => P (i * bs) r) nblock 0 res) as (r & E & H).
  - split; [reflexivity|]. split; [intros; lia|reflexivity].
  - intros i r Hi HP.
    destruct (for_inv (fun j res => let idx := j + i * bs in
      match entry idx i with Some v => wr res idx v | None => None end)
      (fun j r => P (j + i * bs) r) bs 0 r HP) as (r' & E & H).
    + intros j r1 Hj (L & H1 & H2). cbn zeta.
      assert (Hk : j + i * bs < nblock * bs) by nia.
      assert (Hd : (j + i * bs) / bs = i) by (rewrite Nat.div_add by lia; rewrite Nat.div_small by lia; reflexivity).
      destruct (entry (j + i * bs) i) as [v|] eqn:Ev.
      * rewrite wr_ok by lia. exists (replaced r1 (j + i * bs) v). split; [reflexivity|].
        split; [rewrite replaced_length by lia; exact L|]. split; intros k Hk'; rewrite replaced_nth by lia.
        -- destruct (Nat.eqb (j + i * bs) k) eqn:En.
           ++ apply Nat.eqb_eq in En. subst k. rewrite Hd. symmetry. exact Ev.
           ++ apply Nat.eqb_neq in En. apply H1. lia.
        -- destruct (Nat.eqb (j + i * bs) k) eqn:En; [apply Nat.eqb_eq in En; lia|]. apply H2. lia.
      * exfalso. apply (HE _ Hk). rewrite Hd. exact Ev.
    + exists r'. split; [exact E|]. replace (S i * bs) with (0 + bs + i * bs) by lia. exact H.
  - destruct H as (L & H1 & H2). exists r. split; [exact E|]. split; [exact L|].
    split; intros k Hk; [apply H1|apply H2]; cbn; lia.
Qed.

Lemma rd_some {X} (l : list X) k : k < length l -> exists v, rd l k = Some v.
Proof. intros H. unfold rd. destruct (nth_error l k) eqn:E; [eauto|]. apply nth_error_None in E. lia. Qed.

Lemma blocks_fit (nx nw : nat) : nw <> 0 -> nw * (nx / nw) <= nx.
Proof. apply Nat.mul_div_le. Qed.
Lemma block_index (nx nw k : nat) : k < nw * (nx / nw) -> k / (nx / nw) < nw.
Proof. intros H. destruct (Nat.eq_dec (nx / nw) 0) as [E|E]; [rewrite E in H; lia|]. apply Nat.div_lt_upper_bound; lia. Qed.

Lemma proxw_spec lambda (x W res : vec) : W <> [] -> length res = length x ->
  exists r, proxw lambda x W res = Some r /\ length r = length x /\
    (forall k a w, k < length W * (length x / length W) -> nth_error x k = Some a ->
       nth_error W (k / (length x / length W)) = Some w -> nth_error r k = Some (prox_entry lambda a w)) /\
    (forall k, length W * (length x / length W) <= k -> nth_error r k = nth_error res k).
Proof.
  intros HW HL. unfold proxw. destruct (length W) as [|n] eqn:EW; [destruct W; [congruence|discriminate]|].
  pose proof (blocks_fit (length x) (S n) ltac:(lia)) as HF.
  edestruct (block_loop_spec (fun idx i => match rd x idx, rd W i with Some a, Some w => Some (prox_entry lambda a w) | _, _ => None end)
    (S n) (length x / S n) res) as (r & E & L & H1 & H2).
  - rewrite HL. exact HF.
  - intros k Hk. destruct (rd_some x k ltac:(lia)) as [a ->].
    destruct (rd_some W (k / (length x / S n))) as [w ->]; [rewrite EW; apply block_index; exact Hk|discriminate].
  - exists r. split; [exact E|]. split; [congruence|]. split; [|exact H2].
    intros k a w Hk Ha Hw. rewrite (H1 k Hk). unfold rd. rewrite Ha, Hw. reflexivity.
Qed.
Lemma caljw_spec lambda (x eta W res : vec) : W <> [] -> length res = length x -> length eta = length x ->
  exists r, caljw lambda x eta W res = Some r /\ length r = length x /\
    (forall k a w e, k < length W * (length x / length W) -> nth_error x k = Some a -> nth_error eta k = Some e ->
       nth_error W (k / (length x / length W)) = Some w -> nth_error r k = Some (jac_entry lambda a w e)) /\
    (forall k, length W * (length x / length W) <= k -> nth_error r k = nth_error res k).
Proof.
  intros HW HL HE. unfold caljw. destruct (length W) as [|n] eqn:EW; [destruct W; [congruence|discriminate]|].
  pose proof (blocks_fit (length x) (S n) ltac:(lia)) as HF.
  edestruct (block_loop_spec (fun idx i => match rd x idx, rd W i, rd eta idx with
      | Some a, Some w, Some e => Some (jac_entry lambda a w e) | _, _, _ => None end)
    (S n) (length x / S n) res) as (r & E & L & H1 & H2).
  - rewrite HL. exact HF.
  - intros k Hk. destruct (rd_some x k ltac:(lia)) as [a ->]. destruct (rd_some eta k ltac:(lia)) as [e ->].
    destruct (rd_some W (k / (length x / S n))) as [w ->]; [rewrite EW; apply block_index; exact Hk|discriminate].
  - exists r. split; [exact E|]. split; [congruence|]. split; [|exact H2].
    intros k a w e Hk Ha He Hw. rewrite (H1 k Hk). unfold rd. rewrite Ha, Hw, He. reflexivity.
Qed.

(** The entries after the last whole block. *)
Lemma prox_tail lambda (x W res : vec) : W <> [] -> length res = length x ->
  exists r, proxw lambda x W res = Some r /\
    forall k, length W * (length x / length W) <= k -> nth_error r k = nth_error res k.
Proof. intros HW HL. destruct (proxw_spec lambda x W res HW HL) as (r & E & _ & _ & H). eauto. Qed.

Lemma at_least_spec (v : F A) : at_least v = fq (1#10)%Q \/ flt (fq (1#10)%Q) (at_least v) = true.
Proof. unfold at_least. destruct (flt (fq (1#10)%Q) v) eqn:E; [right; exact E|left; reflexivity]. Qed.
Lemma flat_map_length_const {X Y} (f : X -> list Y) c l : (forall a, In a l -> length (f a) = c) -> length (flat_map f l) = length l * c.
Proof.
  induction l as [|a l IH]; intros H; [reflexivity|]. cbn [flat_map length]. rewrite app_length, IH by (intros; apply H; right; assumption).
  rewrite (H a) by (left; reflexivity). lia.
Qed.
Lemma spca_weights_spec n p lw (L : F A) w1 cn : lw = n * p \/ lw = p ->
  length (spca_weights n p lw L w1 cn) = lw /\
  forall v, In v (spca_weights n p lw L w1 cn) -> v = fq (1#10)%Q \/ flt (fq (1#10)%Q) v = true.
Proof.
  intros H. unfold spca_weights. destruct (lw =? n * p) eqn:E1.
  - apply Nat.eqb_eq in E1. split.
    + rewrite (flat_map_length_const _ n) by (intros; rewrite map_length, seq_length; reflexivity). rewrite seq_length. lia.
    + intros v Hv. apply in_flat_map in Hv as (j & _ & Hv). apply in_map_iff in Hv as (i & <- & _). apply at_least_spec.
  - apply Nat.eqb_neq in E1. destruct H as [H|H]; [congruence|]. rewrite H, Nat.eqb_refl. split.
    + rewrite map_length, seq_length. reflexivity.
    + intros v Hv. apply in_map_iff in Hv as (i & <- & _). apply at_least_spec.
Qed.
Lemma spca_weights_entry n p (L : F A) w1 cn i j : i < n -> j < p ->
  nth_error (spca_weights n p (n * p) L w1 cn) (i + j * n) = Some (at_least ((w1 j - cn i) * fq (2#1)%Q)%A).
Proof.
  intros Hi Hj. unfold spca_weights. rewrite Nat.eqb_refl.
  assert (G : forall s m, j < m -> nth_error (flat_map (fun j => map (fun i => at_least ((w1 j - cn i) * fq (2#1)%Q)%A) (seq 0 n)) (seq s m)) (i + j * n)
    = Some (at_least ((w1 (s + j)%nat - cn i) * fq (2#1)%Q)%A)).
  { clear Hj p. induction j as [|j IH]; intros s m Hm; (destruct m as [|m]; [lia|]); cbn [seq flat_map].
    - rewrite nth_error_app1 by (rewrite map_length, seq_length; lia). rewrite Nat.add_0_r, Nat.add_0_r.
      rewrite nth_error_map, (nth_error_nth' (seq 0 n) 0) by (rewrite seq_length; lia). rewrite seq_nth by lia. reflexivity.
    - rewrite nth_error_app2 by (rewrite map_length, seq_length; nia). rewrite map_length, seq_length.
      replace (i + S j * n - n) with (i + j * n) by nia. rewrite IH by lia. do 5 f_equal. lia. }
  exact (G 0 p Hj).
Qed.
End proofs.
