(** Proofs about the proximal mapping, part 2: over the reals. *)
From Coq Require Import List QArith_base Qreals Reals Lra Lia Psatz.
From Verif Require Import Arith ProblemModel ProblemSpec ProblemProofs ProxModel ProxSpec ProxProofs.
Import ListNotations.
Local Open Scope R_scope.

Section real.
Variables big eps : R.
Notation RA := (R_arith big eps).

Definition soft (t x : R) : R := if Rlt_dec (x + t) 0 then x + t else if Rlt_dec 0 (x - t) then x - t else 0.
Lemma prox_entry_soft lambda x w : 0 <= lambda -> 0 < w -> prox_entry (A := RA) lambda x w = soft (lambda / w) x.
Proof.
  intros Hl Hw. assert (Ht : 0 <= lambda / w) by (apply Rmult_le_pos; [lra|left; apply Rinv_0_lt_compat; lra]).
  unfold prox_entry, soft. cbn. unfold Q2R. cbn. replace (0 * / 1) with 0 by lra. unfold Rltb.
  destruct (Rlt_dec (x + lambda / w) 0); destruct (Rlt_dec 0 (x - lambda / w)); lra.
Qed.

Definition term (lambda w x u : R) : R := lambda * Rabs u + w / 2 * (u - x) ^ 2.
Lemma soft_min lambda w x u : 0 <= lambda -> 0 < w -> u <> soft (lambda / w) x ->
  term lambda w x (soft (lambda / w) x) < term lambda w x u.
Proof.
  intros Hl Hw Hu. assert (E : lambda = lambda / w * w) by (field; lra).
  assert (Ht : 0 <= lambda / w) by (apply Rmult_le_pos; [lra|left; apply Rinv_0_lt_compat; lra]).
  set (t := lambda / w) in *. clearbody t. subst lambda. unfold term. set (p := soft t x) in *.
  assert (K : t * Rabs p + (p - x) ^ 2 / 2 + (u - p) ^ 2 / 2 <= t * Rabs u + (u - x) ^ 2 / 2).
  { subst p. unfold soft. clear Hu.
    destruct (Rlt_dec (x + t) 0); [|destruct (Rlt_dec 0 (x - t))]; unfold Rabs;
      repeat match goal with |- context [Rcase_abs ?a] => destruct (Rcase_abs a) end; nra. }
  assert (0 < (u - p) ^ 2). { assert (u - p <> 0) by lra. replace ((u - p) ^ 2) with (Rsqr (u - p)) by (unfold Rsqr; ring). apply Rlt_0_sqr. assumption. }
  clearbody p. nra.
Qed.
Lemma soft_firm t a b : 0 <= t -> (soft t a - soft t b) ^ 2 <= (soft t a - soft t b) * (a - b).
Proof.
  intros Ht. unfold soft. destruct (Rlt_dec (a + t) 0); destruct (Rlt_dec (b + t) 0); try destruct (Rlt_dec 0 (a - t)); try destruct (Rlt_dec 0 (b - t)); nra.
Qed.
Lemma soft_lip t a b : 0 <= t -> Rabs (soft t a - soft t b) <= Rabs (a - b).
Proof.
  intros Ht. pose proof (soft_firm t a b Ht) as K. apply Rsqr_le_abs_0. unfold Rsqr. set (u := soft t a - soft t b) in *. set (v := a - b) in *.
  clearbody u v. pose proof (pow2_ge_0 (u - v)). nra.
Qed.

(** Exact first-order expansion away from the kinks. *)
Lemma soft_step lambda w x e : 0 <= lambda -> 0 < w -> Rabs x * w <> lambda ->
  exists d, 0 < d /\ forall s, Rabs s < d ->
    soft (lambda / w) (x + s * e) = soft (lambda / w) x + s * jac_entry (A := RA) lambda x w e.
Proof.
  intros Hl Hw Hk. assert (E : lambda = lambda / w * w) by (field; lra).
  assert (Ht : 0 <= lambda / w) by (apply Rmult_le_pos; [lra|left; apply Rinv_0_lt_compat; lra]).
  unfold jac_entry. cbn. set (t := lambda / w) in *. clearbody t. subst lambda.
  assert (Hx : Rabs x <> t) by (intros K; apply Hk; rewrite K; ring).
  set (g := Rabs (Rabs x - t)). assert (Hg : 0 < g) by (apply Rabs_pos_lt; lra).
  exists (g / (Rabs e + 1)). pose proof (Rabs_pos e) as He.
  split; [apply Rmult_lt_0_compat; [exact Hg|apply Rinv_0_lt_compat; lra]|].
  intros s Hs. assert (Hse : Rabs (s * e) < g).
  { rewrite Rabs_mult. apply Rmult_lt_compat_r with (r := Rabs e + 1) in Hs; [|lra].
    replace (g / (Rabs e + 1) * (Rabs e + 1)) with g in Hs by (field; lra). pose proof (Rabs_pos s). nra. }
  replace (Q2R (0#1)) with 0 by (unfold Q2R; cbn; lra).
  assert (Eb : Rltb (t * w) (Rabs x * w) = Rltb t (Rabs x)).
  { unfold Rltb. destruct (Rlt_dec t (Rabs x)); destruct (Rlt_dec (t * w) (Rabs x * w)); try reflexivity; exfalso; nra. }
  rewrite Eb. unfold Rltb. set (h := s * e) in *. assert (Eh : s * e = h) by reflexivity. clearbody h.
  unfold g in Hse. clear g Hg Hs Hk Eb.
  assert (Hh : - Rabs h <= h <= Rabs h) by (split; [pose proof (Rle_abs (- h)) as K; rewrite Rabs_Ropp in K; lra|apply Rle_abs]).
  destruct (Rlt_dec t (Rabs x)) as [H|H].
  - rewrite Eh. rewrite (Rabs_pos_eq (Rabs x - t)) in Hse by lra. unfold soft. destruct (Rle_dec 0 x) as [S0|S0];
    [rewrite (Rabs_pos_eq x) in * by lra|rewrite (Rabs_left x) in * by lra];
    repeat match goal with |- context [Rlt_dec ?a ?b] => destruct (Rlt_dec a b) end; lra.
  - rewrite (Rabs_left1 (Rabs x - t)) in Hse by lra. rewrite Rmult_0_r. unfold soft. destruct (Rle_dec 0 x) as [S0|S0];
    [rewrite (Rabs_pos_eq x) in * by lra|rewrite (Rabs_left x) in * by lra];
    repeat match goal with |- context [Rlt_dec ?a ?b] => destruct (Rlt_dec a b) end; lra.
Qed.

Lemma sum_lt (l : list nat) (f g : nat -> R) : (forall k, In k l -> f k <= g k) -> (exists k, In k l /\ f k < g k) ->
  fold_right Rplus 0 (map f l) < fold_right Rplus 0 (map g l).
Proof.
  assert (Le : forall l, (forall k, In k l -> f k <= g k) -> fold_right Rplus 0 (map f l) <= fold_right Rplus 0 (map g l)).
  { clear l. induction l as [|a l IH]; intros H; cbn; [lra|]. pose proof (H a (or_introl eq_refl)). pose proof (IH (fun k K => H k (or_intror K))). lra. }
  induction l as [|a l IH]; intros H (k & Hk & Hlt); [destruct Hk|]. cbn.
  pose proof (H a (or_introl eq_refl)) as Ha. pose proof (fun k K => H k (or_intror K)) as Hl. destruct Hk as [->|Hk].
  - pose proof (Le l Hl). lra.
  - pose proof (IH Hl (ex_intro _ k (conj Hk Hlt))). lra.
Qed.

Lemma whole nx nw : nw <> 0%nat -> Nat.divide nw nx -> (nw * (nx / nw) = nx)%nat.
Proof. intros Hn [c ->]. rewrite Nat.div_mul by assumption. lia. Qed.

Lemma nth_err_nth (l : list R) k v : nth_error l k = Some v -> nth k l 0 = v.
Proof. apply nth_error_nth. Qed.

(** All entries of the results, when the number of weights divides the number of entries. *)
Lemma proxw_entries lambda (x W res : list R) : 0 <= lambda -> W <> [] -> (forall w, In w W -> 0 < w) ->
  Nat.divide (length W) (length x) -> length res = length x ->
  exists r : list R, proxw (A := RA) lambda x W res = Some r /\ length r = length x /\
   forall k, (k < length x)%nat -> nth k r 0 = soft (lambda / weight_of W (length x / length W) k) (nth k x 0) /\
     0 < weight_of W (length x / length W) k.
Proof.
  intros Hl HW Hp Hd HL. assert (Hn : length W <> 0%nat) by (destruct W; [congruence|discriminate]).
  pose proof (whole _ _ Hn Hd) as Hw. destruct (proxw_spec (A := RA) lambda x W res HW HL) as (r & E & L & H & _).
  change (list (F RA)) with (list R) in r. exists r. split; [exact E|]. split; [exact L|]. intros k Hk.
  assert (Hi : (k / (length x / length W) < length W)%nat).
  { apply block_index. unfold lt. apply Nat.le_trans with (length x); [exact Hk|]. rewrite Hw. apply Nat.le_refl. }
  assert (Ew : nth_error W (k / (length x / length W)) = Some (weight_of W (length x / length W) k)) by (apply nth_error_nth'; exact Hi).
  assert (Pw : 0 < weight_of W (length x / length W) k) by (apply Hp; apply nth_In; exact Hi).
  split; [|exact Pw]. rewrite <- (prox_entry_soft _ _ _ Hl Pw). apply nth_err_nth.
  apply (H k); [change (F RA) with R; rewrite Hw; exact Hk|apply nth_error_nth'; exact Hk|exact Ew].
Qed.
Lemma caljw_entries lambda (x eta W res : list R) : W <> [] -> (forall w, In w W -> 0 < w) ->
  Nat.divide (length W) (length x) -> length res = length x -> length eta = length x ->
  exists r : list R, caljw (A := RA) lambda x eta W res = Some r /\ length r = length x /\
   forall k, (k < length x)%nat -> nth k r 0 = jac_entry (A := RA) lambda (nth k x 0) (weight_of W (length x / length W) k) (nth k eta 0).
Proof.
  intros HW Hp Hd HL HE. assert (Hn : length W <> 0%nat) by (destruct W; [congruence|discriminate]).
  pose proof (whole _ _ Hn Hd) as Hw. destruct (caljw_spec (A := RA) lambda x eta W res HW HL HE) as (r & E & L & H & _).
  change (list (F RA)) with (list R) in r. exists r. split; [exact E|]. split; [exact L|]. intros k Hk.
  assert (Hi : (k / (length x / length W) < length W)%nat).
  { apply block_index. unfold lt. apply Nat.le_trans with (length x); [exact Hk|]. rewrite Hw. apply Nat.le_refl. }
  apply nth_err_nth. apply (H k); [change (F RA) with R; rewrite Hw; exact Hk|apply nth_error_nth'; exact Hk|apply nth_error_nth'; rewrite HE; exact Hk|apply nth_error_nth'; exact Hi].
Qed.

Lemma prox_minimises lambda (x W res : list R) : 0 <= lambda -> W <> [] -> (forall w, In w W -> 0 < w) ->
  Nat.divide (length W) (length x) -> length res = length x ->
  exists r : list R, proxw (A := RA) lambda x W res = Some r /\ length r = length x /\
    forall u, length u = length x -> u <> r ->
      prox_objective lambda W (length x / length W) x r < prox_objective lambda W (length x / length W) x u.
Proof.
  intros Hl HW Hp Hd HL. destruct (proxw_entries lambda x W res Hl HW Hp Hd HL) as (r & E & L & H).
  exists r. split; [exact E|]. split; [exact L|]. intros u Lu Hu. unfold prox_objective.
  assert (HD : exists k, (k < length x)%nat /\ nth k u 0 <> nth k r 0).
  { clear H E HW Hp Hd HL. revert r L Hu. rewrite <- Lu. clear Lu. induction u as [|a u IH]; intros [|b r] L Hu; try discriminate; [congruence|].
    destruct (Req_dec a b) as [->|Hab].
    - destruct (IH r) as (k & Hk & Hn); [cbn in L; lia|congruence|]. exists (S k). split; [cbn; lia|exact Hn].
    - exists 0%nat. split; [cbn; lia|exact Hab]. }
  apply sum_lt.
  - intros k Hk. apply in_seq in Hk. destruct (H k ltac:(lia)) as [Er Pw]. rewrite Er.
    destruct (Req_dec (nth k u 0) (soft (lambda / weight_of W (length x / length W) k) (nth k x 0))) as [->|Hne]; [lra|].
    apply Rlt_le. apply (soft_min lambda _ _ _ Hl Pw Hne).
  - destruct HD as (k & Hk & Hne). exists k. split; [apply in_seq; lia|]. destruct (H k Hk) as [Er Pw]. rewrite Er in *.
    apply (soft_min lambda _ _ _ Hl Pw Hne).
Qed.

Lemma prox_nonexpansive lambda (x y W res res' : list R) : 0 <= lambda -> W <> [] -> (forall w, In w W -> 0 < w) ->
  length y = length x -> Nat.divide (length W) (length x) -> length res = length x -> length res' = length x ->
  exists r s : list R, proxw (A := RA) lambda x W res = Some r /\ proxw (A := RA) lambda y W res' = Some s /\
    forall k, (k < length x)%nat -> Rabs (nth k r 0 - nth k s 0) <= Rabs (nth k x 0 - nth k y 0).
Proof.
  intros Hl HW Hp Hy Hd HL HL'. destruct (proxw_entries lambda x W res Hl HW Hp Hd HL) as (r & E & L & H).
  assert (Hdy : Nat.divide (length W) (length y)) by (rewrite Hy; exact Hd).
  assert (HLy : length res' = length y) by congruence.
  destruct (proxw_entries lambda y W res' Hl HW Hp Hdy HLy) as (s & E' & L' & H').
  exists r, s. split; [exact E|]. split; [exact E'|]. intros k Hk. destruct (H k Hk) as [-> Pw].
  rewrite Hy in H'. destruct (H' k Hk) as [-> _]. apply soft_lip. apply Rmult_le_pos; [lra|left; apply Rinv_0_lt_compat; exact Pw].
Qed.

Lemma below_all_nat (n : nat) (P : nat -> R -> Prop) : (forall k d d', P k d -> 0 < d' <= d -> P k d') ->
  (forall k, (k < n)%nat -> exists d, 0 < d /\ P k d) -> exists d, 0 < d /\ forall k, (k < n)%nat -> P k d.
Proof.
  intros Hm. induction n as [|n IH]; intros H; [exists 1; split; [lra|intros; lia]|].
  destruct IH as (d & Hd & Hk); [intros; apply H; lia|]. destruct (H n ltac:(lia)) as (d' & Hd' & Hn).
  exists (Rmin d d'). assert (0 < Rmin d d') by (apply Rmin_glb_lt; assumption). split; [assumption|].
  intros k Hlt. destruct (Nat.eq_dec k n) as [->|].
  - apply Hm with d'; [exact Hn|split; [assumption|apply Rmin_r]].
  - apply Hm with d; [apply Hk; lia|split; [assumption|apply Rmin_l]].
Qed.

Lemma move_length x e s : length e = length x -> length (move x e s) = length x.
Proof. intros H. unfold move. rewrite map_length, combine_length. lia. Qed.
Lemma move_nth x e s k : length e = length x -> (k < length x)%nat -> nth k (move x e s) 0 = nth k x 0 + s * nth k e 0.
Proof.
  intros H Hk. apply nth_error_nth. unfold move. rewrite nth_error_map.
  rewrite (nth_error_nth' (combine x e) (0, 0)) by (rewrite combine_length; lia). rewrite combine_nth by congruence. reflexivity.
Qed.

Lemma jacobian_exact lambda (x eta W : list R) : 0 <= lambda -> W <> [] -> (forall w, In w W -> 0 < w) ->
  Nat.divide (length W) (length x) -> length eta = length x ->
  (forall k, (k < length x)%nat -> Rabs (nth k x 0) * weight_of W (length x / length W) k <> lambda) ->
  exists d, 0 < d /\ forall (s : R) (res res1 res2 : list R), Rabs s < d -> length res = length x -> length res1 = length x -> length res2 = length x ->
    exists p q j : list R, proxw (A := RA) lambda x W res = Some p /\ proxw (A := RA) lambda (move x eta s) W res1 = Some q /\
      caljw (A := RA) lambda x eta W res2 = Some j /\ q = move p j s.
Proof.
  intros Hl HW Hp Hd HE Hk.
  destruct (below_all_nat (length x) (fun k d => forall s, Rabs s < d ->
    soft (lambda / weight_of W (length x / length W) k) (nth k x 0 + s * nth k eta 0) =
    soft (lambda / weight_of W (length x / length W) k) (nth k x 0) +
    s * jac_entry (A := RA) lambda (nth k x 0) (weight_of W (length x / length W) k) (nth k eta 0))) as (d & Hd0 & H).
  - intros k d d' K Hdd s Hs. apply K. lra.
  - intros k Hlt. apply soft_step; [exact Hl| |apply Hk; exact Hlt].
    destruct (proxw_entries lambda x W x Hl HW Hp Hd eq_refl) as (r & _ & _ & Hr). apply (Hr k Hlt).
  - exists d. split; [exact Hd0|]. intros s res res1 res2 Hs L0 L1 L2.
    destruct (proxw_entries lambda x W res Hl HW Hp Hd L0) as (p & Ep & Lp & Hp').
    pose proof (move_length x eta s HE) as Lm.
    destruct (proxw_entries lambda (move x eta s) W res1 Hl HW Hp) as (q & Eq & Lq & Hq); [rewrite Lm; exact Hd|congruence|].
    destruct (caljw_entries lambda x eta W res2 HW Hp Hd L2 HE) as (j & Ej & Lj & Hj).
    exists p, q, j. split; [exact Ep|]. split; [exact Eq|]. split; [exact Ej|].
    rewrite Lm in Lq, Hq. assert (Ljp : length j = length p) by congruence.
    apply nth_ext with (d := 0) (d' := 0); [rewrite move_length; congruence|]. intros k Hlt. rewrite Lq in Hlt.
    rewrite move_nth by (rewrite ?Lp; assumption). destruct (Hq k Hlt) as [-> _]. destruct (Hp' k Hlt) as [-> _]. rewrite (Hj k Hlt).
    rewrite move_nth by assumption. apply H; assumption.
Qed.

(** The weights of sparse PCA make it the minimiser. *)
Lemma spca_weights_real n p lw (L : R) w1 cn : (0 < n)%nat -> (0 < p)%nat -> 0 < L ->
  (lw = n * p \/ lw = p \/ lw = 1)%nat ->
  let W : list R := spca_weights (A := RA) n p lw L w1 cn in
  W <> [] /\ length W = lw /\ Nat.divide lw (n * p) /\ (forall w, In w W -> 0 < w).
Proof.
  intros Hn Hp HL Hlw W. destruct (Nat.eq_dec lw (n * p)) as [E1|N1]; [|destruct (Nat.eq_dec lw p) as [E2|N2]].
  3: { assert (E3 : lw = 1%nat) by intuition congruence. subst lw.
    assert (EW : W = [L]). { unfold W, spca_weights. apply Nat.eqb_neq in N1, N2. rewrite N1, N2. reflexivity. }
    clearbody W. subst W. split; [discriminate|]. split; [reflexivity|]. split; [apply Nat.divide_1_l|].
    intros w [<-|[]]. exact HL. }
  all: destruct (spca_weights_spec (A := RA) n p lw L w1 cn ltac:(tauto)) as [HW Hv]; fold W in HW, Hv; change (F RA) with R in *.
  all: split; [intros E; rewrite E in HW; cbn in HW; nia|]; split; [exact HW|]; split;
    [first [rewrite E1; apply Nat.divide_refl|rewrite E2; apply Nat.divide_factor_r]|].
  all: intros w Hw; specialize (Hv w Hw); cbn in Hv; replace (Q2R (1#10)) with (1/10) in Hv by (unfold Q2R; cbn; lra);
    destruct Hv as [->|Hv]; [lra|apply Rltb_true in Hv; lra].
Qed.
Lemma spca_prox n p lw (lambda L : R) w1 cn (x res : list R) : 0 <= lambda -> (0 < n)%nat -> (0 < p)%nat -> 0 < L ->
  (lw = n * p \/ lw = p \/ lw = 1)%nat -> length x = (n * p)%nat -> length res = length x ->
  let W : list R := spca_weights (A := RA) n p lw L w1 cn in
  exists r : list R, proxw (A := RA) lambda x W res = Some r /\ length r = length x /\
    forall u, length u = length x -> u <> r ->
      prox_objective lambda W (length x / length W) x r < prox_objective lambda W (length x / length W) x u.
Proof.
  intros Hl Hn Hp HL Hlw Lx Lr W. destruct (spca_weights_real n p lw L w1 cn Hn Hp HL Hlw) as (N & LW & D & P).
  apply prox_minimises; try assumption. fold W in LW. rewrite LW, Lx. exact D.
Qed.
End real.
