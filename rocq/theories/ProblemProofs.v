(** Proofs about the default derivatives. *)
From Coq Require Import List QArith_base Arith Lia.
From Verif Require Import Arith ProblemModel ProblemSpec.
Import ListNotations.
Local Open Scope nat_scope.

Lemma wr_ok {X} (l : list X) i v : i < length l -> wr l i v = Some (replaced l i v).
Proof.
  revert i. induction l as [|a l IH]; intros i H; [cbn in H; lia|].
  destruct i as [|i]; [reflexivity|]. cbn [wr]. cbn in H. rewrite (IH i) by lia. reflexivity.
Qed.
Lemma wr_bad {X} (l : list X) i v : length l <= i -> wr l i v = None.
Proof.
  revert i. induction l as [|a l IH]; intros i H; [reflexivity|].
  destruct i as [|i]; [cbn in H; lia|]. cbn [wr]. cbn in H. rewrite (IH i) by lia. reflexivity.
Qed.
Lemma replaced_length {X} (l : list X) i v : i < length l -> length (replaced l i v) = length l.
Proof. intros H. unfold replaced. rewrite app_length, firstn_length. cbn [length]. rewrite skipn_length. lia. Qed.
Lemma replaced_nth {X} (l : list X) i v j : i < length l ->
  nth_error (replaced l i v) j = if Nat.eqb i j then Some v else nth_error l j.
Proof.
  revert i j. induction l as [|a l IH]; intros i j H; [cbn in H; lia|].
  destruct i as [|i]; destruct j as [|j]; try reflexivity. cbn in H. cbn. apply IH. lia.
Qed.
Lemma nth_ext_error {X} (a b : list X) : (forall i, nth_error a i = nth_error b i) -> a = b.
Proof.
  revert b. induction a as [|x a IH]; intros [|y b] H; [reflexivity|specialize (H 0); discriminate|specialize (H 0); discriminate|].
  pose proof (H 0) as H0. cbn in H0. injection H0 as ->. f_equal. apply IH. intros i. exact (H (S i)).
Qed.
Lemma replaced_back {X} (l : list X) i v w : nth_error l i = Some w -> replaced (replaced l i v) i w = l.
Proof.
  intros H. assert (Hi : i < length l) by (apply nth_error_Some; congruence). apply nth_ext_error. intros j.
  rewrite replaced_nth by (rewrite replaced_length; assumption). rewrite replaced_nth by assumption.
  destruct (Nat.eqb i j) eqn:E; [|reflexivity]. apply Nat.eqb_eq in E. subst. symmetry. exact H.
Qed.

Lemma for_inv {S} (body : nat -> S -> option S) (P : nat -> S -> Prop) : forall n i s, P i s ->
  (forall j s, i <= j < i + n -> P j s -> exists s', body j s = Some s' /\ P (Datatypes.S j) s') ->
  exists s', for_loop body i n s = Some s' /\ P (i + n) s'.
Proof.
  induction n as [|n IH]; intros i s H HS.
  - exists s. rewrite Nat.add_0_r. split; [reflexivity|exact H].
  - destruct (HS i s ltac:(lia) H) as (s1 & E & H1). cbn [for_loop]. rewrite E.
    destruct (IH (Datatypes.S i) s1 H1) as (s2 & E2 & H2).
    + intros j s0 Hj. apply HS. lia.
    + exists s2. split; [exact E2|]. replace (i + Datatypes.S n) with (Datatypes.S i + n) by lia. exact H2.
Qed.

Section proofs.
Context {A : arith}.
Notation vec := (list (F A)).

Lemma copy_ok (x junk : vec) : length junk = length x ->
  for_loop (fun i xe => match rd x i with Some v => wr xe i v | None => None end) 0 (length x) junk = Some x.
Proof.
  intros HL.
  destruct (for_inv (fun i xe => match rd x i with Some v => wr xe i v | None => None end)
    (fun i xe => length xe = length x /\ forall j, j < i -> nth_error xe j = nth_error x j) (length x) 0 junk) as (s' & E & L & H).
  - split; [exact HL|intros; lia].
  - intros j xe Hj [L H]. unfold rd. destruct (nth_error x j) as [v|] eqn:Ev.
    2:{ apply nth_error_None in Ev. lia. }
    exists (replaced xe j v). rewrite wr_ok by lia. split; [reflexivity|]. split; [rewrite replaced_length; lia|].
    intros i Hi. rewrite replaced_nth by lia. destruct (Nat.eqb j i) eqn:E; [apply Nat.eqb_eq in E; subst; auto|].
    apply Nat.eqb_neq in E. apply H. lia.
  - rewrite E. f_equal. apply nth_ext_error. intros i. destruct (Nat.lt_ge_cases i (length x)) as [Hi|Hi]; [apply H; lia|].
    rewrite !(proj2 (nth_error_None _ _)) by lia. reflexivity.
Qed.

Lemma num_grad_ok {K} (f : objective K) (value : vec -> F A) good x k junk g0 :
  faithful f value good -> good x k -> length junk = length x -> length g0 = length x ->
  exists g k', num_grad f x k junk g0 = Some (g, k') /\ good x k' /\ length g = length x /\
    forall i xi, nth_error x i = Some xi ->
      nth_error g i = Some ((value (replaced x i (xi + num_eps)%A) - value x) / num_eps)%A.
Proof.
  intros [HF0 HF] Hk Hj Hg. unfold num_grad. destruct (f x k) as [fx k1] eqn:Ef.
  destruct (HF x k Hk) as [Hfx Hk1]. rewrite Ef in Hfx, Hk1. cbn in Hfx, Hk1. subst fx.
  rewrite (copy_ok x junk Hj).
  destruct (for_inv (num_body f x (value x))
    (fun i s => fst (fst s) = x /\ length (snd (fst s)) = length x /\
      forall j xj, j < i -> nth_error x j = Some xj ->
        nth_error (snd (fst s)) j = Some ((value (replaced x j (xj + num_eps)%A) - value x) / num_eps)%A) (length x) 0 (x, g0, None))
    as ([[xe g] ke] & E & Hxe & L & H).
  - cbn. split; [reflexivity|]. split; [exact Hg|]. intros. lia.
  - intros j [[xe g] ke] Hb (Hxe & L & H). cbn [fst snd] in *. subst xe. unfold num_body, rd.
    destruct (nth_error x j) as [xj|] eqn:Ex; [|apply nth_error_None in Ex; lia].
    rewrite wr_ok by lia. destruct (f (replaced x j (xj + num_eps)%A) None) as [fp kp] eqn:Ep.
    destruct (HF _ None (HF0 (replaced x j (xj + num_eps)%A))) as [Hv _]. rewrite Ep in Hv. cbn in Hv. subst fp.
    rewrite (wr_ok g) by lia. rewrite wr_ok by (rewrite replaced_length; lia). rewrite replaced_back by exact Ex.
    eexists. split; [reflexivity|]. cbn [fst snd]. split; [reflexivity|]. split; [rewrite replaced_length; lia|].
    intros i xi Hi Hxi. rewrite replaced_nth by lia. destruct (Nat.eqb j i) eqn:Ei.
    + apply Nat.eqb_eq in Ei. subst i. rewrite Hxi in Ex. injection Ex as ->. reflexivity.
    + apply Nat.eqb_neq in Ei. apply H; [lia|exact Hxi].
  - cbn [fst snd] in *. rewrite E. exists g, k1. split; [reflexivity|]. split; [exact Hk1|]. split; [exact L|].
    intros i xi Hxi. apply H; [|exact Hxi]. cbn. apply nth_error_Some. congruence.
Qed.
(** A result that is too short is written outside. *)
Lemma for_bad {S} (body : nat -> S -> option S) (P : nat -> S -> Prop) m : forall n i s, P i s -> i <= m < i + n ->
  (forall j s, i <= j < m -> P j s -> exists s', body j s = Some s' /\ P (Datatypes.S j) s') ->
  (forall s, P m s -> body m s = None) -> for_loop body i n s = None.
Proof.
  induction n as [|n IH]; intros i s HP Hm HS HB; [lia|]. cbn [for_loop].
  destruct (Nat.eq_dec i m) as [->|Hn]; [rewrite (HB s HP); reflexivity|].
  destruct (HS i s ltac:(lia) HP) as (s' & E & H'). rewrite E. apply IH; [exact H'|lia| |exact HB].
  intros j s0 Hj. apply HS. lia.
Qed.
Lemma num_grad_bad {K} (f : objective (A := A) K) x k junk g0 :
  length junk = length x -> length g0 < length x -> num_grad f x k junk g0 = None.
Proof.
  intros Hj Hg. unfold num_grad. destruct (f x k) as [fx k1]. rewrite (copy_ok x junk Hj).
  rewrite (for_bad (num_body f x fx) (fun _ s => length (fst (fst s)) = length x /\ length (snd (fst s)) = length g0) (length g0) (length x) 0 (x, g0, None)); [reflexivity|auto|lia| |].
  - intros j [[xe g] ke] Hb (Le & L). cbn [fst snd] in *. unfold num_body, rd.
    destruct (nth_error xe j) as [xj|] eqn:Ex; [|apply nth_error_None in Ex; lia].
    destruct (nth_error x j) as [xj'|] eqn:Ex'; [|apply nth_error_None in Ex'; lia].
    rewrite wr_ok by lia. destruct (f _ None) as [fp kp]. rewrite (wr_ok g) by lia.
    rewrite wr_ok by (rewrite replaced_length; lia). eexists. split; [reflexivity|]. cbn.
    rewrite !replaced_length; rewrite ?replaced_length; lia.
  - intros [[xe g] ke] (Le & L). cbn [fst snd] in *. unfold num_body, rd.
    destruct (nth_error xe (length g0)) as [xj|]; [|reflexivity].
    destruct (wr xe (length g0) _) as [xe1|]; [|reflexivity]. destruct (f xe1 None) as [fp kp].
    rewrite wr_bad by lia. reflexivity.
Qed.

(** *** Hessian *)
Lemma scal_length (a : F A) v : length (scal a v) = length v.
Proof. apply map_length. Qed.
Lemma axpy_length (a : F A) : forall t x, length x = length t -> length (axpy a x t) = length t.
Proof. induction t as [|b t IH]; intros [|c x] H; cbn in *; try discriminate; [reflexivity|]. f_equal. apply IH. lia. Qed.
Lemma axpy_nth (a : F A) : forall t x i b c, nth_error t i = Some b -> nth_error x i = Some c ->
  nth_error (axpy a x t) i = Some (b + a * c)%A.
Proof.
  induction t as [|b0 t IH]; intros [|c0 x] [|i] b c Hb Hc; try discriminate.
  - cbn in Hb, Hc. injection Hb as ->. injection Hc as ->. reflexivity.
  - cbn in Hb, Hc. cbn. apply IH; assumption.
Qed.
Lemma scal_nth (a : F A) v i b : nth_error v i = Some b -> nth_error (scal a v) i = Some (a * b)%A.
Proof. intros H. unfold scal. rewrite nth_error_map, H. reflexivity. Qed.
End proofs.
