(** Proofs about the semismooth Newton loop, in any arithmetic. *)
From Coq Require Import List QArith Arith Bool Lia.
Import ListNotations.
From Verif Require Import Arith MatOpsModel TangentModel SSNModel.
Local Close Scope Q_scope.

Section loop.
Context {A : arith}.
Notation vec := (@vec A).
Variables nor_intr nor_extr proj prox : vec -> vec.
Variable jac : vec -> vec -> vec.
Variables x etax W : vec.
Variables SMtol SMlambda : F A.
Variable m : nat.
Notation blambda := (blambda nor_extr x etax W).
Notation ew := (ew nor_intr prox x).
Notation trial := (trial nor_intr nor_extr prox x etax W).
Notation backtrack := (backtrack nor_intr nor_extr prox x etax W).
Notation ssn_pass := (ssn_pass nor_intr nor_extr prox jac x etax W SMlambda m).
Notation ssn_loop := (ssn_loop nor_intr nor_extr prox jac x etax W SMtol SMlambda m).
Notation ssn_init := (ssn_init nor_intr nor_extr prox x etax W m).
Notation newton_dir := (newton_dir nor_intr nor_extr jac x W SMlambda m).
Notation cg_loop := (cg_loop nor_intr nor_extr jac x W).
Notation proximal_map := (proximal_map nor_intr nor_extr proj prox jac x etax W SMtol SMlambda m).
Notation step_of := (step_of proj prox x).

Lemma cg_count B mu tau ln n : forall k res r p, (k <= snd (cg_loop B mu tau ln n k res r p) <= k + n)%nat.
Proof.
  induction n as [|n IH]; intros; cbn; [lia|]. destruct (flt _ _); cbn; [|lia].
  match goal with |- context [cg_loop ?a ?b ?c ?d n (S k) ?e ?f ?g] => specialize (IH (S k) e f g) end. lia.
Qed.
Lemma dir_count s : (snd (newton_dir s) <= 30)%nat.
Proof.
  unfold newton_dir, cg. match goal with |- context [SSNModel.cg_loop _ _ _ _ _ ?B ?mu ?tau ?ln ?n ?k ?a ?b ?c] =>
    pose proof (cg_count B mu tau ln n k a b c) as H end.
  destruct (Nat.ltb_spec m 30); lia.
Qed.
Lemma backtrack_trial n : forall bt z d nFz alpha t, (exists a, t = trial z d a) ->
  exists a, snd (backtrack n bt z d nFz alpha t) = trial z d a.
Proof. induction n as [|n IH]; intros; cbn; [easy|]. destruct (flt _ _); [|easy]. apply IH. eauto. Qed.

(** F is the residual at z, and B the argument of the proximal mapping. *)
Definition coherent (s : @ssn A) : Prop := sF s = ew (blambda (sz s)) /\ sB s = blambda (sz s).
Definition spent (b : bool) : nat := if b then 1 else 0.
Lemma pass_facts s : coherent s -> let (e, s') := ssn_pass s in
  (scg s' <= scg s + 30)%nat /\ sF s' = ew (blambda (sz s')) /\
  (if e then siter s' = siter s /\ siter s <> O /\ sz s' = sz s else siter s' = S (siter s) /\ coherent s').
Proof.
  intros [HF HB]. unfold ssn_pass. pose proof (dir_count s) as Hd.
  destruct (newton_dir s) as [d c] eqn:E. cbn in Hd.
  destruct (backtrack_trial maxSMbtiter 0 (sz s) d (fnorm (sF s)) (lit 1) (trial (sz s) d (lit 1))) as [a Ha]; [eauto|].
  destruct (backtrack _ _ _ _ _ _ _) as [bt [[u Fu] B]]. cbn in Ha. injection Ha as -> -> ->.
  destruct (Nat.eqb_spec bt maxSMbtiter), (Nat.eqb_spec (siter s) 0); cbn; unfold coherent; cbn; repeat split; auto; lia.
Qed.
Lemma loop_facts n : forall s, coherent s -> let (e, s') := ssn_loop n s in
  (siter s + spent e <= siter s' + spent e <= siter s + n)%nat /\
  (scg s' <= scg s + 30 * (siter s' - siter s + spent e))%nat /\ sF s' = ew (blambda (sz s')) /\
  (if e then siter s' <> O
   else coherent s' /\ ((siter s' < siter s + n)%nat -> flt SMtol (fmul (fnorm (sF s')) (fnorm (sF s'))) = false)).
Proof.
  induction n as [|n IH]; intros s Hs; cbn -[Nat.mul].
  - unfold spent. destruct Hs. repeat split; auto; lia.
  - destruct (flt SMtol _) eqn:E; cbn -[Nat.mul].
    2:{ unfold spent. destruct Hs. repeat split; auto; lia. }
    pose proof (pass_facts s Hs) as P. destruct (ssn_pass s) as [e s']. destruct P as (P1 & P2 & P3).
    destruct e; cbn -[Nat.mul].
    + destruct P3 as (P3 & P4 & P5). rewrite P3. unfold spent. repeat split; auto; lia.
    + destruct P3 as (P3 & P4). specialize (IH s' P4). destruct (ssn_loop n s') as [e t].
      destruct IH as (I1 & I2 & I3 & I4). rewrite P3 in *.
      split; [lia|]. split; [lia|]. split; [easy|]. destruct e; [easy|]. destruct I4 as [I4 I5].
      split; [easy|]. intros. apply I5. lia.
Qed.
Lemma init_coherent initD : coherent (ssn_init initD). Proof. split; reflexivity. Qed.

Lemma ran initD o : proximal_map initD = Some o ->
  o = let (e, s) := ssn_loop SMmaxiter (ssn_init initD) in mkout e (sz s) (step_of (sB s)) (siter s) (scg s).
Proof.
  unfold proximal_map. destruct W eqn:EW; [discriminate|]. rewrite <- EW. destruct (ssn_loop SMmaxiter _). now intros [= <-].
Qed.
Theorem loop_outcome initD o : proximal_map initD = Some o ->
  let residual := ew (blambda (omult o)) in
  (oiter o + spent (oearly o) <= 100)%nat /\ (ocg o <= 30 * (oiter o + spent (oearly o)))%nat /\
  (oearly o = true -> oiter o <> O) /\
  (oearly o = false -> ostep o = step_of (blambda (omult o)) /\
    ((oiter o < 100)%nat -> flt SMtol (fmul (fnorm residual) (fnorm residual)) = false)).
Proof.
  unfold proximal_map. destruct W eqn:EW; [discriminate|]. rewrite <- EW in *.
  pose proof (loop_facts SMmaxiter _ (init_coherent initD)) as H.
  destruct (ssn_loop SMmaxiter _) as [e s]. destruct H as (H1 & H2 & H3 & H4). intros [= <-].
  cbn [siter scg ssn_init oiter ocg oearly ostep omult] in *. unfold SMmaxiter in *. rewrite Nat.sub_0_r in H2. split; [lia|]. split; [lia|]. split.
  - intros ->. easy.
  - intros ->. destruct H4 as [[_ HB] H5]. rewrite H3 in H5. rewrite HB. split; [easy|]. apply H5.
Qed.
Theorem answers initD : (exists o, proximal_map initD = Some o) <-> W <> [].
Proof.
  unfold proximal_map. destruct W eqn:EW; split; try easy.
  - intros [o [=]].
  - intros _. rewrite <- EW. destruct (ssn_loop SMmaxiter _). eauto.
Qed.
End loop.
