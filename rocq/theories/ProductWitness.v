(** Programs that show where product objects differ from what a user expects. *)
From stdpp Require Import gmap list.
From Coq Require Import ZArith.
From Verif Require Import SmartSpaceModel ProductModel ProductSpec.
Open Scope nat_scope.

Notation zop := (@pop nat).

(** x is a product with components of lengths 2, 2, 3; every entry is written. *)
Definition prog_x : list zop :=
  [PProduct 0 [(2, 2); (3, 1)]; PWriteEntire (Var 0) [1; 2; 3; 4; 5; 6; 7]].

(** Run a program, then read some objects. *)
Definition obs (ops : list zop) (rs : list ref) : res (list (option (list (option nat)))) :=
  s <-! prun init_pst ops;
  fold_right (fun r acc => l <-! preads s r; k <-! acc; Ok (l :: k)) (Ok []) rs.

(** Vector G = x.GetElement(0);  then write x.GetElement(0): the component leaves its parent. *)
Definition prog_detach : list zop := prog_x ++ [PCopyNew 1 (Comp 0 0); PWritePartial (Comp 0 0) 0 9].
(** Assigning a component of an object without storage leaves the parent without storage. *)
Definition prog_null : list zop := [PProduct 0 [(2, 2)]; PWriteEntire (Comp 0 0) [1; 2]].
(** y = x; then write y.GetElement(0): x changes too. *)
Definition prog_shared : list zop := prog_x ++ [PCopyNew 1 (Var 0); PWriteEntire (Comp 1 0) [8; 9]].
(** Vector G = x.GetElement(0); then the end of x's life: G dangles. *)
Definition prog_dangle : list zop := prog_x ++ [PCopyNew 1 (Comp 0 0); PDestroy 0].
(** The same two variables die in the other order: x's storage is not released by G. *)
Definition prog_fine : list zop :=
  prog_x ++ [PCopyNew 1 (Var 0); PWritePartial (Var 1) 0 9; PWriteEntire (Comp 1 2) [8; 8; 8];
             PAssign (Comp 1 0) (Comp 1 1)].

Lemma detach_obs : obs prog_detach [Var 0; Comp 0 0; Var 1]
  = Ok [Some [Some 1; Some 2; Some 3; Some 4; Some 5; Some 6; Some 7]; Some [Some 9; Some 2]; Some [Some 1; Some 2]].
Proof. vm_compute. reflexivity. Qed.
Lemma null_obs : obs prog_null [Var 0; Comp 0 0; Comp 0 1] = Ok [None; Some [Some 1; Some 2]; None].
Proof. vm_compute. reflexivity. Qed.
Lemma shared_obs : obs prog_shared [Var 0; Var 1]
  = Ok [Some [Some 8; Some 9; Some 3; Some 4; Some 5; Some 6; Some 7];
        Some [Some 8; Some 9; Some 3; Some 4; Some 5; Some 6; Some 7]].
Proof. vm_compute. reflexivity. Qed.
Lemma dangle_obs : obs prog_dangle [] = Ok [] /\ obs prog_dangle [Var 1] = Err Undef /\
  obs (prog_dangle ++ [PDestroy 1]) [] = Err Undef.
Proof. vm_compute. auto. Qed.
Lemma fine_obs : obs prog_fine [Var 0; Var 1; Comp 1 0; Comp 1 1; Comp 1 2]
  = Ok [Some [Some 1; Some 2; Some 3; Some 4; Some 5; Some 6; Some 7];
        Some [Some 3; Some 4; Some 3; Some 4; Some 8; Some 8; Some 8];
        Some [Some 3; Some 4]; Some [Some 3; Some 4]; Some [Some 8; Some 8; Some 8]].
Proof. vm_compute. reflexivity. Qed.

Definition lens_after (ops : list zop) (n : nat) : list nat :=
  match prun init_pst ops with Ok s => comp_lens s n | Err _ => [] end.

Lemma obs2 ops r1 r2 a b : obs ops [r1; r2] = Ok [a; b] ->
  exists s, prun init_pst ops = Ok s /\ preads s r1 = Ok a /\ preads s r2 = Ok b.
Proof.
  unfold obs. destruct (prun init_pst ops) as [s|er]; cbn [rbind fold_right]; [|discriminate].
  destruct (preads s r1) as [x|er] eqn:E1; cbn [rbind]; [|discriminate].
  destruct (preads s r2) as [y|er] eqn:E2; cbn [rbind]; [|discriminate].
  intros [= <- <-]. exists s. auto.
Qed.

Lemma not_slices ops a b len : obs ops [Var 0; Comp 0 0] = Ok [a; b] ->
  lens_after ops 0 !! 0 = Some len -> option_map (take len) a <> b ->
  exists s, prun init_pst ops = Ok s /\ ~ slices s.
Proof.
  intros H Hl Hne. destruct (obs2 _ _ _ _ _ H) as (s & E & A & B). exists s. split; [exact E|].
  unfold lens_after in Hl. rewrite E in Hl. intro S.
  destruct (S 0) as (d & D1 & _ & D3).
  { unfold comp_lens in Hl. destruct (ps_objs s !! 0); [eauto|discriminate]. }
  rewrite A in D1. injection D1 as <-. specialize (D3 0 len Hl). rewrite B in D3. injection D3 as ->.
  apply Hne. destruct a; reflexivity.
Qed.

Lemma detach_refuted : exists s, prun init_pst prog_detach = Ok s /\ ~ slices s.
Proof.
  eapply (not_slices prog_detach _ _ 2); [vm_compute; reflexivity|vm_compute; reflexivity|vm_compute; discriminate].
Qed.
Lemma null_refuted : exists s, prun init_pst prog_null = Ok s /\ ~ slices s.
Proof.
  eapply (not_slices prog_null _ _ 2); [vm_compute; reflexivity|vm_compute; reflexivity|vm_compute; discriminate].
Qed.

(** A boolean test of the hypotheses, for the example. *)
Definition has_data_b (s : @pst nat) (r : ref) : option nat :=
  match preads s r with Ok (Some l) => Some (length l) | _ => None end.
Definition allowed_b (s : @pst nat) (o : zop) : bool :=
  match o with
  | PCopyNew _ (Comp _ _) | PAssign (Var _) (Comp _ _) => false
  | PAssign (Comp n j) src =>
      match has_data_b s (Comp n j), has_data_b s src with
      | Some a, Some b => Nat.eqb a b
      | _, _ => false
      end
  | PWriteEntire (Comp n j) _ | PWritePartial (Comp n j) _ _ =>
      match has_data_b s (Comp n j) with Some _ => true | None => false end
  | _ => true
  end.
Lemma has_data_b_ok s r a : has_data_b s r = Some a -> exists l, has_data s r l /\ length l = a.
Proof.
  unfold has_data_b, has_data. destruct (preads s r) as [[l|]|]; try discriminate. intros [= <-]. eauto.
Qed.
Lemma allowed_b_ok s o : allowed_b s o = true -> allowed s o.
Proof.
  destruct o as [n len|n types|n [k|k j]|[n|n j] src|[n|n j] vs|[n|n j] i v|n]; cbn; auto; try discriminate.
  - destruct src; auto; discriminate.
  - destruct (has_data_b s (Comp n j)) as [a|] eqn:Ea; [|discriminate].
    destruct (has_data_b s src) as [b|] eqn:Eb; [|discriminate]. intro E. apply Nat.eqb_eq in E.
    apply has_data_b_ok in Ea, Eb. destruct Ea as (l & A1 & A2), Eb as (l' & B1 & B2). exists l, l'.
    repeat split; auto. congruence.
  - destruct (has_data_b s (Comp n j)) as [a|] eqn:Ea; [|discriminate]. intros _.
    apply has_data_b_ok in Ea. destruct Ea as (l & A1 & _). eauto.
  - destruct (has_data_b s (Comp n j)) as [a|] eqn:Ea; [|discriminate]. intros _.
    apply has_data_b_ok in Ea. destruct Ea as (l & A1 & _). eauto.
Qed.
Fixpoint prun_b (s : @pst nat) (ops : list zop) : option (@pst nat) :=
  match ops with
  | [] => Some s
  | o :: ops => if allowed_b s o then match pstep s o with Ok s' => prun_b s' ops | Err _ => None end else None
  end.
Lemma prun_b_reached ops : forall s s', reached s -> prun_b s ops = Some s' -> reached s' /\ prun s ops = Ok s'.
Proof.
  induction ops as [|o ops IH]; cbn; intros s s' Hr; [intros [= <-]; auto|].
  destruct (allowed_b s o) eqn:Ea; [|discriminate]. destruct (pstep s o) as [t|] eqn:Es; [|discriminate].
  intro H. apply IH in H; [exact H|]. econstructor; [exact Hr|apply allowed_b_ok, Ea|exact Es].
Qed.
Lemma reached_run ops : match prun_b init_pst ops with Some _ => true | None => false end = true ->
  exists s, reached s /\ prun init_pst ops = Ok s.
Proof.
  destruct (prun_b init_pst ops) as [s|] eqn:E; [|discriminate]. intros _. exists s.
  apply (prun_b_reached ops); [constructor|exact E].
Qed.
Lemma fine_reached : exists s, reached s /\ prun init_pst prog_fine = Ok s.
Proof. apply reached_run. vm_compute. reflexivity. Qed.

(** Reachable by allowed steps, but not unshared: the write into y's component shows in x. *)
Lemma shared_refuted : exists (s : @pst nat) o s' l l',
  reached s /\ allowed s o /\ o = PWriteEntire (Comp 1 0) [8; 9] /\ pstep s o = Ok s' /\
  preads s (Var 0) = Ok (Some l) /\ preads s' (Var 0) = Ok (Some l') /\ l <> l'.
Proof.
  destruct (reached_run (prog_x ++ [PCopyNew 1 (Var 0)])) as (s & Hr & Hs); [vm_compute; reflexivity|].
  destruct (obs2 (prog_x ++ [PCopyNew 1 (Var 0)]) (Var 0) (Comp 1 0) (Some (Some <$> [1;2;3;4;5;6;7])) (Some [Some 1; Some 2]))
    as (s1 & A1 & A2 & A3); [vm_compute; reflexivity|].
  rewrite Hs in A1. injection A1 as <-.
  destruct (obs2 prog_shared (Var 0) (Var 1) (Some (Some <$> [8;9;3;4;5;6;7])) (Some (Some <$> [8;9;3;4;5;6;7])))
    as (s' & B1 & B2 & B3); [vm_compute; reflexivity|].
  exists s, (PWriteEntire (Comp 1 0) [8; 9]), s', (Some <$> [1;2;3;4;5;6;7]), (Some <$> [8;9;3;4;5;6;7]).
  split; [exact Hr|]. split; [eexists; exact A3|]. split; [reflexivity|]. split; [|split; [exact A2|split; [exact B2|discriminate]]].
  assert (Happ : forall (a b : list zop) (t : @pst nat), prun t (a ++ b) = rbind (prun t a) (fun u => prun u b)).
  { induction a as [|o a IH]; intros b t; [reflexivity|]. cbn. destruct (pstep t o); cbn; auto. }
  unfold prog_shared in B1.
  change (prog_x ++ [PCopyNew 1 (Var 0); PWriteEntire (Comp 1 0) [8; 9]])
    with (prog_x ++ ([PCopyNew 1 (Var 0)] ++ [PWriteEntire (Comp 1 0) [8; 9]])) in B1.
  rewrite app_assoc, Happ, Hs in B1. cbn [rbind prun] in B1.
  destruct (pstep s (PWriteEntire (Comp 1 0) [8; 9])); cbn in B1; [congruence|discriminate].
Qed.

Lemma dangle_refuted : exists s, prun init_pst prog_dangle = Ok s /\ preads s (Var 1) = Err Undef /\
  pstep s (PDestroy 1) = Err Undef.
Proof.
  destruct dangle_obs as (A & B & D).
  assert (Happ : forall (a b : list zop) (t : @pst nat), prun t (a ++ b) = rbind (prun t a) (fun u => prun u b)).
  { induction a as [|o a IH]; intros b t; [reflexivity|]. cbn. destruct (pstep t o); cbn; auto. }
  unfold obs in A, B, D. rewrite Happ in D. destruct (prun init_pst prog_dangle) as [s|er]; [|discriminate].
  exists s. split; [reflexivity|]. cbn [rbind fold_right] in B, D. split.
  - destruct (preads s (Var 1)) as [x|er]; cbn [rbind] in B; congruence.
  - cbn [prun] in D. destruct (pstep s (PDestroy 1)) as [x|er]; cbn [rbind] in D; congruence.
Qed.
