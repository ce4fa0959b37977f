(** Concrete data for the theorems about the proximal mapping. *)
From Coq Require Import List QArith_base Qreals Reals Lra Lia.
From Verif Require Import Arith ProblemModel ProxModel ProxSpec.
Import ListNotations.
Local Open Scope R_scope.

Ltac decide_lt := unfold Rltb; repeat match goal with |- context [Rlt_dec ?a ?b] => destruct (Rlt_dec a b); try (exfalso; lra) end.
Lemma q0 : Q2R (0#1) = 0. Proof. unfold Q2R. cbn. lra. Qed.
Lemma prox_example : let x := [3; -2; 1/2; 0] in let W := [1; 2] in
  W <> [] /\ (forall w, In w W -> 0 < w) /\ Nat.divide (length W) (length x) /\
  proxw (A := R_arith 1 1) 1 x W [9; 9; 9; 9] = Some [2; -1; 0; 0].
Proof.
  cbn zeta. split; [discriminate|]. split; [intros w [<-|[<-|[]]]; lra|]. split; [exists 2%nat; reflexivity|].
  cbn. unfold prox_entry. cbn. rewrite q0. decide_lt. repeat f_equal; lra.
Qed.
Lemma tail_example : exists r r', proxw (A := R_arith 1 1) 1 [3; 3; 3] [1; 1] [0; 0; 7] = Some r /\
  proxw (A := R_arith 1 1) 1 [3; 3; 3] [1; 1] [0; 0; 8] = Some r' /\ nth 2 r 0 = 7 /\ nth 2 r' 0 = 8.
Proof. cbn. do 2 eexists. split; [reflexivity|]. split; [reflexivity|]. split; reflexivity. Qed.
Lemma jac_example : let x := [3; -2; 1/4; 0] in let W := [1; 2] in
  W <> [] /\ (forall w, In w W -> 0 < w) /\ Nat.divide (length W) (length x) /\
  forall k, (k < length x)%nat -> Rabs (nth k x 0) * weight_of W (length x / length W) k <> 1.
Proof.
  cbn zeta. split; [discriminate|]. split; [intros w [<-|[<-|[]]]; lra|]. split; [exists 2%nat; reflexivity|].
  intros k Hk. cbn in Hk. do 4 (destruct k as [|k]; [cbn; unfold Rabs; destruct Rcase_abs; lra|]). exfalso. lia.
Qed.
Lemma weights_example : spca_weights (A := R_arith 1 1) 2 1 2 3 (fun _ => 5) (fun i => INR i) =
  [(5 - 0) * 2; (5 - 1) * 2].
Proof.
  cbn. unfold at_least. cbn. replace (Q2R (1#10)) with (1/10) by (unfold Q2R; cbn; lra).
  replace (Q2R (2#1)) with 2 by (unfold Q2R; cbn; lra). decide_lt. reflexivity.
Qed.
Lemma memory_matters : ~ (forall x W res res' : list R, W <> [] -> (forall w, In w W -> 0 < w) ->
  length res = length x -> length res' = length x ->
  proxw (A := R_arith 1 1) 1 x W res = proxw (A := R_arith 1 1) 1 x W res').
Proof.
  intros H. destruct tail_example as (r & r' & E & E' & H7 & H8).
  specialize (H [3; 3; 3] [1; 1] [0; 0; 7] [0; 0; 8]). change (F (R_arith 1 1)) with R in *. rewrite E, E' in H.
  assert (Some r = Some r') as K by (apply H; [discriminate|intros w [<-|[<-|[]]]; lra|reflexivity|reflexivity]).
  injection K as ->. lra.
Qed.
