(** Derivatives in coordinates. *)
From Coq Require Import List.
From Verif Require Import Arith ProblemModel.

Section coords.
Context {X E I S : Type} (tangent : X -> E -> Prop) (ipE : X -> E -> E -> S) (ipI : X -> I -> I -> S)
  (intr : X -> E -> I) (extr : X -> I -> E).
(** Coordinates that represent tangent vectors and keep the inner product. *)
Definition coordinates : Prop :=
  (forall x i, tangent x (extr x i)) /\
  (forall x e, tangent x e -> extr x (intr x e) = e) /\
  (forall x i j, ipI x i j = ipE x (extr x i) (extr x j)).

Lemma grad_coords (rg : X -> E) (df : X -> E -> S) x : coordinates ->
  tangent x (rg x) -> (forall xi, tangent x xi -> ipE x (rg x) xi = df x xi) ->
  exists g, grad true intr rg x = inr g /\ extr x g = rg x /\ forall eta, ipI x g eta = df x (extr x eta).
Proof.
  intros (H1 & H2 & H3) Ht Hd. eexists. split; [reflexivity|]. split; [apply H2; exact Ht|].
  intros eta. rewrite H3, H2 by exact Ht. apply Hd, H1.
Qed.
Lemma hess_coords (rh : X -> E -> E) x : coordinates -> (forall xi, tangent x xi -> tangent x (rh x xi)) ->
  (forall xi zeta, tangent x xi -> tangent x zeta -> ipE x (rh x xi) zeta = ipE x xi (rh x zeta)) ->
  forall eta theta, exists h k,
    hessian_eta true intr extr rh x (inr eta) = Some (inr h) /\ hessian_eta true intr extr rh x (inr theta) = Some (inr k) /\
    extr x h = rh x (extr x eta) /\ ipI x h theta = ipI x eta k.
Proof.
  intros (H1 & H2 & H3) Ht Hs eta theta. eexists _, _. split; [reflexivity|]. split; [reflexivity|].
  split; [apply H2, Ht, H1|]. rewrite !H3, !H2 by (apply Ht, H1). apply Hs; apply H1.
Qed.
End coords.
