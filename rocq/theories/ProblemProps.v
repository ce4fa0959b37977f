(** Theorems about the derivatives a problem has by default. *)
From stdpp Require Import gmap list.
From Coq Require Import ZArith Reals Lra List.
From Verif Require Import Arith SmartSpaceModel SmartSpaceSpec SmartSpaceFacts NumGradMemModel NumGradMemProofs
  ProblemModel ProblemSpec ProblemProofs ProblemReal ProblemFacts.

(** C57.  For every arithmetic, dimension, point and objective that does not depend on what earlier
    evaluations left at the point, entry i is the forward difference quotient in coordinate i. *)
Theorem C57_entries : forall (A : arith) (K : Type) (f : objective (A := A) K) (value : list (F A) -> F A) good x k junk g0,
  faithful f value good -> good x k -> length junk = length x -> length g0 = length x ->
  exists g k', num_grad f x k junk g0 = Some (g, k') /\ good x k' /\ length g = length x /\
    forall i xi, nth_error x i = Some xi ->
      nth_error g i = Some ((value (replaced x i (xi + num_eps)%A) - value x) / num_eps)%A.
Proof. exact @num_grad_ok. Qed.
Print Assumptions C57_entries.

(** In storage: x keeps its contents, every evaluation sees x with exactly one coordinate changed,
    and the result holds the quotients, in every reachable state. *)
Theorem C57_storage : forall (V FV : Type) (D : nat -> shape -> list (option V) -> FV) ops s outs x xe r sx sr lx vr g0 stp vals,
  run D init_st ops = Ok (s, outs) ->
  reads D s x = Some (sx, Some (Some <$> lx)) -> reads D s r = Some (sr, vr) -> reads D s xe = None -> x <> r ->
  length g0 = volume sr -> length g0 = length lx -> length lx = volume sx ->
  exists s', run D s (num_grad_ops x xe r lx g0 stp vals) =
      Ok (s', [ONone; ONone; ONone] ++
        concat (map (fun i => [ONone; OData sx (Some (Some <$> alter stp i lx)); ONone; ONone]) (seq 0 (length lx)))) /\
    reads D s' x = Some (sx, Some (Some <$> lx)) /\ reads D s' r = Some (sr, Some (Some <$> map vals (seq 0 (length lx)))).
Proof. exact (fun V FV D ops s outs x xe r sx sr lx vr g0 stp vals H =>
  num_grad_mem D s x xe r sx sr lx vr g0 stp vals (reach_Inv D ops s outs H)). Qed.
Print Assumptions C57_storage.

(** In real arithmetic: entry i is the partial derivative of the objective at some point between x
    and x + 1e-8 e_i. *)
Theorem C57_mean_value : forall (big e : R) K (f : objective (A := R_arith big e) K) (value : list R -> R) good x k junk g0 g k' i xi (d : R -> R),
  faithful f value good -> good x k -> length junk = length x -> length g0 = length x ->
  num_grad f x k junk g0 = Some (g, k') -> nth_error x i = Some xi ->
  (forall s, (0 <= s <= / 100000000)%R -> derivable_pt_lim (fun s => value (replaced x i (xi + s)%R)) s (d s)) ->
  exists c, (0 < c < / 100000000)%R /\ nth_error g i = Some (d c).
Proof. exact num_grad_mean. Qed.
Print Assumptions C57_mean_value.

(** A result vector shorter than the point is written out of bounds. *)
Theorem C57_short_result : forall (A : arith) (K : Type) (f : objective (A := A) K) x k junk g0,
  length junk = length x -> (length g0 < length x)%nat -> num_grad f x k junk g0 = None.
Proof. exact @num_grad_bad. Qed.
Print Assumptions C57_short_result.

(** C94.  The numerical Hessian: when the gradient used at x and at the shifted point is the same
    routine, entry i of the result is the derivative along eta of entry i of the gradient, at some
    point of the segment. *)
Theorem C94_mean_value_partial : forall (big e : R) (p : @problem (R_arith big e)) (G : list R -> list R) n2 x eta,
  (p_num p = false \/ p_egrad p = None) -> p_usehess p = true -> length eta = length x -> (0 < n2)%R ->
  (forall y, length y = length x -> egrad p y = Some (G y) /\ length (G y) = length x) ->
  exists h, num_hess p (egrad_field p x) n2 x eta = Some h /\ length h = length x /\
    forall i d, (i < length x)%nat ->
      (forall s, (0 <= s <= / 100000 / sqrt n2)%R -> derivable_pt_lim (fun s => nth i (G (along x eta s)) 0%R) s (d s)) ->
      exists c, (0 < c < / 100000 / sqrt n2)%R /\ nth_error h i = Some (d c).
Proof. exact num_hess_mean. Qed.
Print Assumptions C94_mean_value_partial.
(** With numerical derivatives requested and a gradient routine overridden, the two gradients are
    not the same routine: for the zero objective and a routine that returns 1, the numerical Hessian
    action on 1 is 100000. *)
Theorem C94_mixed_refuted : forall (big e : R), exists p : @problem (R_arith big e),
  p_num p = true /\ (forall x k, fst (p_f p x k) = 0%R) /\ num_hess p (egrad_field p [0%R]) 1%R [0%R] [1%R] = Some [100000%R].
Proof. exact (fun big e => ex_intro _ (mixed_problem big e) (conj eq_refl (conj (fun _ _ => eq_refl) (mixed_hess big e)))). Qed.
Print Assumptions C94_mixed_refuted.
(** On the zero direction the result is not a number, for f(x) = x^2/2 at every point. *)
Theorem C94_zero_refuted : forall (big e v : R), exists p : @problem (X_arith big e),
  (forall a k, fst (p_f p [Fin a] k) = xdiv (Fin (a * a)) (Fin 2)) /\ (forall y, egrad p y = Some y) /\
  num_hess p (egrad_field p [Fin v]) (Fin 0) [Fin v] [Fin 0] = Some [NaN].
Proof. exact (fun big e v => ex_intro _ (quad_problem big e) (conj (fun _ _ => eq_refl) (conj (fun _ => eq_refl) (zero_hess big e v)))). Qed.
Print Assumptions C94_zero_refuted.

(** C95.  In coordinates: Grad represents the derivative of the objective and HessianEta is
    self-adjoint when they are so extrinsically, for every manifold whose coordinates keep the inner
    product. *)
Theorem C95_gradient : forall (X E I S : Type) (tangent : X -> E -> Prop) (ipE : X -> E -> E -> S) (ipI : X -> I -> I -> S)
    (intr : X -> E -> I) (extr : X -> I -> E) (rg : X -> E) (df : X -> E -> S) x,
  coordinates tangent ipE ipI intr extr ->
  tangent x (rg x) -> (forall xi, tangent x xi -> ipE x (rg x) xi = df x xi) ->
  exists g, grad true intr rg x = inr g /\ extr x g = rg x /\ forall eta, ipI x g eta = df x (extr x eta).
Proof. exact @grad_coords. Qed.
Print Assumptions C95_gradient.
Theorem C95_hessian : forall (X E I S : Type) (tangent : X -> E -> Prop) (ipE : X -> E -> E -> S) (ipI : X -> I -> I -> S)
    (intr : X -> E -> I) (extr : X -> I -> E) (rh : X -> E -> E) x,
  coordinates tangent ipE ipI intr extr -> (forall xi, tangent x xi -> tangent x (rh x xi)) ->
  (forall xi zeta, tangent x xi -> tangent x zeta -> ipE x (rh x xi) zeta = ipE x xi (rh x zeta)) ->
  forall eta theta, exists h k,
    hessian_eta true intr extr rh x (inr eta) = Some (inr h) /\ hessian_eta true intr extr rh x (inr theta) = Some (inr k) /\
    extr x h = rh x (extr x eta) /\ ipI x h theta = ipI x eta k.
Proof. exact @hess_coords. Qed.
Print Assumptions C95_hessian.

(** The hypotheses are met. *)
Example C57_example : exists (f : objective (A := R_arith 1 1) (list R)) value good,
  faithful f value good /\ good [1; 2]%R (Some [1; 2]%R) /\ value [1; 2]%R = 5%R /\
  forall i d, derivable_pt_lim (fun s => value (replaced [1; 2]%R 0 (1 + s)%R)) i d -> d = (2 * (1 + i))%R.
Proof.
  (* |x|^2, remembering the point it was evaluated at *)
  set (sq := fun l : list R => fold_right (fun a b => (a * a + b)%R) 0%R l).
  exists (fun l k => (sq (match k with Some c => c | None => l end), Some l)), sq, (fun l k => k = None \/ k = Some l).
  split; [split; [auto|intros x k [-> | ->]; cbn; auto]|]. split; [auto|]. split; [unfold sq; cbn; lra|].
  intros i d H. eapply uniqueness_limite; [exact H|]. unfold sq, replaced. cbn.
  apply (derivable_pt_lim_ext (fun s => (1 + s) * (1 + s) + 4)%R).
  - intros z. lra.
  - replace (2 * (1 + i))%R with ((1 * (1 + i) + (1 + i) * 1) + 0)%R by ring.
    apply (derivable_pt_lim_plus (fun s => (1 + s) * (1 + s))%R (fun _ => 4%R)); [|apply derivable_pt_lim_const].
    assert (HL : derivable_pt_lim (fun s => (1 + s)%R) i 1%R).
    { pose proof (derivable_pt_lim_plus (fun _ => 1%R) (fun s => s) i 0%R 1%R (derivable_pt_lim_const 1 i) (derivable_pt_lim_id i)) as H0.
      rewrite Rplus_0_l in H0. exact H0. }
    apply (derivable_pt_lim_mult (fun s => (1 + s)%R) (fun s => (1 + s)%R)); exact HL.
Qed.
Example C57_storage_example :
  exists s outs, run wD init_st [ONew 0 (2,1,1); OWriteAll 0 [10; 20]%Z; ONew 1 (2,1,1)] = Ok (s, outs) /\
    reads wD s 0 = Some ((2,1,1), Some (Some <$> [10; 20]%Z)) /\ reads wD s 1 = Some ((2,1,1), None) /\ reads wD s 2 = None /\
    exists s' outs', run wD s (num_grad_ops 0 2 1 [10; 20] [0; 0] (fun v => v + 1) (fun i => Z.of_nat i + 7))%Z = Ok (s', outs') /\
      reads wD s' 0 = Some ((2,1,1), Some (Some <$> [10; 20]%Z)) /\ reads wD s' 1 = Some ((2,1,1), Some (Some <$> [7; 8]%Z)).
Proof.
  eexists _, _. split; [vm_compute; reflexivity|]. split; [vm_compute; reflexivity|]. split; [vm_compute; reflexivity|].
  split; [vm_compute; reflexivity|]. eexists _, _. split; [vm_compute; reflexivity|]. split; vm_compute; reflexivity.
Qed.
Example C94_example : exists (p : @problem (R_arith 1 1)) G,
  (p_num p = false \/ p_egrad p = None) /\ p_usehess p = true /\
  (forall y, length y = length [1; 2]%R -> egrad p y = Some (G y) /\ length (G y) = length [1; 2]%R) /\
  (forall s, derivable_pt_lim (fun s => nth 0 (G (along [1; 2]%R [3; 4]%R s)) 0%R) s 3%R).
Proof.
  exists (@mkProblem (R_arith 1 1) unit (fun l _ => (0%R, None)) (Some (fun l => l)) false true), (fun l => l).
  split; [auto|]. split; [reflexivity|]. split; [intros y Hy; auto|].
  intros s. pose proof (derivable_pt_lim_plus (fun _ => 1%R) (fun s => (3 * s)%R) s 0%R (3 * 1)%R (derivable_pt_lim_const 1 s)
    (derivable_pt_lim_scal (fun s => s) 3%R s 1%R (derivable_pt_lim_id s))) as H0.
  rewrite Rplus_0_l, Rmult_1_r in H0. eapply derivable_pt_lim_ext; [|exact H0]. intros z. cbn. unfold plus_fct. ring.
Qed.
(** The plane with a fixed second coordinate, in the coordinate x. *)
Example C95_example :
  coordinates (X := unit) (fun _ (e : Z * Z) => snd e = 0%Z) (fun _ a b => fst a * fst b + snd a * snd b)%Z
    (fun _ a b => a * b)%Z (fun _ e => fst e) (fun _ i => (i, 0%Z)).
Proof.
  split; [reflexivity|]. split; [intros _ [a b] H; cbn in *; subst; reflexivity|]. intros _ i j. cbn. ring.
Qed.
