(** Theorems about the proximal mapping of the 1-norm. *)
From Coq Require Import List Arith QArith_base Reals.
From Verif Require Import Arith ProxModel ProxSpec ProxProofs ProxReal ProxWitness.
Import ListNotations.
Local Open Scope R_scope.

(** C99.  With positive weights whose number divides the number of entries, ProxW returns the only
    minimiser of the weighted distance plus lambda times the 1-norm. *)
Theorem C99_prox_minimises_partial : forall (big eps lambda : R) (x W res : list R),
  0 <= lambda -> W <> [] -> (forall w, In w W -> 0 < w) ->
  Nat.divide (length W) (length x) -> length res = length x ->
  exists r : list R, proxw (A := R_arith big eps) lambda x W res = Some r /\ length r = length x /\
    forall u, length u = length x -> u <> r ->
      prox_objective lambda W (length x / length W) x r < prox_objective lambda W (length x / length W) x u.
Proof. exact prox_minimises. Qed.
Print Assumptions C99_prox_minimises_partial.
(** No entry moves farther than the entry of the argument. *)
Theorem C99_prox_nonexpansive_partial : forall (big eps lambda : R) (x y W res res' : list R),
  0 <= lambda -> W <> [] -> (forall w, In w W -> 0 < w) -> length y = length x ->
  Nat.divide (length W) (length x) -> length res = length x -> length res' = length x ->
  exists r s : list R, proxw (A := R_arith big eps) lambda x W res = Some r /\
    proxw (A := R_arith big eps) lambda y W res' = Some s /\
    forall k, (k < length x)%nat -> Rabs (nth k r 0 - nth k s 0) <= Rabs (nth k x 0 - nth k y 0).
Proof. exact prox_nonexpansive. Qed.
Print Assumptions C99_prox_nonexpansive_partial.
Example C99_example : let x := [3; -2; 1/2; 0] in let W := [1; 2] in
  W <> [] /\ (forall w, In w W -> 0 < w) /\ Nat.divide (length W) (length x) /\
  proxw (A := R_arith 1 1) 1 x W [9; 9; 9; 9] = Some [2; -1; 0; 0].
Proof. exact prox_example. Qed.
(** If their number does not divide, the entries after the last whole block keep whatever the memory
    of the result held, in any arithmetic. *)
Theorem C99_tail_unwritten : forall (A : arith) (lambda : F A) (x W res : list (F A)),
  W <> [] -> length res = length x ->
  exists r, proxw lambda x W res = Some r /\
    forall k, (length W * (length x / length W) <= k)%nat -> nth_error r k = nth_error res k.
Proof. exact @prox_tail. Qed.
Print Assumptions C99_tail_unwritten.
(** So the result is not a function of the point and the weights. *)
Theorem C99_prox_function_refuted : ~ (forall x W res res' : list R, W <> [] -> (forall w, In w W -> 0 < w) ->
  length res = length x -> length res' = length x ->
  proxw (A := R_arith 1 1) 1 x W res = proxw (A := R_arith 1 1) 1 x W res').
Proof. exact memory_matters. Qed.
Print Assumptions C99_prox_function_refuted.

(** C100.  Where no entry is at a kink, CalJW is the derivative of ProxW: small steps change ProxW
    by exactly the step times CalJW, whatever the memory of the results held. *)
Theorem C100_generalized_jacobian : forall (big eps lambda : R) (x eta W : list R),
  0 <= lambda -> W <> [] -> (forall w, In w W -> 0 < w) ->
  Nat.divide (length W) (length x) -> length eta = length x ->
  (forall k, (k < length x)%nat -> Rabs (nth k x 0) * weight_of W (length x / length W) k <> lambda) ->
  exists d, 0 < d /\ forall (s : R) (res res1 res2 : list R),
    Rabs s < d -> length res = length x -> length res1 = length x -> length res2 = length x ->
    exists p q j : list R, proxw (A := R_arith big eps) lambda x W res = Some p /\
      proxw (A := R_arith big eps) lambda (move x eta s) W res1 = Some q /\
      caljw (A := R_arith big eps) lambda x eta W res2 = Some j /\ q = move p j s.
Proof. exact jacobian_exact. Qed.
Print Assumptions C100_generalized_jacobian.
Example C100_example : let x := [3; -2; 1/4; 0] in let W := [1; 2] in
  W <> [] /\ (forall w, In w W -> 0 < w) /\ Nat.divide (length W) (length x) /\
  forall k, (k < length x)%nat -> Rabs (nth k x 0) * weight_of W (length x / length W) k <> 1.
Proof. exact jac_example. Qed.

(** C101.  The weights of sparse PCA: in the two modes that compute them there are as many as were
    asked for and none is below a tenth, in any arithmetic and whatever the data. *)
Theorem C101_spca_weights : forall (A : arith) n p lw (L : F A) w1 cn, lw = (n * p)%nat \/ lw = p ->
  length (spca_weights n p lw L w1 cn) = lw /\
  forall v, In v (spca_weights n p lw L w1 cn) -> v = fq (1#10)%Q \/ flt (fq (1#10)%Q) v = true.
Proof. exact @spca_weights_spec. Qed.
Print Assumptions C101_spca_weights.
(** Entry (i, j) is stored in column-major order and depends on column j of B x and column i of B. *)
Theorem C101_spca_weights_place : forall (A : arith) n p (L : F A) w1 cn i j, (i < n)%nat -> (j < p)%nat ->
  nth_error (spca_weights n p (n * p) L w1 cn) (i + j * n) = Some (at_least ((w1 j - cn i) * fq (2#1)%Q)%A).
Proof. exact @spca_weights_entry. Qed.
Print Assumptions C101_spca_weights_place.
(** So ProxW with the weights of PreConditioner, in all three modes, is the only minimiser. *)
Theorem C101_spca_prox : forall (big eps : R) n p lw (lambda L : R) w1 cn (x res : list R),
  0 <= lambda -> (0 < n)%nat -> (0 < p)%nat -> 0 < L ->
  (lw = n * p \/ lw = p \/ lw = 1)%nat -> length x = (n * p)%nat -> length res = length x ->
  let W : list R := spca_weights (A := R_arith big eps) n p lw L w1 cn in
  exists r : list R, proxw (A := R_arith big eps) lambda x W res = Some r /\ length r = length x /\
    forall u, length u = length x -> u <> r ->
      prox_objective lambda W (length x / length W) x r < prox_objective lambda W (length x / length W) x u.
Proof. exact spca_prox. Qed.
Print Assumptions C101_spca_prox.
Example C101_example : spca_weights (A := R_arith 1 1) 2 1 2 3 (fun _ => 5) (fun i => INR i) =
  [(5 - 0) * 2; (5 - 1) * 2].
Proof. exact weights_example. Qed.
