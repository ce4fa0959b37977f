(** Properties C135-C138: the Karcher mean of positive definite matrices (Problems/SPDKarcherMean.cpp). *)
From Coq Require Import Reals.
From mathcomp Require Import all_ssreflect all_algebra.
From Verif Require Import RealsRcf StiefelSpec SPDModel SPDSpec KMModel KMSpec KMFacts.
Import Order.TTheory GRing.Theory Num.Theory.
Set Implicit Arguments.
Unset Strict Implicit.
Local Open Scope ring_scope.
Local Notation RR := R_rcfType.

(** C135: the value is half the mean of the squared affine-invariant distances of x and the samples. *)
Theorem C135_value (n : nat) CHOL EIG (Ls : seq 'M[RR]_n) (x : 'M[RR]_n) (d : 'M[RR]_n -> RR) :
  chol_right CHOL -> eig_right EIG -> Ls != [::] -> (forall L, L \in Ls -> sample L) -> posdef x ->
  (forall A, posdef A -> is_dist2 ln x A (d A)) ->
  f ln CHOL EIG Ls x = Some ((\sum_(L <- Ls) d (L *m L^T)) / (2%:R * (size Ls)%:R)).
Proof. exact (fun HC HE Hn HL Hx => @fact_value n CHOL EIG HC HE Ls x Hn HL Hx d). Qed.
Print Assumptions C135_value.
(** It is not negative, and zero only where every sample is x itself. *)
Theorem C135_zero (n : nat) CHOL EIG (Ls : seq 'M[RR]_n) (x : 'M[RR]_n) :
  chol_right CHOL -> eig_right EIG -> Ls != [::] -> (forall L, L \in Ls -> sample L) -> posdef x ->
  (exists2 v, f ln CHOL EIG Ls x = Some v & 0 <= v) /\
  (f ln CHOL EIG Ls x = Some 0 <-> forall L, L \in Ls -> x = L *m L^T).
Proof. exact (fun HC HE Hn HL Hx => @fact_zero n CHOL EIG HC HE Ls x Hn HL Hx). Qed.
Print Assumptions C135_zero.
(** The hypotheses, for every size: routines, a point, two samples, and the distances from that point. *)
Example C135_example (n : nat) : exists (CHOL : 'M[RR]_n -> 'M[RR]_n) (EIG : 'M[RR]_n -> 'M[RR]_n * 'rV[RR]_n) (x : 'M[RR]_n) (Ls : seq 'M[RR]_n) (d : 'M[RR]_n -> RR),
  [/\ chol_right CHOL, eig_right EIG, posdef x, Ls = [:: 1%:M; 2%:R *: 1%:M] &
      (forall L, L \in Ls -> sample L) /\ forall A, posdef A -> is_dist2 ln x A (d A)].
Proof. exact (some_case n). Qed.

(** C136: the Euclidean gradient is symmetric and is the derivative of the value, for every matrix near x,
    symmetric or not. *)
Theorem C136_gradient (n : nat) CHOL EIG (Ls : seq 'M[RR]_n) (x : 'M[RR]_n) :
  chol_right CHOL -> eig_right EIG -> Ls != [::] -> (forall L, L \in Ls -> sample L) -> posdef x ->
  symmetric (egrad ln CHOL EIG Ls x) /\
  exists d K, [/\ 0 < d, 0 <= K & forall y, nrm (y - x) < d -> exists vx vy,
  [/\ f ln CHOL EIG Ls x = Some vx, f ln CHOL EIG Ls y = Some vy &
  `|vy - vx - inner (egrad ln CHOL EIG Ls x) (y - x)| <= K * nrm (y - x) ^+ 2]].
Proof. exact (fun HC HE Hn HL Hx => @fact_gradient n CHOL EIG HC HE Ls x Hn HL Hx). Qed.
Print Assumptions C136_gradient.

(** C137: the action of the Euclidean Hessian is the derivative of the Euclidean gradient along symmetric
    directions. *)
Theorem C137_hessian (n : nat) CHOL EIG (Ls : seq 'M[RR]_n) (x : 'M[RR]_n) (G := egrad ln CHOL EIG Ls) :
  chol_right CHOL -> eig_right EIG -> Ls != [::] -> (forall L, L \in Ls -> sample L) -> posdef x ->
  exists d K, [/\ 0 < d, 0 <= K & forall y, symmetric y -> nrm (y - x) < d ->
  nrm (G y - G x - ehess ln CHOL EIG Ls x (G x) (y - x)) <= K * nrm (y - x) ^+ 2].
Proof. exact (fun HC HE Hn HL Hx => @fact_hessian n CHOL EIG HC HE Ls x Hn HL Hx). Qed.
Print Assumptions C137_hessian.
(** It is self-adjoint and keeps symmetric matrices symmetric. *)
Theorem C137_self_adjoint (n : nat) CHOL EIG (Ls : seq 'M[RR]_n) (x : 'M[RR]_n) (H := ehess ln CHOL EIG Ls x (egrad ln CHOL EIG Ls x)) :
  chol_right CHOL -> eig_right EIG -> (forall L, L \in Ls -> sample L) -> posdef x ->
  forall D1 D2, inner (H D1) D2 = inner D1 (H D2) /\ (symmetric D1 -> symmetric (H D1)).
Proof. exact (fun HC HE HL Hx => @fact_self n CHOL EIG HC HE Ls x HL Hx). Qed.
Print Assumptions C137_self_adjoint.

(** C138: with the affine-invariant metric the mean is strongly convex: the action of its Riemannian Hessian on a
    tangent vector has at least the length of that vector in its direction. *)
Theorem C138_convex (n : nat) CHOL EIG (Ls : seq 'M[RR]_n) (x : 'M[RR]_n) (G := egrad ln CHOL EIG Ls x) :
  chol_right CHOL -> eig_right EIG -> Ls != [::] -> (forall L, L \in Ls -> sample L) -> posdef x ->
  forall D, symmetric D -> metric_af x D D <= metric_af x (hess_af x G D (ehess ln CHOL EIG Ls x G D)) D.
Proof. exact (fun HC HE Hn HL Hx => @fact_convex n CHOL EIG HC HE Ls x Hn HL Hx). Qed.
Print Assumptions C138_convex.
