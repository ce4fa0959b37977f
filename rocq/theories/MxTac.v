(** [ring] and [field] for an arbitrary real closed field of Mathematical Components, and an
    expansion tactic for matrix expressions.  No part of the model. *)
From mathcomp Require Import all_ssreflect all_algebra.
Require Import Ring Field.
Import GRing.Theory Num.Theory.
Local Open Scope ring_scope.

Section theory.
Variable R : rcfType.
Definition radd (x y : R) : R := x + y.
Definition rmul (x y : R) : R := x * y.
Definition ropp (x : R) : R := - x.
Definition rinv (x : R) : R := x^-1.
Definition rsub (x y : R) : R := radd x (ropp y).
Definition rdiv (x y : R) : R := rmul x (rinv y).
Definition r0 : R := 0.
Definition r1 : R := 1.
Lemma rcf_ring : ring_theory r0 r1 radd rmul rsub ropp eq.
Proof. split => //=; [exact: add0r|exact: addrC|exact: addrA|exact: mul1r|exact: mulrC|exact: mulrA|exact: mulrDl|exact: subrr]. Qed.
Lemma rcf_field : field_theory r0 r1 radd rmul rsub ropp rdiv rinv eq.
Proof. split => //=; [exact rcf_ring | exact/eqP/oner_neq0 | by move=> x /eqP H; rewrite /rmul mulVf]. Qed.
Lemma two_neq0 : radd r1 r1 <> r0.
Proof. by have := pnatr_eq0 R 2; rewrite mulr2n => /eqP. Qed.
End theory.

(** After [Add Field name : (rcf_field R)], [toR R] turns an equation in [R] into one that [ring]
    and [field] read. *)
Ltac toR R :=
  rewrite ?mulr2n ?expr2;
  lazymatch goal with |- @eq _ ?a ?b => change (@eq (Num.RealClosedField.sort R) a b) end;
  repeat match goal with
  | |- context [@GRing.add ?T ?a ?b] => change (@GRing.add T a b) with (radd R a b)
  | |- context [@GRing.mul ?T ?a ?b] => change (@GRing.mul T a b) with (rmul R a b)
  | |- context [@GRing.opp ?T ?a] => change (@GRing.opp T a) with (ropp R a)
  | |- context [@GRing.inv ?T ?a] => change (@GRing.inv T a) with (rinv R a)
  | |- context [@GRing.one ?T] => change (@GRing.one T) with (r1 R)
  | |- context [@GRing.zero ?T] => change (@GRing.zero T) with (r0 R)
  end;
  repeat match goal with
  | |- context [rmul R ?a (rinv R ?b)] => change (rmul R a (rinv R b)) with (rdiv R a b)
  | |- context [radd R ?a (ropp R ?b)] => change (radd R a (ropp R b)) with (rsub R a b)
  end.

(** Products distributed and associated to the left, transposes pushed inside, scalars outside. *)
Section transposes.
Variables (R : rcfType) (m n q : nat).
Implicit Types A B : 'M[R]_(m, n).
Lemma trD A B : (A + B)^T = A^T + B^T.
Proof. exact: linearD. Qed.
Lemma trN A : (- A)^T = - A^T.
Proof. exact: linearN. Qed.
Lemma trZ a A : (a *: A)^T = a *: A^T.
Proof. exact: linearZ. Qed.
Lemma trM A (B : 'M[R]_(n, q)) : (A *m B)^T = B^T *m A^T.
Proof. exact: trmx_mul. Qed.
Lemma mulZl a A (B : 'M[R]_(n, q)) : (a *: A) *m B = a *: (A *m B).
Proof. by rewrite -scalemxAl. Qed.
Lemma mulZr a A (B : 'M[R]_(n, q)) : A *m (a *: B) = a *: (A *m B).
Proof. by rewrite -scalemxAr. Qed.
End transposes.
Ltac mxz := rewrite ?(trD, trN, trZ, trM, trmxK, trmx1, trmx0, mulmxDl, mulmxDr,
  mulNmx, mulmxN, mulmxA, mul1mx, mulmx1, mul0mx, mulmx0, mulZl, mulZr).
(** An equation between linear combinations of matrices, entry by entry. *)
Ltac mxlin R :=
  repeat match goal with |- context [mulmx ?a ?b] => let m := fresh "m" in set m := (a *m b); move: m => m end;
  let i := fresh "i" in let j := fresh "j" in
  apply/matrixP => i j; rewrite !mxE;
  repeat match goal with |- context [fun_of_matrix ?A ?a ?b] => let c := fresh "c" in set c := (A a b); move: c => c end.
Ltac entries :=
  repeat match goal with |- context [fun_of_matrix ?A ?a ?b] => let c := fresh "c" in set c := (A a b); move: c => c end.
Ltac fld R := entries; toR R; field; try exact (@two_neq0 R).
Ltac rng R := entries; toR R; ring.
