(** What the theorems about the subproblem solver of LRTRSR1 speak of; [symmetric], [orthonormal],
    [qr_at] are those of StiefelSpec.v, [eig_at] is that of SPDSpec.v. *)
From mathcomp Require Import all_ssreflect all_algebra.
From Verif Require Import StiefelSpec SPDSpec.
Import GRing.Theory Num.Theory.
Set Implicit Arguments.
Unset Strict Implicit.
Local Open Scope ring_scope.

Section spec.
Variables (R : rcfType) (k q : nat).
Notation n := (k + q)%N.
Definition ipr m (u v : 'cV[R]_m) : R := (u^T *m v) 0 0.
(** The compact form of the quasi-Newton matrix. *)
Definition compact (gamma : R) (Psi : 'M[R]_(n, k)) (M : 'M[R]_k) : 'M[R]_n :=
  gamma%:M + Psi *m invmx M *m Psi^T.
(** The model <g,v> + <v,Bv>/2. *)
Definition quad m (B : 'M[R]_m) (g v : 'cV[R]_m) : R := ipr g v + ipr v (B *m v) / 2%:R.
Definition nonnegative m (B : 'M[R]_m) := forall v, 0 <= ipr v (B *m v).
Definition positive m (B : 'M[R]_m) := forall v, v != 0 -> 0 < ipr v (B *m v).
(** eta is the best step within distance r. *)
Definition best_within m (B : 'M[R]_m) (g eta : 'cV[R]_m) (r2 : R) :=
  forall v, ipr v v <= r2 -> quad B g eta <= quad B g v.

(** The rank test of the small system accepts: no diagonal entry of the triangular factor is zero, or
    too small compared with another. *)
Definition accepted (eps : R) (r : 'M[R]_k) :=
  (forall i, r i i != 0) /\ forall i j, eps * `|r j j| <= `|r i i|.

(** The secular function 1/|p(x)| - 1/Delta for eigenvalues lam and gradient components a, where
    p(x)_i = a_i / (lam_i + x), and the gradient the code takes for it. *)
Definition plen (I : finType) (lam a : I -> R) (x : R) : R := Num.sqrt (\sum_i (a i / (lam i + x)) ^+ 2).
Definition secular (I : finType) (lam a : I -> R) (Delta x : R) : R := (plen lam a x)^-1 - Delta^-1.
Definition slope (I : finType) (lam a : I -> R) (x : R) : R :=
  (\sum_i a i ^+ 2 / (lam i + x) ^+ 3) / plen lam a x ^+ 3.
(** Newton's method for the secular function. *)
Definition nstep (I : finType) (lam a : I -> R) (Delta x : R) : R := x - secular lam a Delta x / slope lam a x.
(** Tolerances as small as those of the code (1e-10 and 2.2e-16). *)
Definition tolerances (tolN tolE meps : R) :=
  [/\ 0 < tolE, tolE <= tolN, tolN < 100%:R^-1, 0 <= meps & meps < 100%:R^-1].
End spec.
