(** When the tolerances of the subproblem solver of LRTRSR1 do not interfere. *)
From mathcomp Require Import all_ssreflect all_algebra.
From Verif Require Import StiefelSpec LSR1SubModel LSR1SubSpec.
Import GRing.Theory Num.Theory.
Set Implicit Arguments.
Unset Strict Implicit.
Local Open Scope ring_scope.

Section cond.
Variables (R : rcfType) (k q : nat).
Notation n := (k + q)%N.
Variable QR : 'M[R]_(n, k) -> 'M[R]_(n, k) * 'M[R]_k.
Variable EIG : 'M[R]_k -> 'M[R]_k * 'rV[R]_k.
Variables (tolN tolE : R).
Variables (Psi : 'M[R]_(n, k)) (M : 'M[R]_k) (g : 'cV[R]_n) (gamma Delta : R).
Notation P := (Par QR EIG Psi M).
(** The eigenvalues of the matrix: those of the k eigenvectors in the columns of P, and gamma. *)
Definition curvature (i : 'I_k.+1) : R := arr (fun j => (EIG (Wm QR Psi M)).2 0 j + gamma) gamma i.
(** The gradient's components along these eigenvectors, what is left of the gradient, and its
    squared length. *)
Definition along (j : 'I_k) : R := (P^T *m g) j 0.
Definition rest : 'cV[R]_n := g - P *m (P^T *m g).
Definition component (i : 'I_k.+1) : R := arr along (Num.sqrt (ipr rest rest)) i.
(** Zero, or above the tolerance. *)
Definition legible (t x : R) := x = 0 \/ t < `|x|.
Definition spectrum_legible := forall i, legible tolN (curvature i).
Definition rest_legible := ipr rest rest = 0 \/ tolN <= ipr rest rest.
Definition gradient_legible := (forall j, legible tolE (along j)) /\ rest_legible.
(** Newton's method starts to the right of the leftmost pole, by more than the tolerance. *)
Definition starts_clear := forall i, tolE < curvature i + start QR EIG tolN Psi M g gamma Delta.
(** The small system at shift s is factorised correctly and passes the rank test. *)
Definition solvable (QRk : 'M[R]_k -> 'M[R]_k * 'M[R]_k) (meps s : R) :=
  qr_at QRk (vw QR Psi M s) /\ accepted (100%:R * meps) (QRk (vw QR Psi M s)).2.
End cond.
