(** Model of the trust-region subproblem solver of LRTRSR1 (Solvers/LRTRSR1.cpp, tCG_TR from line 126,
    ComputeSBySMW, PhiBar_fg, LocalNewton), over a real closed field.

    Tangent vectors are coordinate columns for which the metric is the dot product (line 92: "only used
    when the Euclidean metric or an intrinsic approach is used").  There are k pairs in a space of
    dimension k + q.  Element::QRDecom (Element.cpp 1135-1180), EigenDecomSym (897-963) and the factor
    of HHRDecom (1063-1103) are oracles; operator% (442-487) is the inverse. *)
From mathcomp Require Import all_ssreflect all_algebra.
Import GRing.Theory Num.Theory.
Set Implicit Arguments.
Unset Strict Implicit.
Local Open Scope ring_scope.

(** The status written to tCGstatusSM, and what else can happen: an infinity or NaN in the step, a read
    through a stale pointer, a write outside an array, a BLAS call with an illegal argument. *)
Inductive tstatus := Minimum | NegativeCurvature | Exceeded.
Inductive outcome (V : Type) := Step of V & tstatus | NotFinite | StalePointer | OutOfBounds | IllegalCall.
Arguments NotFinite {V}. Arguments StalePointer {V}. Arguments OutOfBounds {V}. Arguments IllegalCall {V}.

Section sub.
Variables (R : rcfType) (k q : nat).
Notation n := (k + q)%N.
Variable QR : 'M[R]_(n, k) -> 'M[R]_(n, k) * 'M[R]_k.
Variable EIG : 'M[R]_k -> 'M[R]_k * 'rV[R]_k.
Variable QRk : 'M[R]_k -> 'M[R]_k * 'M[R]_k.
(** tolLocalNewton (100-104), eps_tol of PhiBar_fg (315), machine epsilon. *)
Variables (tolN tolE meps : R).
(** Whether function arguments live until the end of the full expression (as the Itanium C++ ABI
    prescribes), which decides whether the assignment of line 209 moves eta2 to other storage. *)
Variable late : bool.
(** Y - gamma S, P - gamma Q, gf1, gamma, Delta. *)
Variables (Psi : 'M[R]_(n, k)) (M : 'M[R]_k) (g : 'cV[R]_n) (gamma Delta : R).

(** dot_ / DotProduct. *)
Definition vd m (u v : 'cV[R]_m) : R := \sum_i u i 0 * v i 0.
(** An array of k + 1 numbers: f(0), ..., f(k-1), z. *)
Definition arr (f : 'I_k -> R) (z : R) (i : 'I_k.+1) : R := if unlift ord_max i is Some j then f j else z.

(** Lines 133-142. *)
Definition Qf := (QR Psi).1.
Definition Rf := (QR Psi).2.
Definition Wm := Rf *m (invmx M *m Rf^T).
Definition Par : 'M[R]_(n, k) := Qf *m (EIG Wm).1.
Definition gpar : 'cV[R]_k := Par^T *m g.
Definition Psig : 'cV[R]_k := Psi^T *m g.

(** Lines 144-153. *)
Definition zeroed (t : R) : R := if `|t| <= tolN then 0 else t.
Definition Lambda : 'I_k.+1 -> R := fun i => zeroed (arr (fun j => (EIG Wm).2 0 j + gamma) gamma i).
(** Lines 155-158. *)
Definition lambda_min : R := \big[Num.min/Lambda ord0]_(i < k.+1) Lambda i.
(** Lines 159-170; the argument of the root is not negative in exact arithmetic when Par is
    orthonormal. *)
Definition akp2 : R := let r := Num.sqrt (vd g g - vd gpar gpar) in if r * r < tolN then 0 else r.
Definition aj : 'I_k.+1 -> R := arr (fun j => gpar j 0) akp2.
(** Lines 171-174; looked at only when every Lambda is positive. *)
Definition tmpv : R := Num.sqrt (\sum_i aj i * aj i / Lambda i / Lambda i).

(** PhiBar_fg, lines 310-365 (and 367-408, the same without the gradient): value and gradient, None when
    the norm is 0 and the value is +Infinity.  The two loops that stop early only test. *)
Definition sums (I : pred 'I_k.+1) (t : 'I_k.+1 -> R) : option (R * R) :=
  let norm := Num.sqrt (\sum_(i | I i) aj i * aj i / t i / t i) in
  let gradf := \sum_(i | I i) aj i * aj i / t i / t i / t i in
  if norm == 0 then None else Some (1 / norm - 1 / Delta, gradf / norm / norm / norm).
Definition phi (x : R) : option (R * R) :=
  let t i := Lambda i + x in
  if [exists i, (`|aj i| < tolE) || (`|t i| < tolE)] then
    if [exists i, (`|aj i| > tolE) && (`|t i| < tolE)] then Some (-1 / Delta, 1 / tolE)
    else sums (fun i => (`|aj i| > tolE) && (`|t i| > tolE)) t
  else sums predT t.
Definition phi_positive (x : R) : bool := if phi x is Some v then v.1 > 0 else true.

(** LocalNewton, lines 410-422; None when x0 becomes NaN or infinite. *)
Fixpoint newton (maxIter : nat) (x0 : R) : option R :=
  match maxIter with
  | 0 => Some x0
  | j.+1 =>
      if phi x0 is Some (fv, gf) then
        if `|fv| <= meps then Some x0 else if gf == 0 then None else newton j (x0 - fv / gf)
      else None
  end.

(** ComputeSBySMW, lines 271-308. *)
Definition vw (tau : R) : 'M[R]_k := tau *: (Rf^T *m Rf) + (tau * tau) *: M.
Definition dg (tau : R) (i : 'I_k) : R := `|(QRk (vw tau)).2 i i|.
Definition maxv (tau : R) : R := \big[Num.max/0]_i dg tau i.
Definition minv (tau : R) : R := \big[Num.min/maxv tau]_i dg tau i.
Definition deficient (tau : R) : bool := (minv tau / maxv tau < 100%:R * meps) || (maxv tau == 0).
Definition smw (st : tstatus) (tau : R) : outcome 'cV[R]_n :=
  if tau == 0 then NotFinite
  else if (k == 0)%N || deficient tau then Step ((-1 / tau) *: g) st
  else Step (Psi *m (invmx (vw tau) *m Psig) + (-1 / tau) *: g) st.

(** Lines 191-210. *)
Definition vhard (sigma : R) (i : 'I_k) : R :=
  let j := lift ord_max i in if `|Lambda j + sigma| > tolN then aj j / (Lambda j + sigma) else 0.
Definition pstar (sigma : R) : 'cV[R]_n :=
  let p := - (Par *m \col_i vhard sigma i) in
  if `|gamma + sigma| > tolN then (gamma + sigma)^-1 *: (Par *m gpar - g) + p else p.
(** Lines 223-234: the first column of norm above the tolerance, or the last one tried. *)
Definition ucand (i : 'I_k) : 'cV[R]_n := Par *m (row (lshift q i) Par)^T + delta_mx (lshift q i) 0.
Fixpoint umin (z : 'cV[R]_n) (nz : R) (l : seq 'I_k) : 'cV[R]_n * R :=
  match l with
  | [::] => (z, nz)
  | i :: l => let u := ucand i in let nu := Num.sqrt (vd u u) in if nu > tolN then (u, nu) else umin u nu l
  end.

(** Lines 191-238. *)
Definition hard : outcome 'cV[R]_n :=
  let sigma := - lambda_min in
  if (k == 0)%N then IllegalCall
  else
    let p := pstar sigma in
    if lambda_min < 0 then
      if late && (`|gamma + sigma| > tolN) then StalePointer
      else
        let a2 := Delta * Delta - vd p p in
        if a2 < 0 then NotFinite
        else
          let alpha := Num.sqrt a2 in
          if `|lambda_min - Lambda ord0| < tolN then
            if (k == 1)%N then
              Step (\col_i ((alpha / Num.sqrt (\sum_i0 \sum_j Par i0 j * Par i0 j)) * \sum_j Par i j) + p) NegativeCurvature
            else OutOfBounds
          else
            let u := umin 0 1 (enum 'I_k) in
            if u.2 == 0 then NotFinite else Step ((alpha / u.2) *: u.1 + p) NegativeCurvature
    else Step p NegativeCurvature.

(** Lines 248-257. *)
Definition sigmaHat : R := \big[Num.max/0]_i (aj i / Delta - Lambda i).
Definition start : R := if lambda_min > 0 then 0 else if sigmaHat > - lambda_min then sigmaHat else - lambda_min.

(** Lines 181-264; the projection of line 265 is the identity on coordinates. *)
Definition subproblem : outcome 'cV[R]_n :=
  if (lambda_min > 0) && (tmpv <= Delta) then smw Minimum gamma
  else if (lambda_min <= 0) && phi_positive (- lambda_min) then hard
  else if newton 10 start is Some sigma then smw Exceeded (gamma + sigma) else NotFinite.
End sub.
