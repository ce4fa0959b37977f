(** Model of arithmetic on tangent vectors and of the transports built from it: Manifolds/
    Manifold.cpp (ScalarTimesVector ... Retraction, the locking-condition transport) and
    Manifolds/Sphere.cpp (exponential map and parallel translation).

    A vector is the list of its [length] entries; [Metric] is an argument where a class can
    override it.  Matrices (class LinearOPE) are functions of row and column on
    0 <= i, j < ell. *)
From Coq Require Import List Arith QArith Bool.
Import ListNotations.
From Verif Require Import Arith MatOpsModel.
Local Close Scope Q_scope.

Section model.
Context {A : arith}.
Local Open Scope arith_scope.
Notation F := (F A).
Definition vec := list F.
Definition lit (q : Q) : F := fq q.

(** Element::AlphaXaddThis, Element.cpp 1641-1648, and ScalarTimesThis 1660-1665. *)
Definition axpy (a : F) (x this : vec) : vec := zip (fun y x => a * x + y) this x.
Definition scal (a : F) (this : vec) : vec := map (fun x => a * x) this.

(** ** Results written onto operands.  A state gives each object's entries; copying is by value
    (SmartSpaceModel.v). *)
Definition state := nat -> vec.
Definition assign (r : nat) (v : vec) (m : state) : state := fun o => if Nat.eqb o r then v else m o.
(** ScalarTimesVector, Manifold.cpp 69-77 *)
Definition scalar_times_vector (s : F) (etax result : nat) (m : state) : state :=
  let m := assign result (m etax) m in
  assign result (scal s (m result)) m.
(** ScalarVectorAddVector 79-87 *)
Definition scalar_vector_add_vector (s : F) (etax xix result : nat) (m : state) : state :=
  let m := assign result (m xix) m in
  assign result (axpy s (m etax) (m result)) m.
(** VectorLinearCombination 89-99 *)
Definition vector_linear_combination (s1 : F) (etax : nat) (s2 : F) (xix result : nat) (m : state) : state :=
  let m := assign result (m xix) m in
  let m := assign result (scal s2 (m result)) m in
  assign result (axpy s1 (m etax) (m result)) m.
(** Manifold::Retraction 101-108 *)
Definition default_retraction (x etax result : nat) (m : state) : state :=
  let m := assign result (m x) m in
  assign result (axpy (lit 1) (m etax) (m result)) m.

(** The same functions on values, the result being a separate object. *)
Definition lincomb (s1 : F) (etax : vec) (s2 : F) (xix : vec) : vec := axpy s1 etax (scal s2 xix).

(** ** The locking-condition transport *)
Section lc.
(** Metric(x, ., .) and Metric(y, ., .); VectorTransport and InverseVectorTransport while HasHHR is
    false; the value of DiffRetraction(x, etax, y, etax). *)
Variables gx gy : vec -> vec -> F.
Variables T Tinv : vec -> vec.

(** betaTReta, e.g. Stiefel.cpp 542-560, with xix = etax: nxix = EtatoXi's divisor. *)
Definition beta_TReta (eta res : vec) : vec :=
  let nxix := fsqrt (gx eta eta) in
  let EtatoXi := fsqrt (gx eta eta) / nxix in
  let beta0 := fsqrt (gx eta eta / gy res res) / EtatoXi in
  scal (beta0 * EtatoXi) res.

(** ScalarTimesVector(y, sqrt(Metric(x, v, v) / Metric(y, w, w)), w, &w): 712 and 733. *)
Definition rescale (v w : vec) : vec := scal (fsqrt (gx v v / gy w w)) w.
(** Obtainnu1nu2forLC, 702-724 *)
Definition eps1 (eta : vec) : vec := rescale eta (T eta).
Definition nu1 (eta : vec) : vec := scal (lit 2) (eps1 eta).
Definition nu2 (eta TReta : vec) : vec := lincomb (lit (-1)) (eps1 eta) (lit (-1)) TReta.
Definition tau (nu : vec) : F := lit 2 / gy nu nu.
(** 739-742, and in the inverse 762-763: w - tau g(w, nu) nu *)
Definition reflect (nu w : vec) : vec := axpy ((- gy w nu) * tau nu) nu w.
(** LCVectorTransport, 726-745 *)
Definition lc_transport (eta TReta xi : vec) : vec :=
  let result := rescale xi (T xi) in
  let result := reflect (nu1 eta) result in
  reflect (nu2 eta TReta) result.
(** LCInverseVectorTransport, 747-767 *)
Definition lc_inverse (eta TReta xi : vec) : vec :=
  let result := lincomb ((- gy xi (nu2 eta TReta)) * tau (nu2 eta TReta)) (nu2 eta TReta) (lit 1) xi in
  let result := reflect (nu1 eta) result in
  Tinv result.
End lc.

(** ** Operators *)
Definition ope := nat -> nat -> F.
Fixpoint fsum (n : nat) (f : nat -> F) : F := match n with O => lit 0 | S n => fsum n f + f n end.
(** LinearOPEEta 19-34: H * v *)
Definition row (ell : nat) (H : ope) (i : nat) : vec := map (H i) (seq 0 ell).
Definition matvec (ell : nat) (H : ope) (v : vec) : vec := map (fun i => dotp (row ell H i) v) (seq 0 ell).
Definition inb (start length i : nat) : bool := Nat.leb start i && Nat.ltb i (start + length).
(** larfx_ side r on the columns start ... start + length - 1, side l on these rows (LAPACK's
    larfx: C - tau (C v) v^T, C - tau v (v^T C)). *)
Definition larfx_r (start : nat) (v : vec) (tau : F) (C : ope) : ope := fun i j =>
  if inb start (length v) j then
    C i j - tau * dotp (map (fun k => C i (start + k)%nat) (seq 0 (length v))) v * nth (j - start) v (lit 0)
  else C i j.
Definition larfx_l (start : nat) (v : vec) (tau : F) (C : ope) : ope := fun i j =>
  if inb start (length v) i then
    C i j - tau * nth (i - start) v (lit 0) * dotp (map (fun k => C (start + k)%nat j) (seq 0 (length v))) v
  else C i j.
(** LCHInvTran 769-800, LCTranH 802-830, LCTranHInvTran 832-861; [base] is what HInvTran, TranH,
    TranHInvTran give while HasHHR is false. *)
Definition lc_HInvTran (start : nat) (nu1 nu2 : vec) (tau1 tau2 : F) (base : ope) : ope :=
  larfx_r start nu2 tau2 (larfx_r start nu1 tau1 base).
Definition lc_TranH (start : nat) (nu1 nu2 : vec) (tau1 tau2 : F) (base : ope) : ope :=
  larfx_l start nu2 tau2 (larfx_l start nu1 tau1 base).
Definition lc_TranHInvTran (nu1 nu2 : vec) (tau1 tau2 : F) (base : ope) : ope :=
  larfx_l 0 nu2 tau2 (larfx_l 0 nu1 tau1 (larfx_r 0 nu2 tau2 (larfx_r 0 nu1 tau1 base))).

(** Manifold::TranHInvTran 219-230 while HasHHR is false, which Stiefel::TranHInvTran (Stiefel.cpp
    291-314) also calls for the transports by projection and by Cayley transform. *)
Definition copy_TranHInvTran (H : ope) : ope := H.

(** ** The sphere, Sphere.cpp; extrinsic representation, Metric = DotProduct (Stiefel.cpp 88-101
    with the Euclidean metric). *)
Section sphere.
Variables fsin fcos : F -> F.
(** ExpRetraction 57-63 *)
Definition exp_retraction (x eta : vec) : vec :=
  let normetax := fsqrt (dotp eta eta) in
  let result := lincomb (fcos normetax) x (fsin normetax / normetax) eta in
  let normresult := fsqrt (dotp result result) in
  scal (lit 1 / normresult) result.
(** Stiefel::ExtrProjection for p = 1 *)
Definition sphere_projection (x eta : vec) : vec :=
  let t := dotp x eta in axpy (lit (-1) * (lit (1#2) * (t + t))) x eta.
(** ExpcoTangentVector 65-75 *)
Definition exp_cotangent (x eta xiy : vec) : vec :=
  let xiytx := dotp x xiy in
  let xiytetax := dotp xiy eta in
  let n := fsqrt (dotp eta eta) in
  let s := fsin n in
  let c := fcos n in
  sphere_projection x (lincomb (s / n) xiy ((xiytetax * c / n - xiytx * s - xiytetax * s / n / n) / n) eta).
(** ExpDiffRetraction 77-83 *)
Definition exp_diff (x eta xi : vec) : vec :=
  let etaxtxix := dotp eta xi in
  let n := fsqrt (dotp eta eta) in
  let s := fsin n in
  let result := lincomb ((- s) * etaxtxix / n) x (s / n) xi in
  axpy ((fcos n - s / n) * etaxtxix / n / n) eta result.
End sphere.
(** ExpVectorTransport 106-113, ExpInverseVectorTransport 115-122 *)
Definition xpy (x y : vec) : vec := axpy (lit 1) y x.
Definition exp_transport (x y xi : vec) : vec :=
  axpy (lit (-2) * dotp xi y / dotp (xpy x y) (xpy x y)) (xpy x y) xi.
Definition exp_inverse_transport (x y xi : vec) : vec :=
  axpy (lit (-2) * dotp xi x / dotp (xpy x y) (xpy x y)) (xpy x y) xi.
(** ger_(&length, &ell, &scalar, u, v, C, &ell): C(i, j) += scalar u_i v_j for i < length and
    j < ell.  A vector too short for its index range is read outside its storage: None. *)
Definition ger (length_ ell : nat) (scalar : F) (u v : vec) (i0 j0 : nat) (C : ope) : option ope :=
  if Nat.ltb (length u) length_ || Nat.ltb (length v) ell then None
  else Some (fun i j => if inb i0 length_ i && inb j0 ell j
    then C i j + scalar * nth (i - i0) u (lit 0) * nth (j - j0) v (lit 0) else C i j).
(** ExpHInvTran 124-147: gemv_ over the ell rows and the columns from start; ger_ with [length] and
    [ell] as its row and column counts. *)
Definition exp_HInvTran (ell start : nat) (x y : vec) (H : ope) : option ope :=
  let len := length x in
  let u := xpy x y in
  let Hxpy := map (fun i => dotp (map (fun k => H i (start + k)%nat) (seq 0 len)) u) (seq 0 ell) in
  ger len ell (lit (-2) / dotp u u) Hxpy x 0 start H.
(** ExpTranH 149-171 *)
Definition exp_TranH (ell start : nat) (x y : vec) (H : ope) : option ope :=
  let len := length x in
  let u := xpy x y in
  let Hty := map (fun j => dotp (map (fun k => H (start + k)%nat j) (seq 0 len)) y) (seq 0 ell) in
  ger len ell (lit (-2) / dotp u u) u Hty start 0 H.
(** ExpTranHInvTran 173-177 *)
Definition exp_TranHInvTran (x y : vec) (H : ope) : option ope :=
  match exp_HInvTran (length x) 0 x y H with
  | Some H' => exp_TranH (length x) 0 x y H'
  | None => None
  end.
End model.
