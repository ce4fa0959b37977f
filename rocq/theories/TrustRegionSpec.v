(** Vocabulary for the trust-region theorems. *)
From Coq Require Import QArith Reals List Bool.
From Verif Require Import Arith TrustRegionModel.
Import ListNotations.
Local Open Scope R_scope.

Section cgspec.
Context {big eps : R}.
Notation A := (R_arith big eps).
Context (G : tspace A).
Notation V := (V A G). Notation axpy := (axpy A G). Notation vscal := (vscal A G).
Notation hess := (hess A G). Notation prec := (prec A G).
(** The metric, with values seen as real numbers. *)
Definition inp (v w : V) : R := met A G v w.

(** The tangent space is an inner-product space, the Hessian operator is self-adjoint, the
    preconditioner self-adjoint and positive, projecting a tangent vector does nothing.
    (Vectors with the same inner products are not distinguished.) *)
Record inner_product_space : Prop := {
  inp_sym : forall v w, inp v w = inp w v;
  inp_axpy : forall a v w u, inp (axpy a v w) u = a * inp v u + inp w u;
  inp_vscal : forall a v u, inp (vscal a v) u = a * inp v u;
  inp_pos : forall v, 0 <= inp v v;
  inp_proj : forall v u, inp (vproj A G v) u = inp v u;
  hess_sym : forall v w, inp (hess v) w = inp v (hess w);
  prec_sym : forall v w, inp (prec v) w = inp v (prec w);
  prec_pos : forall v, 0 < inp v v -> 0 < inp (prec v) v
}.

(** [Minv] is the inverse of the preconditioner; the region is measured by <v, Minv v>.
    Without preconditioner [Minv v = v]. *)
Record inverse_of_prec (Minv : V -> V) : Prop := {
  minv_sym : forall v w, inp (Minv v) w = inp v (Minv w);
  minv_prec : forall v w, inp (Minv (prec v)) w = inp v w;
  minv_pos : forall v, 0 <= inp (Minv v) v
}.

(** The quadratic model m(v) = <g,v> + <v,Hv>/2. *)
Definition quad (g v : V) : R := inp v g + / 2 * inp v (hess v).

(** The limits of the residual test are not negative. *)
Definition rlimits (p : tcgparams A) : Prop :=
  0 <= kappa A p /\ forall x : R, 0 <= x -> 0 <= powtheta A p x.
(** No pass is forced on a solved system: none is forced (the default), or g + H w vanishes nowhere
    inside the region. *)
Definition never_solved (Minv : V -> V) (p : tcgparams A) (g : V) (Delta : R) : Prop :=
  Min_Inner_Iter A p = 0%nat \/
  forall w u, inp (Minv w) w < Delta * Delta -> (forall x, inp u x = inp g x + inp (hess w) x) -> 0 < inp u u.
End cgspec.

(** ** Runs *)
Section trspec.
Context {A : arith} {G : trgeo A} {X : Type} (q : trparams A) (e : tenv A G (X:=X)).
Notation ts := (ts A G (X:=X)).

(** [tvisited s0 s l]: from [s0] the loop passed through the states [l], newest first. *)
Inductive tvisited (s0 : ts) : ts -> list ts -> Prop :=
| tvisited_start : tvisited s0 s0 [s0]
| tvisited_step s l s' :
    tvisited s0 s l -> tgoes_on A G q s = true -> tbody A G q e s = inl s' ->
    tvisited s0 s' (s' :: l).

(** How a run ends: the loop test fails, or a pass leaves the loop. *)
Inductive tends (s0 : ts) : ts -> list ts -> Prop :=
| tends_normal s l : tvisited s0 s l -> tgoes_on A G q s = false -> tends s0 s l
| tends_break s l sf : tvisited s0 s l -> tgoes_on A G q s = true ->
    tbody A G q e s = inr (TDone A G sf) -> tends s0 sf l.
End trspec.
