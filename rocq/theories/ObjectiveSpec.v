(** What the theorems about objective functions speak of; [inner] and [symmetric] are those of
    StiefelSpec.v. *)
From mathcomp Require Import all_ssreflect all_algebra.
From Verif Require Import StiefelSpec ObjectiveModel.
Import GRing.Theory Num.Theory.
Set Implicit Arguments.
Unset Strict Implicit.
Local Open Scope ring_scope.

Section spec.
Variables (R : rcfType) (V : lmodType R).
(** ip is symmetric and linear. *)
Record bilinear (ip : V -> V -> R) : Prop :=
  { ip_sym : forall u v, ip u v = ip v u;
    ip_lin : forall a u v w, ip (a *: u + v) w = a * ip u w + ip v w }.
(** g is the gradient of f at x: along every line through x, f is approximated to first order by
    the inner product with g. *)
Definition is_gradient (ip : V -> V -> R) (f : V -> R) (x g : V) : Prop :=
  forall d, exists C delta : R, 0 < delta /\ forall t : R, `|t| <= delta ->
    `|f (x + t *: d) - f x - t * ip g d| <= C * t ^+ 2.
(** h is the derivative of the field G at x in the direction d. *)
Definition is_derivative (ip : V -> V -> R) (G : V -> V) (x d h : V) : Prop :=
  exists C delta : R, 0 < delta /\ forall t : R, `|t| <= delta ->
    ip (G (x + t *: d) - G x - t *: h) (G (x + t *: d) - G x - t *: h) <= C * t ^+ 4.
(** f differs by the inner product with g, up to L / 2 times the squared length of the step. *)
Definition lipschitz_bound (ip : V -> V -> R) (f : V -> R) (g : V -> V) (L : R) : Prop :=
  forall x d, `|f (x + d) - f x - ip (g x) d| <= L / 2%:R * ip d d.

Variable Fl : Type.
(** The value, and the gradient and Hessian computed at x after f has been computed at x. *)
Definition value (o : objective R V Fl) (x : V) : R := (o_f o x).1.
Definition egrad (o : objective R V Fl) (x : V) : V := o_egrad o x (o_f o x).2.
Definition ehess (o : objective R V Fl) (x eta : V) : V := o_ehess o x (o_f o x).2 eta.
(** EucGrad is the gradient of s everywhere, and EucHessianEta the derivative of EucGrad. *)
Definition derivatives_of (ip : V -> V -> R) (o : objective R V Fl) (s : V -> R) : Prop :=
  forall x, is_gradient ip s x (egrad o x) /\
    forall eta, is_derivative ip (egrad o) x eta (ehess o x eta).
End spec.

(** The inner products of products. *)
Definition inner2 (R : rcfType) m n p q (u v : 'M[R]_(m, n) * 'M[R]_(p, q)) : R :=
  inner u.1 v.1 + inner u.2 v.2.
Definition inner3 (R : rcfType) m n p q r s (u v : 'M[R]_(m, n) * 'M[R]_(p, q) * 'M[R]_(r, s)) : R :=
  inner u.1.1 v.1.1 + inner u.1.2 v.1.2 + inner u.2 v.2.
(** The sum of the absolute values of the entries. *)
Definition norm1 (R : rcfType) m n (x : 'M[R]_(m, n)) : R := \sum_i \sum_j `|x i j|.
