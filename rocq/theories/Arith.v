(** Arithmetic interface used by the numerical code, with no laws, and three instances:
    real numbers, real numbers extended with IEEE special values, and IEEE binary64. *)
From Coq Require Import QArith Reals ZArith Bool.
From Coq Require Import Floats.SpecFloat.
From Coq Require Import Lra.

(** [realdp] (Others/def.h: double unless SINGLE_PRECISION) and the operations the code
    applies to it.  Comparison operators return booleans as in C++. *)
Record arith := mkArith {
  F : Type;
  fadd : F -> F -> F;
  fsub : F -> F -> F;
  fmul : F -> F -> F;
  fdiv : F -> F -> F;
  fopp : F -> F;
  fabs : F -> F;
  fsqrt : F -> F;
  flt : F -> F -> bool;      (* x < y *)
  fle : F -> F -> bool;      (* x <= y *)
  feq : F -> F -> bool;      (* x == y *)
  fbad : F -> bool;          (* std::isnan(x) || std::isinf(x) *)
  fq : Q -> F;               (* literals *)
  fmaxv : F;                 (* std::numeric_limits<realdp>::max() *)
  fepsv : F;                 (* std::numeric_limits<realdp>::epsilon() *)
  finf : F                   (* INFINITY *)
}.

Arguments fadd {_}. Arguments fsub {_}. Arguments fmul {_}. Arguments fdiv {_}.
Arguments fopp {_}. Arguments fabs {_}. Arguments fsqrt {_}.
Arguments flt {_}. Arguments fle {_}. Arguments feq {_}. Arguments fbad {_}.
Arguments fq {_}. Arguments fmaxv {_}. Arguments fepsv {_}. Arguments finf {_}.

Declare Scope arith_scope.
Delimit Scope arith_scope with A.
Notation "x + y" := (fadd x y) : arith_scope.
Notation "x - y" := (fsub x y) : arith_scope.
Notation "x * y" := (fmul x y) : arith_scope.
Notation "x / y" := (fdiv x y) : arith_scope.
Notation "- x" := (fopp x) : arith_scope.
Notation "x <? y" := (flt x y) : arith_scope.
Notation "x <=? y" := (fle x y) : arith_scope.
Notation "x =? y" := (feq x y) : arith_scope.
Notation "x >? y" := (flt y x) : arith_scope.
Notation "x >=? y" := (fle y x) : arith_scope.

(** ** Real numbers (exact arithmetic). [fmaxv], [finf] are some large number: results using
    this instance do not depend on it. *)
Definition Rltb (x y : R) : bool := if Rlt_dec x y then true else false.
Definition Rleb (x y : R) : bool := if Rle_dec x y then true else false.
Definition Reqb (x y : R) : bool := if Req_EM_T x y then true else false.

Definition R_arith (big eps : R) : arith :=
  mkArith R Rplus Rminus Rmult Rdiv Ropp Rabs sqrt Rltb Rleb Reqb
          (fun _ => false) Q2R big eps big.

Lemma Rltb_true x y : Rltb x y = true <-> (x < y)%R.
Proof. unfold Rltb. destruct (Rlt_dec x y); split; intros; try easy. Qed.
Lemma Rltb_false x y : Rltb x y = false <-> (y <= x)%R.
Proof. unfold Rltb. destruct (Rlt_dec x y); split; intros; try easy; lra. Qed.
Lemma Rleb_true x y : Rleb x y = true <-> (x <= y)%R.
Proof. unfold Rleb. destruct (Rle_dec x y); split; intros; try easy. Qed.
Lemma Rleb_false x y : Rleb x y = false <-> (y < x)%R.
Proof. unfold Rleb. destruct (Rle_dec x y); split; intros; try easy; lra. Qed.
Lemma Reqb_true x y : Reqb x y = true <-> x = y.
Proof. unfold Reqb. destruct (Req_EM_T x y); split; intros; try easy. Qed.
Lemma Reqb_false x y : Reqb x y = false <-> x <> y.
Proof. unfold Reqb. destruct (Req_EM_T x y); split; intros; try easy. Qed.

(** ** Extended reals: exact arithmetic plus infinities and NaN with IEEE rules.
    Zero is unsigned, so x/0 has the sign of x. *)
Inductive xr := Fin (r : R) | PInf | NInf | NaN.

Definition xsign (r : R) : comparison :=
  if Rlt_dec 0 r then Gt else if Rlt_dec r 0 then Lt else Eq.

Definition xopp (x : xr) : xr :=
  match x with Fin r => Fin (- r) | PInf => NInf | NInf => PInf | NaN => NaN end.
Definition xadd (x y : xr) : xr :=
  match x, y with
  | NaN, _ | _, NaN => NaN
  | Fin a, Fin b => Fin (a + b)
  | PInf, NInf | NInf, PInf => NaN
  | PInf, _ | _, PInf => PInf
  | NInf, _ | _, NInf => NInf
  end.
Definition xsub (x y : xr) : xr := xadd x (xopp y).
Definition xinf (c : comparison) : xr := match c with Gt => PInf | Lt => NInf | Eq => NaN end.
Definition xsgn (x : xr) : comparison :=
  match x with Fin r => xsign r | PInf => Gt | NInf => Lt | NaN => Eq end.
Definition smul (a b : comparison) : comparison :=
  match a, b with
  | Eq, _ | _, Eq => Eq
  | Gt, c => c
  | Lt, Gt => Lt
  | Lt, Lt => Gt
  end.
Definition xmul (x y : xr) : xr :=
  match x, y with
  | NaN, _ | _, NaN => NaN
  | Fin a, Fin b => Fin (a * b)
  | _, _ => xinf (smul (xsgn x) (xsgn y))
  end.
Definition xdiv (x y : xr) : xr :=
  match x, y with
  | NaN, _ | _, NaN => NaN
  | Fin a, Fin b =>
      match xsign b with
      | Eq => xinf (xsign a)
      | _ => Fin (a / b)
      end
  | Fin a, _ => Fin 0
  | _, Fin b => match xsign b with Eq => x | c => xinf (smul (xsgn x) c) end
  | _, _ => NaN
  end.
Definition xabs (x : xr) : xr :=
  match x with Fin r => Fin (Rabs r) | NaN => NaN | _ => PInf end.
Definition xsqrt (x : xr) : xr :=
  match x with
  | Fin r => if Rlt_dec r 0 then NaN else Fin (sqrt r)
  | PInf => PInf | _ => NaN end.
Definition xlt (x y : xr) : bool :=
  match x, y with
  | Fin a, Fin b => Rltb a b
  | Fin _, PInf | NInf, Fin _ | NInf, PInf => true
  | _, _ => false
  end.
Definition xle (x y : xr) : bool :=
  match x, y with
  | Fin a, Fin b => Rleb a b
  | Fin _, PInf | NInf, Fin _ | NInf, PInf | PInf, PInf | NInf, NInf => true
  | _, _ => false
  end.
Definition xeq (x y : xr) : bool :=
  match x, y with
  | Fin a, Fin b => Reqb a b
  | PInf, PInf | NInf, NInf => true
  | _, _ => false
  end.
Definition xbad (x : xr) : bool := match x with Fin _ => false | _ => true end.

Definition X_arith (big eps : R) : arith :=
  mkArith xr xadd xsub xmul xdiv xopp xabs xsqrt xlt xle xeq xbad
          (fun q => Fin (Q2R q)) (Fin big) (Fin eps) PInf.

(** ** IEEE binary64, executable. Round to nearest even. *)
Definition prec := 53%Z.
Definition emax := 1024%Z.
Definition d_of_Z (z : Z) : spec_float := binary_normalize prec emax z 0 false.
Definition d_of_Q (q : Q) : spec_float := SFdiv prec emax (d_of_Z (Qnum q)) (d_of_Z (Zpos (Qden q))).
Definition d_bad (x : spec_float) : bool :=
  match x with S754_nan | S754_infinity _ => true | _ => false end.

Definition D_arith : arith :=
  mkArith spec_float (SFadd prec emax) (SFsub prec emax) (SFmul prec emax) (SFdiv prec emax)
          SFopp SFabs (SFsqrt prec emax) SFltb SFleb SFeqb d_bad d_of_Q
          (S754_finite false 9007199254740991 971) (S754_finite false 4503599627370496 (-104))
          (S754_infinity false).
