(** The default derivatives of a problem, Problems/Problem.cpp. *)
From Coq Require Import List QArith_base Arith.
From Verif Require Import Arith.
Import ListNotations.
Local Open Scope nat_scope.

(** p[i] and p[i] = v on an array; [None] when i is outside (undefined behaviour in C++). *)
Definition rd {X} (l : list X) (i : nat) : option X := nth_error l i.
Fixpoint wr {X} (l : list X) (i : nat) (v : X) : option (list X) :=
  match l, i with
  | [], _ => None
  | _ :: l', O => Some (v :: l')
  | a :: l', S i' => match wr l' i' v with Some r => Some (a :: r) | None => None end
  end.
(** for (i = i0; i < i0 + n; i++) *)
Fixpoint for_loop {S} (body : nat -> S -> option S) (i n : nat) (s : S) : option S :=
  match n with
  | O => Some s
  | Datatypes.S n' => match body i s with Some s' => for_loop body (Datatypes.S i) n' s' | None => None end
  end.

Section model.
Context {A : arith}.
Notation vec := (list (F A)).

(** The objective f(x), Problem.h 57: it may read what an earlier evaluation left in the fields of
    x and leave something there itself.  K is what can be in the fields. *)
Definition objective (K : Type) := vec -> option K -> F A * option K.

(** Problem::EucGrad, Problem.cpp 106-136 (double precision).  [junk] is the contents of x_eps after
    ObtainWriteEntireData, [g0] that of *result; [k] the fields of x.  Returns *result and the
    fields of x afterwards.  Simplified: the copy x_eps = x and the memory it detaches from are in
    NumGradMem.v; "Vector egf(x)" is not used. *)
Definition num_eps : F A := fq (1 # 100000000)%Q.
Definition num_body {K} (f : objective K) (x : vec) (fx : F A) (i : nat) (s : vec * vec * option K) : option (vec * vec * option K) :=
  let '(xe, g, _) := s in
  match rd xe i with
  | None => None
  | Some xi =>
    match wr xe i (xi + num_eps)%A with
    | None => None
    | Some xe1 =>
      (* x_eps.RemoveAllFromFields(); fp = f(x_eps) *)
      let '(fp, ke) := f xe1 None in
      match wr g i ((fp - fx) / num_eps)%A, rd x i with
      | Some g1, Some x0 => match wr xe1 i x0 with Some xe2 => Some (xe2, g1, ke) | None => None end
      | _, _ => None
      end
    end
  end.
Definition num_grad {K} (f : objective K) (x : vec) (k : option K) (junk g0 : vec) : option (vec * option K) :=
  let '(fx, k1) := f x k in
  let nn := length x in
  match for_loop (fun i xe => match rd x i with Some v => wr xe i v | None => None end) 0 nn junk with
  | None => None
  | Some xe =>
    match for_loop (num_body f x fx) 0 nn (xe, g0, None) with
    | Some (_, g, _) => Some (g, k1)
    | None => None
    end
  end.

(** What the user's class supplies. *)
Record problem := mkProblem {
  p_cache : Type;
  p_f : objective p_cache;
  p_egrad : option (vec -> vec);      (* EucGrad, if overridden *)
  p_num : bool;                       (* NumGradHess, Problem.h 127 *)
  p_usehess : bool                    (* UseHess, Problem.h 124 *)
}.
(** The virtual call EucGrad(x, &result) with a result of the same size as x and no fields at x. *)
Definition egrad (p : problem) (x : vec) : option vec :=
  match p_egrad p with
  | Some g => Some (g x)
  | None => option_map fst (num_grad (p_f p) x None x x)
  end.
(** RieGrad 84-95: the Euclidean gradient handed to Domain->EucGradToGrad, and the field "EGrad"
    EucGradToGrad leaves at x (Manifold.h 267). *)
Definition rie_egrad (p : problem) (x : vec) : option vec :=
  if p_num p then option_map fst (num_grad (p_f p) x None x x) else egrad p x.
Definition egrad_field (p : problem) (x : vec) : option vec :=
  if p_usehess p then rie_egrad p x else None.

(** Element::ScalarTimesThis, AlphaXaddThis. *)
Definition scal (a : F A) (v : vec) : vec := map (fun b => (a * b)%A) v.
Fixpoint axpy (a : F A) (x this : vec) : vec :=
  match this, x with
  | b :: t, c :: s => (b + a * c)%A :: axpy a s t
  | _, _ => []
  end.
(** Problem::EucHessianEta, Problem.cpp 138-161 (double precision).  [nrm2] is Metric(x,eta,eta).
    [None]: the field "EGrad" is missing (Element::Field asserts, Element.cpp 2806-2811) or the
    gradient is undefined. *)
Definition hess_factor (nrm2 : F A) : F A := (fq (1 # 100000)%Q / fsqrt nrm2)%A.
Definition num_hess (p : problem) (field : option vec) (nrm2 : F A) (x eta : vec) : option vec :=
  let t := hess_factor nrm2 in
  let y := axpy (fq (1#1)%Q) (scal t eta) x in
  match egrad p y, field with
  | Some gy, Some gx => Some (axpy (fq (1#1)%Q / t)%A gy (scal (fq (-1#1)%Q / t)%A gx))
  | _, _ => None
  end.

(** Problem::Grad 61-70 and HessianEta 72-82, for a manifold whose tangent vectors are vectors of E
    extrinsically and of I in coordinates. *)
Definition grad {X E I} (isintr : bool) (obtain_intr : X -> E -> I) (rie_grad : X -> E) (x : X) : E + I :=
  if isintr then inr (obtain_intr x (rie_grad x)) else inl (rie_grad x).
Definition hessian_eta {X E I} (isintr : bool) (obtain_intr : X -> E -> I) (obtain_extr : X -> I -> E)
    (rie_hess : X -> E -> E) (x : X) (eta : E + I) : option (E + I) :=
  match isintr, eta with
  | false, inl e => Some (inl (rie_hess x e))
  | true, inr i => Some (inr (obtain_intr x (rie_hess x (obtain_extr x i))))
  | _, _ => None
  end.
End model.
