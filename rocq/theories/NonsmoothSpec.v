(** Specification vocabulary for the nonsmooth solvers. *)
From Coq Require Import QArith Reals List Bool Arith.
From Verif Require Import Arith NonsmoothModel.

(** ** ManPG *)

(** The state after [k] passes of ManPG's loop, when the loop has not ended before. *)
Fixpoint pg_at {A : arith} (E : pgenv A) (P : pgpar A) stopped (lf k : nat) (s : pgst A E)
  : option (pgst A E) :=
  match k with
  | O => Some s
  | S k => match pg_at E P stopped lf k s with
           | Some s' => if pg_going A E P s' then
                          match pg_pass A E P stopped lf s' with
                          | Some (Again s'') => Some s''
                          | _ => None
                          end
                        else None
           | None => None
           end
  end.

(** The directional derivative ManPG measures decrease with: <grad f(x1), eta> with eta the
    proximal direction at x1. *)
Definition pg_slope {A : arith} (E : pgenv A) (s : pgst A E) : F A :=
  nmet E (gx1 s) (ggf1 s)
    (fst (nprox E (gx1 s) (ggf1 s) (gada s) (fst (gacc s)) (snd (gacc s)) (ginit s))).

(** The same at AManPG's safeguard point. *)
Definition am_slope {A : arith} (E : pgenv A) (s : amst A E) : F A :=
  nmet E (ax1 s) (agf1 s)
    (fst (nprox E (ax1 s) (agf1 s) (aada s) (fst (aacc s)) (snd (aacc s)) (ainit s))).

(** [x <= y] for extended reals; false as soon as one of them is NaN. *)
Definition xleP (x y : xr) : Prop :=
  match x, y with
  | NaN, _ | _, NaN => False
  | NInf, _ | _, PInf => True
  | Fin a, Fin b => (a <= b)%R
  | _, _ => False
  end.

(** ** Subgradient method *)

(** The state after [k] passes of the loop, when the loop has not ended before. *)
Fixpoint sub_at {A : arith} (E : subenv A) (P : subpar A) stopped update (lf k : nat)
    (s : subst A E) : option (subst A E) :=
  match k with
  | O => Some s
  | S k => match sub_at E P stopped update lf k s with
           | Some s' => if sub_going A E P s' then
                          match sub_pass A E P stopped update lf s' with
                          | SubShrink s'' | SubIter s'' => Some s''
                          | _ => None
                          end
                        else None
           | None => None
           end
  end.

(** IsStopped with StopPtr == nullptr, within the time bound (SolversNSM.cpp 99-105).
    [None]: ndir1 has no value yet; nothing is asked of that case. *)
Inductive nsmcrit := NSM_FUN_REL | NSM_DIR_F | NSM_DIR_F_0.
Definition nsm_stopped {A : arith} (E : subenv A) (P : subpar A) (c : nsmcrit) (s : subst A E)
  : bool :=
  match c, undir1 s with
  | NSM_FUN_REL, _ =>
      flt (fabs (fdiv (fsub (uf1 s) (uf2 s)) (fadd (fabs (uf1 s)) (fq 1%Q)))) (uTol P)
      && negb (uiter s =? 0)%nat
  | NSM_DIR_F, Some nd => flt nd (uTol P)
  | NSM_DIR_F_0, Some nd => flt (fdiv nd (undir0 s)) (uTol P)
  | _, None => false
  end.
