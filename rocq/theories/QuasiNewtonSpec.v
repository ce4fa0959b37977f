(** Vocabulary for the quasi-Newton theorems. *)
From Coq Require Import QArith Reals List Bool.
From Verif Require Import Arith QuasiNewtonModel.
Import ListNotations.

(** ** The limited memory *)
Section mem.
Context {A : arith} (G : qspace A) (p : qparams A).
Notation V := (QV A G). Notation F := (F A).
Local Open Scope arith_scope.

(** What is stored for an iteration: s, y and 1/<s,y>. *)
Definition correction (e : step A G) : V * V * F :=
  let s := tr A G e (seta A G e) in
  let y := qcomb A G (fq 1 / sbeta A G e) (sgf2 A G e) (fq (-1)) (tr A G e (sgf1 A G e)) in
  (s, y, fq 1 / qmet A G s y).

(** Whether the iteration passes the curvature test. *)
Definition admitted (e : step A G) : bool :=
  let '(s, y, _) := correction e in
  (qnu A p * qpowmu A p (sngf2 A G e) <=? qmet A G s y / qmet A G s s) &&
  ((sngf2 A G e / sngf0 A G e <? fq (1#1000)) ||
   ((fepsv <? qmet A G s s) && (fepsv <? qmet A G s y))).

Definition move (T : V -> V) (c : V * V * F) : V * V * F := let '(s, y, r) := c in (T s, T y, r).

(** All admitted corrections of a history, oldest first, each transported by every later
    iteration. *)
Definition corrections (l : list (step A G)) : list (V * V * F) :=
  fold_left (fun cs e => map (move (tr A G e)) cs ++ if admitted e then [correction e] else []) l [].

(** The scaling <s,y>/<y,Py> of the last admitted iteration, 1 before there is one. *)
Definition scaling (l : list (step A G)) : F :=
  fold_left (fun g e => let '(s, y, _) := correction e in
                        if admitted e then qmet A G s y / qmet A G y (sprec A G e y) else g) l (fq 1).

(** The last n entries. *)
Definition lastn {X} (n : nat) (l : list X) : list X := skipn (length l - n) l.

(** The memory read from its begin index. *)
Definition contents (m : lmem A G) : list (option (V * V * F)) :=
  map (fun i => slot A G m ((mbeg A G m + i) mod LengthSY A p)) (seq 0 (mlen A G m)).

(** The recursive inverse BFGS operator for corrections listed newest first, starting from
    gamma times the preconditioner P. *)
Fixpoint recursive (P : V -> V) (gamma : F) (cs : list (V * V * F)) (v : V) : V :=
  match cs with
  | [] => qscal A G gamma (P v)
  | (s, y, rho) :: older =>
      let a := rho * qmet A G s v in
      let z := recursive P gamma older (qaxpy A G (- a) y v) in
      qaxpy A G (a - rho * qmet A G y z) s z
  end.
End mem.

(** ** Operators, exact arithmetic *)
Section ops.
Context {big eps : R}.
Notation A := (R_arith big eps).
Context (G : qspace A).
Notation V := (QV A G).
Local Open Scope R_scope.
Definition ip (v w : V) : R := qmet A G v w.

(** The metric is an inner product and the coordinates are orthonormal for it (intrinsic
    representation). *)
Record qn_space : Prop := {
  ip_sym : forall v w, ip v w = ip w v;
  ip_axpy : forall a v w u, ip (qaxpy A G a v w) u = a * ip v u + ip w u;
  ip_scal : forall a v u, ip (qscal A G a v) u = a * ip v u;
  ip_comb : forall a v b w u, ip (qcomb A G a v b w) u = a * ip v u + b * ip w u;
  ip_pos : forall v, 0 <= ip v v;
  ip_dot : forall v w, qdot A G v w = ip v w
}.

Definition symmetric (H : V -> V) : Prop := forall v w, ip (H v) w = ip v (H w).
Definition positive (H : V -> V) : Prop := (forall v, 0 <= ip (H v) v) /\ forall v, 0 < ip v v -> 0 < ip (H v) v.
(** Symmetric and positive definite. *)
Definition spd (H : V -> V) : Prop := symmetric H /\ positive H.
(** H maps y to s (as vectors: same inner products). *)
Definition maps (H : V -> V) (y s : V) : Prop := forall u, ip (H y) u = ip s u.
(** U is an isometry with inverse (= adjoint) Ui. *)
Definition isometry (U Ui : V -> V) : Prop :=
  (forall v w, ip (U v) w = ip v (Ui w)) /\ forall v, ip (Ui v) (Ui v) = ip v v.
(** T is H |-> U H U^-1 for an isometry U. *)
Definition conjugation (T : (V -> V) -> V -> V) : Prop :=
  exists U Ui, isometry U Ui /\ forall H v, T H v = U (H (Ui v)).
(** H' = (I - s y^T/<s,y>) H (I - y s^T/<s,y>) + s s^T/<s,y>, as a bilinear form; y_free v
    stands for v - (<s,v>/<s,y>) y. *)
Definition bfgs_of (H H' : V -> V) (s y : V) : Prop :=
  forall v w v' w',
  (forall u, ip v' u = ip v u - ip s v / ip s y * ip y u) ->
  (forall u, ip w' u = ip w u - ip s w / ip s y * ip y u) ->
  ip (H' v) w = ip (H v') w' + ip s v * ip s w / ip s y.
(** The curvature threshold nu |gf2|^mu is positive. *)
Definition threshold (p : qparams A) (e : step A G) : Prop := 0 < (qnu A p : R) * (qpowmu A p (sngf2 A G e) : R).
(** An iteration with isometric transport, positive threshold and SPD preconditioner. *)
Definition good (p : qparams A) (e : step A G) : Prop :=
  (forall v w, ip (tr A G e v) (tr A G e w) = ip v w) /\ threshold p e /\ spd (sprec A G e).
End ops.
