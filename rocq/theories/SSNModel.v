(** Model of Manifold::TangentSpaceProximalMap (Manifolds/Manifold.cpp 859-1014): the proximal
    mapping on a tangent space, computed by a regularised semismooth Newton method on the normal
    coordinates, with its conjugate gradient solver.

    The manifold and the problem are arguments, all taken at the point x: [nor_intr] is
    ObtainNorVerIntr(x, .), [nor_extr] ObtainNorVerExtr(x, .), [proj] Projection(x, .), [prox]
    ProxW(., Weight), [jac] CalJW(., ., Weight).  Vectors are the lists of their entries and results
    are values; Fnorm is the square root of the dot product. *)
From Coq Require Import List QArith Arith Bool.
Import ListNotations.
From Verif Require Import Arith MatOpsModel TangentModel.
Local Close Scope Q_scope.

Section model.
Context {A : arith}.
Local Open Scope arith_scope.
Notation F := (F A).
Notation vec := (@vec A).
Variables nor_intr nor_extr proj prox : vec -> vec.
Variable jac : vec -> vec -> vec.
(** The point x, the argument etax, and the weights after line 878. *)
Variables x etax W : vec.

Definition fnorm (v : vec) : F := fsqrt (dotp v v).
(** The loops 962-971 and 990-999: block i times 1 / Weight[i]; entries after the last whole block
    are left as they are.  Reading the entry that is overwritten, each once, is reading the old one. *)
Definition scale_blocks (v : vec) : vec :=
  let nblock := length W in
  let blocksize := Nat.div (length x) nblock in
  map (fun k => let v_k := nth k v (lit 0) in
        if Nat.ltb k (nblock * blocksize) then (lit 1 / nth (Nat.div k blocksize) W (lit 0)) * v_k else v_k)
      (seq 0 (length v)).
(** calAadj 1011-1014; ComputeBLambda 957-974 *)
Definition blambda (d : vec) : vec :=
  let result := nor_extr d in
  let result := axpy (lit 1) etax (scal (lit (-1)) result) in
  let result := scale_blocks result in
  axpy (lit 1) x (scal (lit (-1)) result).
(** EW 976-982, calA 1004-1009 *)
Definition ew (B : vec) : vec := nor_intr (axpy (lit (-1)) x (prox B)).
(** GLdW 984-1002 *)
Definition gldw (B d : vec) : vec := nor_intr (scale_blocks (jac B (nor_extr d))).

(** myCG 933-955.  [n] counts the passes left until maxiter, [k] is *CGiter. *)
Section cg.
Variable B : vec.
Variables mu tau lambdanFz : F.
Definition cg_op (d : vec) : vec := axpy mu d (gldw B d).
Definition cg_tol (res : vec) : F :=
  tau * (if lambdanFz * fnorm res <? lit 1 then lambdanFz * fnorm res else lit 1).
Fixpoint cg_loop (n k : nat) (res r p : vec) : vec * nat :=
  match n with
  | O => (res, k)
  | S n =>
    if cg_tol res <? fnorm r then
      let Ap := cg_op p in
      let rr0 := dotp r r in
      let alpha := rr0 / dotp p Ap in
      let res := axpy alpha p res in
      let r := axpy (- alpha) Ap r in
      let beta := dotp r r / rr0 in
      let p := axpy (lit 1) r (scal beta p) in
      cg_loop n (S k) res r p
    else (res, k)
  end.
Definition cg (nb : vec) (maxiter : nat) (init : vec) : vec * nat :=
  let r := axpy (lit (-1)) nb (scal (lit (-1)) (cg_op init)) in
  cg_loop maxiter 0 init r r.
End cg.

(** TangentSpaceProximalMap 859-931, parameters 871-872 *)
Variables SMtol SMlambda : F.
Variable dimNorVec : nat.
Definition SMmaxiter : nat := 100.
Definition maxSMbtiter : nat := 10.
(** 895-897 *)
Definition mu_of (nFz : F) : F :=
  let mu := if nFz <? lit (1#10) then nFz else lit (1#10) in
  let mu := if lit (1#100000000000) <? mu then mu else lit (1#100000000000) in
  SMlambda * mu.
(** SMz, Fz, SMd, BLambda, *outSMiter, *outSMCGiter; nFz is Fz.Fnorm() *)
Record ssn := mkssn { sz : vec; sF : vec; sd : vec; sB : vec; siter : nat; scg : nat }.
(** A trial point 900-903, 910-913: SMu, Fu, BLambda. *)
Definition trial (z d : vec) (alpha : F) : vec * vec * vec :=
  let u := axpy alpha d z in
  let B := blambda u in
  (u, ew B, B).
(** 905-915; [bt] is SMbtiter, [n] the halvings left. *)
Fixpoint backtrack (n bt : nat) (z d : vec) (nFz alpha : F) (t : vec * vec * vec) : nat * (vec * vec * vec) :=
  match n with
  | O => (bt, t)
  | S n =>
    let nFu := fnorm (snd (fst t)) in
    if nFz * nFz * (lit 1 - lit (1#1000) * alpha) <? nFu * nFu then
      let alpha := alpha * lit (1#2) in
      backtrack n (S bt) z d nFz alpha (trial z d alpha)
    else (bt, t)
  end.
(** 898: at most min(dimNorVec, 30) passes *)
Definition newton_dir (s : ssn) : vec * nat :=
  let nFz := fnorm (sF s) in
  cg (sB s) (mu_of nFz) (lit (1#10)) (SMlambda * nFz) (sF s) (if Nat.ltb dimNorVec 30 then dimNorVec else 30%nat) (sd s).
(** One pass of the loop 893-926; true: earlytermination and break. *)
Definition ssn_pass (s : ssn) : bool * ssn :=
  let nFz := fnorm (sF s) in
  let (d, cgit) := newton_dir s in
  let '(bt, (u, Fu, B)) := backtrack maxSMbtiter 0 (sz s) d nFz (lit 1) (trial (sz s) d (lit 1)) in
  if Nat.eqb bt maxSMbtiter && negb (Nat.eqb (siter s) 0) then
    (true, mkssn (sz s) (sF s) d B (siter s) (scg s + cgit))
  else (false, mkssn u Fu d B (S (siter s)) (scg s + cgit)).
Fixpoint ssn_loop (n : nat) (s : ssn) : bool * ssn :=
  match n with
  | O => (false, s)
  | S n =>
    let nFz := fnorm (sF s) in
    if SMtol <? nFz * nFz then
      let (early, s) := ssn_pass s in
      if early then (true, s) else ssn_loop n s
    else (false, s)
  end.
(** 863-891; [initD] is the contents of *inoutinitD, zeros if it has no space. *)
Definition ssn_init (initD : vec) : ssn :=
  let B := blambda initD in
  mkssn initD (ew B) (repeat (lit 0) dimNorVec) B 0 0.
(** 928-929: *result *)
Definition step_of (B : vec) : vec := proj (axpy (lit (-1)) x (prox B)).
(** earlytermination, *inoutinitD, *result, *outSMiter, *outSMCGiter.  A Weight without entries is a
    division by zero (963). *)
Record outcome := mkout { oearly : bool; omult : vec; ostep : vec; oiter : nat; ocg : nat }.
Definition proximal_map (initD : vec) : option outcome :=
  match W with
  | [] => None
  | _ => let (early, s) := ssn_loop SMmaxiter (ssn_init initD) in
         Some (mkout early (sz s) (step_of (sB s)) (siter s) (scg s))
  end.
End model.
Arguments sz {_}. Arguments sF {_}. Arguments sd {_}. Arguments sB {_}. Arguments siter {_}. Arguments scg {_}.
Arguments oearly {_}. Arguments omult {_}. Arguments ostep {_}. Arguments oiter {_}. Arguments ocg {_}.
