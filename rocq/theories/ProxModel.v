(** Model of the proximal mapping of the 1-norm and of its generalized Jacobian, as in StieSPCA.cpp
    65-154 and FRankESparseApprox.cpp 58-100 (the two classes have the same code), and of the weights
    that StieSPCA::PreConditioner hands to them.  [rd], [wr] and [for_loop] are those of
    ProblemModel.v. *)
From Coq Require Import List QArith_base Arith Bool.
From Verif Require Import Arith ProblemModel.
Import ListNotations.
Local Open Scope nat_scope.

Section model.
Context {A : arith}.
Notation vec := (list (F A)).

(** The two nested loops: entry idx = j + i * blocksize of the result is computed from idx and i. *)
Definition block_loop (entry : nat -> nat -> option (F A)) (nblock blocksize : nat) (res : vec) : option vec :=
  for_loop (fun i res =>
    for_loop (fun j res =>
      let idx := j + i * blocksize in
      match entry idx i with Some v => wr res idx v | None => None end) 0 blocksize res) 0 nblock res.

(** min(0, x + lambda / w) + max(0, x - lambda / w), StieSPCA 128. *)
Definition prox_entry (lambda x w : F A) : F A :=
  ((if flt (x + lambda / w) (fq (0#1)%Q) then x + lambda / w else fq (0#1)%Q) +
   (if flt (fq (0#1)%Q) (x - lambda / w) then x - lambda / w else fq (0#1)%Q))%A.
(** ProxW 113-132.  [res] is the contents of *result after ObtainWriteEntireData.  A Weight of no
    entries is a division by zero. *)
Definition proxw (lambda : F A) (x W res : vec) : option vec :=
  match length W with
  | 0 => None
  | nblock => block_loop (fun idx i =>
      match rd x idx, rd W i with Some a, Some w => Some (prox_entry lambda a w) | _, _ => None end)
      nblock (length x / nblock) res
  end.
(** CalJW 134-154. *)
Definition jac_entry (lambda x w eta : F A) : F A := if flt lambda (fabs x * w)%A then eta else fq (0#1)%Q.
Definition caljw (lambda : F A) (x eta W res : vec) : option vec :=
  match length W with
  | 0 => None
  | nblock => block_loop (fun idx i =>
      match rd x idx, rd W i, rd eta idx with
      | Some a, Some w, Some e => Some (jac_entry lambda a w e)
      | _, _, _ => None
      end) nblock (length x / nblock) res
  end.

(** StieSPCA::PreConditioner 65-111.  [w1 j] is the squared length of column j of Bx, [cn i] that of
    column i of B.  lengthW is compared with the number of entries of x, with p and with 1, in this
    order. *)
Definition at_least (v : F A) : F A := if flt (fq (1#10)%Q) v then v else fq (1#10)%Q.
Definition spca_weights (n p lengthW : nat) (L : F A) (w1 cn : nat -> F A) : vec :=
  if lengthW =? n * p then
    flat_map (fun j => map (fun i => at_least ((w1 j - cn i) * fq (2#1)%Q)%A) (seq 0 n)) (seq 0 p)
  else if lengthW =? p then map (fun i => at_least ((w1 i - fq (1#1)%Q) * fq (2#1)%Q)%A) (seq 0 p)
  else if lengthW =? 1 then [L]
  else [fq (0#1)%Q].
End model.
