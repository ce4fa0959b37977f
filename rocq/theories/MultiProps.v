(** Theorems about products of manifolds (MultiManifolds). *)
From Coq Require Import List Arith Bool QArith Reals.
From Verif Require Import Arith MultiModel MultiSpec MultiProofs MultiTran MultiFacts.
Import ListNotations.

(** C55.  The metric of the product is the sum of the metrics of the components, each with the
    setting of its type; nothing is assumed of the arithmetic or of the components. *)
Theorem C55_metric_sum : forall (A : arith) (E : Type) (ms : list (mani A E)) flags counts b
    (st : store E) x eta xi xs es zs,
  length ms = length counts -> length ms = length flags ->
  let cs := components ms flags counts in
  st x = full xs -> st eta = full es -> st xi = full zs ->
  length xs = length cs -> length es = length cs -> length zs = length cs ->
  prod_metric (mkProd ms flags (pows_from 0 counts) b) st x eta xi =
  Some (total A (map2 (fun c a ez => m_metric (fst c) (snd c) a (fst ez) (snd ez)) cs xs (combine es zs))).
Proof. exact (fun A E ms flags counts b st x eta xi xs es zs L1 L2 => metric_ok ms flags counts L1 L2 b st x eta xi xs es zs). Qed.
Print Assumptions C55_metric_sum.

(** The distance is the root of the sum of the squared distances. *)
Theorem C55_dist : forall (A : arith) (E : Type) (ms : list (mani A E)) flags counts b (st : store E) x1 x2 xs ys,
  length ms = length counts -> length ms = length flags ->
  let cs := components ms flags counts in
  st x1 = full xs -> st x2 = full ys -> length xs = length cs -> length ys = length cs ->
  prod_dist (mkProd ms flags (pows_from 0 counts) b) st x1 x2 =
  Some (fsqrt (total A (map2 (fun c a d => fmul (m_dist (fst c) a d) (m_dist (fst c) a d)) cs xs ys))).
Proof. exact (fun A E ms flags counts b st x1 x2 xs ys L1 L2 => dist_ok ms flags counts L1 L2 b st x1 x2 xs ys). Qed.
Print Assumptions C55_dist.

(** Projections act componentwise and change nothing but result, which may be eta. *)
Theorem C55_projection : forall (A : arith) (E : Type) (ms : list (mani A E)) flags counts b
    (st : store E) x eta result xs es,
  length ms = length counts -> length ms = length flags ->
  let cs := components ms flags counts in
  x <> result -> st x = full xs -> st eta = full es ->
  length xs = length cs -> length es = length cs -> length (st result) = length cs ->
  (forall k, prod_proj (mkProd ms flags (pows_from 0 counts) b) st x eta result k =
     if Nat.eqb k result then full (map2 (fun c => m_proj (fst c) (snd c)) cs xs es) else st k) /\
  (forall k, prod_extrproj (mkProd ms flags (pows_from 0 counts) b) st x eta result k =
     if Nat.eqb k result then full (map2 (fun c => m_extrproj (fst c)) cs xs es) else st k).
Proof.
  exact (fun A E ms flags counts b st x eta result xs es L1 L2 N Hx He Lx Le Lr =>
    conj (op2_loop ms flags counts L1 L2 m_proj b st x (st eta) result xs es N Hx He Lx Le Lr)
         (op2_loop ms flags counts L1 L2 (fun m _ => m_extrproj m) b st x (st eta) result xs es N Hx He Lx Le Lr)).
Qed.
Print Assumptions C55_projection.

(** The differentiated retraction, its adjoint and the two transports act componentwise and change
    nothing but result, which may be the transported vector. *)
Theorem C55_transports : forall (A : arith) (E : Type) (ms : list (mani A E)) flags counts b
    (st : store E) x eta y xi result xs es ys zs,
  length ms = length counts -> length ms = length flags ->
  let cs := components ms flags counts in
  let p := mkProd ms flags (pows_from 0 counts) b in
  x <> result -> eta <> result -> y <> result ->
  st x = full xs -> st eta = full es -> st y = full ys -> st xi = full zs ->
  length xs = length cs -> length es = length cs -> length ys = length cs -> length zs = length cs ->
  length (st result) = length cs ->
  let only f k := if Nat.eqb k result then full (map4 (fun c => f (fst c) (snd c)) cs xs es ys zs) else st k in
  (forall k, prod_diff p st x eta y xi result k = only m_diff k) /\
  (forall k, prod_cotan p st x eta y xi result k = only m_cotan k) /\
  (forall k, prod_vt p st x eta y xi result k = only m_vt k) /\
  (forall k, prod_ivt p st x eta y xi result k = only m_ivt k).
Proof.
  exact (fun A E ms flags counts b st x eta y xi result xs es ys zs L1 L2 N1 N2 N3 Hx He Hy Hz Lx Le Ly Lz Lr =>
    conj (op4_loop ms flags counts L1 L2 m_diff b st x eta y (st xi) result xs es ys zs N1 N2 N3 Hx He Hy Hz Lx Le Ly Lz Lr)
   (conj (op4_loop ms flags counts L1 L2 m_cotan b st x eta y (st xi) result xs es ys zs N1 N2 N3 Hx He Hy Hz Lx Le Ly Lz Lr)
   (conj (op4_loop ms flags counts L1 L2 m_vt b st x eta y (st xi) result xs es ys zs N1 N2 N3 Hx He Hy Hz Lx Le Ly Lz Lr)
         (op4_loop ms flags counts L1 L2 m_ivt b st x eta y (st xi) result xs es ys zs N1 N2 N3 Hx He Hy Hz Lx Le Ly Lz Lr)))).
Qed.
Print Assumptions C55_transports.

(** Retraction and its inverse act componentwise when result is neither argument; the settings stay
    only when the product itself is intrinsic. *)
Theorem C55_retraction_partial : forall (A : arith) (E : Type) (ms : list (mani A E)) flags counts
    (st : store E) x eta result xs es,
  length ms = length counts -> length ms = length flags ->
  let cs := components ms flags counts in
  let p := mkProd ms flags (pows_from 0 counts) true in
  x <> result -> eta <> result -> st x = full xs -> st eta = full es ->
  length xs = length cs -> length es = length cs -> length (st result) = length cs ->
  (fst (prod_retr p st x eta result) = p /\
   forall k, snd (prod_retr p st x eta result) k =
     if Nat.eqb k result then full (map2 (fun c => m_retr (fst c) (snd c)) cs xs es) else st k) /\
  (fst (prod_invretr p st x eta result) = p /\
   forall k, snd (prod_invretr p st x eta result) k =
     if Nat.eqb k result then full (map2 (fun c => m_invretr (fst c) (snd c)) cs xs es) else st k).
Proof.
  exact (fun A E ms flags counts st x eta result xs es L1 L2 N1 N2 Hx He Lx Le Lr =>
    conj (intr_store ms flags counts L1 L2 m_retr st x eta result xs es N1 N2 Hx He Lx Le Lr)
         (intr_store ms flags counts L1 L2 m_invretr st x eta result xs es N1 N2 Hx He Lx Le Lr)).
Qed.
Print Assumptions C55_retraction_partial.

(** When the product is extrinsic the components are retracted extrinsically. *)
Theorem C55_retraction_extrinsic : forall (A : arith) (E : Type) (ms : list (mani A E)) flags counts
    (st : store E) x eta result xs es,
  length ms = length counts -> length ms = length flags ->
  let cs := components ms flags counts in
  let p := mkProd ms flags (pows_from 0 counts) false in
  x <> result -> eta <> result -> st x = full xs -> st eta = full es ->
  length xs = length cs -> length es = length cs -> length (st result) = length cs ->
  forall k, snd (prod_retr p st x eta result) k =
     if Nat.eqb k result then full (map2 (fun c => m_retr (fst c) false) cs xs es) else st k.
Proof. exact (fun A E ms flags counts st x eta result xs es L1 L2 => extr_store ms flags counts L1 L2 m_retr st x eta result xs es). Qed.
Print Assumptions C55_retraction_extrinsic.

(** But the settings do not stay: every type that occurs is intrinsic afterwards, whatever it was. *)
Theorem C55_settings_refuted : forall (A : arith) (E : Type) (ms : list (mani A E)) flags counts
    (st : store E) x eta result,
  length ms = length counts -> length ms = length flags ->
  forall i, (i < length flags)%nat -> (0 < nth i counts 0)%nat ->
  nth i (p_flags (fst (prod_retr (mkProd ms flags (pows_from 0 counts) false) st x eta result))) false = true /\
  nth i (p_flags (fst (prod_invretr (mkProd ms flags (pows_from 0 counts) false) st x eta result))) false = true.
Proof.
  exact (fun A E ms flags counts st x eta result L1 L2 i Hi Hc =>
    conj (settings_true ms flags counts L1 m_retr st x eta result i Hi Hc)
         (settings_true ms flags counts L1 m_invretr st x eta result i Hi Hc)).
Qed.
Print Assumptions C55_settings_refuted.

(** So the same call of Metric, with the same arguments, gives another number after a Retraction. *)
Theorem C55_metric_refuted : forall big eps, exists (ms : list (mani (R_arith big eps) R)) flags counts st,
  let p := mkProd ms flags (pows_from 0 counts) false in
  prod_metric p st 0 1 2 <> prod_metric (fst (prod_retr p st 0 1 3)) st 0 1 2.
Proof.
  exact (fun big eps => ex_intro _ [line (R_arith big eps)] (ex_intro _ [false] (ex_intro _ [2%nat]
    (ex_intro _ (wst (R_arith big eps)) (metric_change big eps))))).
Qed.
Print Assumptions C55_metric_refuted.

(** Retraction into the vector that was passed loses the vector: no component is computed. *)
Theorem C55_alias_refuted : forall A : arith, exists (m : mani A (F A)) (st : store (F A)), forall b f,
  st 1%nat = full [fq 3; fq 5] /\
  snd (prod_retr (mkProd [m] [f] (pows_from 0 [2%nat]) b) st 0 1 1) 1%nat = [None; None].
Proof. exact alias_wit. Qed.
Print Assumptions C55_alias_refuted.

(** The intrinsic and extrinsic representations are those of the components whose type is
    intrinsic; the other components are copied. *)
Theorem C55_coordinates : forall (A : arith) (E : Type) (ms : list (mani A E)) flags counts b
    (st : store E) x eta result xs es,
  length ms = length counts -> length ms = length flags ->
  let cs := components ms flags counts in
  let p := mkProd ms flags (pows_from 0 counts) b in
  x <> result -> eta <> result -> st x = full xs -> st eta = full es ->
  length xs = length cs -> length es = length cs -> length (st result) = length cs ->
  (forall k, prod_intr p st x eta result k =
     if Nat.eqb k result then full (map2 (fun (c : mani A E * bool) a e => if snd c then m_intr (fst c) a e else e) cs xs es) else st k) /\
  (forall k, prod_extr p st x eta result k =
     if Nat.eqb k result then full (map2 (fun (c : mani A E * bool) a e => if snd c then m_extr (fst c) a e else e) cs xs es) else st k).
Proof.
  exact (fun A E ms flags counts b st x eta result xs es L1 L2 N1 N2 Hx He Lx Le Lr =>
    conj (coords_ok ms flags counts L1 L2 m_intr b st x eta result xs es N1 N2 Hx He Lx Le Lr)
         (coords_ok ms flags counts L1 L2 m_extr b st x eta result xs es N1 N2 Hx He Lx Le Lr)).
Qed.
Print Assumptions C55_coordinates.

(** TranHInvTran in place multiplies every block by the transports of the two components it belongs
    to: block (ja, jb) becomes Q_ja H_(ja,jb) P_jb. *)
Theorem C55_tran_partial : forall (A : arith) (E : Type) (ms : list (mani A E)) flags counts
    (P Q : nat -> rmat) (hinv tranh : nat -> nat -> nat -> rmat -> rmat) b lens (st : mstore rmat) H,
  length ms = length counts -> length ms = length flags ->
  (forall j s l M r c, hinv j s (s + l)%nat M r c = right_block s l (P j) M r c) ->
  (forall j s l M r c, tranh j s (s + l)%nat M r c = left_block s l (Q j) M r c) ->
  length lens = length (components ms flags counts) ->
  forall ja jb r c, (ja < length lens)%nat -> (jb < length lens)%nat ->
  (offset lens ja <= r < offset lens ja + nth ja lens 0)%nat ->
  (offset lens jb <= c < offset lens jb + nth jb lens 0)%nat ->
  prod_tran hinv tranh (mkProd ms flags (pows_from 0 counts) b) lens st H H H r c =
  rsum (nth ja lens 0%nat) (fun k => Q ja (r - offset lens ja)%nat k *
    rsum (nth jb lens 0%nat) (fun l => st H (offset lens ja + k)%nat (offset lens jb + l)%nat * P jb l (c - offset lens jb)%nat))%R.
Proof. exact (fun A E ms flags counts P Q hinv tranh b lens st H L1 L2 => tran_ok ms flags counts L1 L2 P Q hinv tranh b lens st H). Qed.
Print Assumptions C55_tran_partial.

(** Into another matrix it does not depend on the operator it is given. *)
Theorem C55_tran_refuted : forall (A : arith) (E mat : Type) hinv tranh (p : MultiModel.prod A E) lens
    (st : mstore mat) Hx result H',
  Hx <> result ->
  prod_tran hinv tranh p lens (fun k => if Nat.eqb k Hx then H' else st k) Hx result result =
  prod_tran hinv tranh p lens st Hx result result.
Proof.
  exact (fun A E mat hinv tranh p lens st Hx result H' N =>
    tran_ignores hinv tranh p lens (fun k => if Nat.eqb k Hx then H' else st k) st Hx result N
      (match Nat.eqb_spec result Hx as e in reflect _ v return (if v then H' else st result) = st result with
       | ReflectT _ e => False_ind _ (N (eq_sym e)) | ReflectF _ _ => eq_refl end)).
Qed.
Print Assumptions C55_tran_refuted.

(** C92.  The dimensions of a product are the sums over its components, and their number is that of
    the components. *)
Theorem C92_dimensions : forall (A : arith) (E : Type) (ms : list (mani A E)) flags counts,
  length ms = length counts -> length ms = length flags ->
  let cs := components ms flags counts in
  extr_dim (make ms flags counts) = fold_left Nat.add (map (fun c => m_extrdim (fst c)) cs) 0%nat /\
  intr_dim (make ms flags counts) = fold_left Nat.add (map (fun c => m_intrdim (fst c)) cs) 0%nat /\
  total_manis (make ms flags counts) = length cs.
Proof.
  exact (fun A E ms flags counts L1 L2 => conj (dim_ok m_extrdim ms flags counts L1 L2)
    (conj (dim_ok m_intrdim ms flags counts L1 L2) (total_ok ms flags counts L1 L2))).
Qed.
Print Assumptions C92_dimensions.

(** C93.  The product inherits symmetry of the metric and isometry of the vector transport from its
    components. *)
Theorem C93_symmetric : forall (A : arith) (E : Type) (ms : list (mani A E)) flags counts b
    (st : store E) x eta xi xs es zs,
  length ms = length counts -> length ms = length flags ->
  (forall m f a u v, In m ms -> m_metric m f a u v = m_metric m f a v u) ->
  let cs := components ms flags counts in
  st x = full xs -> st eta = full es -> st xi = full zs ->
  length xs = length cs -> length es = length cs -> length zs = length cs ->
  let p := mkProd ms flags (pows_from 0 counts) b in
  prod_metric p st x eta xi = prod_metric p st x xi eta.
Proof. exact (fun A E ms flags counts b st x eta xi xs es zs L1 L2 => metric_sym ms flags counts L1 L2 b st x eta xi xs es zs). Qed.
Print Assumptions C93_symmetric.
Theorem C93_isometric : forall (A : arith) (E : Type) (ms : list (mani A E)) flags counts b
    (st : store E) x eta y xi zeta r1 r2 xs es ys us vs,
  length ms = length counts -> length ms = length flags ->
  (forall m f a e d u v, In m ms -> m_metric m f d (m_vt m f a e d u) (m_vt m f a e d v) = m_metric m f a u v) ->
  NoDup [x; eta; y; r1; r2] -> ~ In xi [r1; r2] -> zeta <> r1 ->
  st x = full xs -> st eta = full es -> st y = full ys -> st xi = full us -> st zeta = full vs ->
  let cs := components ms flags counts in
  length xs = length cs -> length es = length cs -> length ys = length cs ->
  length us = length cs -> length vs = length cs -> length (st r1) = length cs -> length (st r2) = length cs ->
  let p := mkProd ms flags (pows_from 0 counts) b in
  let st1 := prod_vt p st x eta y xi r1 in
  let st2 := prod_vt p st1 x eta y zeta r2 in
  prod_metric p st2 y r1 r2 = prod_metric p st x xi zeta.
Proof.
  exact (fun A E ms flags counts b st x eta y xi zeta r1 r2 xs es ys us vs L1 L2 =>
    vt_isometry ms flags counts L1 L2 b st x eta y xi zeta r1 r2 xs es ys us vs).
Qed.
Print Assumptions C93_isometric.

(** Hypotheses are met: two types, the first three times and the second twice, with different
    settings. *)
Section example.
Variable A : arith.
Let ms := [line A; line A].
Let st : store (F A) := fun k => match k with
  | 0%nat => full [fq 1; fq 2; fq 3; fq 4; fq 5]
  | 1%nat => full [fq 6; fq 7; fq 8; fq 9; fq 10]
  | 2%nat => full [fq 11; fq 12; fq 13; fq 14; fq 15]
  | _ => full [fq 0; fq 0; fq 0; fq 0; fq 0] end.
Example C55_example :
  components ms [true; false] [3; 2]%nat =
    [(line A, true); (line A, true); (line A, true); (line A, false); (line A, false)] /\
  length ms = length [3; 2]%nat /\ length ms = length [true; false] /\
  st 0%nat = full [fq 1; fq 2; fq 3; fq 4; fq 5] /\
  snd (prod_retr (make ms [true; false] [3; 2]%nat) st 0 1 3) 3%nat =
    full [fadd (fq 1) (fmul (fq 2) (fq 6)); fadd (fq 2) (fmul (fq 2) (fq 7)); fadd (fq 3) (fmul (fq 2) (fq 8));
          fadd (fq 4) (fq 9); fadd (fq 5) (fq 10)] /\
  total_manis (make ms [true; false] [3; 2]%nat) = 5%nat.
Proof. repeat split. Qed.
End example.
(** Transports that multiply by 2 on component 0 and by 3 on component 1. *)
Example C55_tran_example : exists (P Q : nat -> rmat) (hinv tranh : nat -> nat -> nat -> rmat -> rmat),
  (forall j s l M r c, hinv j s (s + l)%nat M r c = right_block s l (P j) M r c) /\
  (forall j s l M r c, tranh j s (s + l)%nat M r c = left_block s l (Q j) M r c) /\
  P 0%nat 0%nat 0%nat = 2%R /\ P 1%nat 0%nat 0%nat = 3%R.
Proof.
  exists (fun j r c => if Nat.eqb r c then match j with O => 2%R | _ => 3%R end else 0%R),
         (fun j r c => if Nat.eqb r c then match j with O => 2%R | _ => 3%R end else 0%R),
         (fun j s e M => right_block s (e - s) (fun r c => if Nat.eqb r c then match j with O => 2%R | _ => 3%R end else 0%R) M),
         (fun j s e M => left_block s (e - s) (fun r c => if Nat.eqb r c then match j with O => 2%R | _ => 3%R end else 0%R) M).
  repeat split; intros; rewrite Nat.add_comm, Nat.add_sub; reflexivity.
Qed.
(** A component with an isometric transport. *)
Example C93_example : forall A : arith, forall f a e d u v,
  m_metric (line A) f d (m_vt (line A) f a e d u) (m_vt (line A) f a e d v) = m_metric (line A) f a u v.
Proof. reflexivity. Qed.
