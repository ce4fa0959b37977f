(** The lemmas of FixedRankQ2F put together, and examples. *)
From mathcomp Require Import all_ssreflect all_algebra.
Require Import Ring Field.
From Verif Require Import MxTac StiefelModel StiefelSpec StiefelProofs SPDSpec SymFRSpec SymFRProofs SymFRIntr Decomp Eckart.
From Verif Require Import Q2FModel Q2FSpec Q2FProofs Q2FIntr Q2FRetr.
Import Order.TTheory GRing.Theory Num.Theory.
Set Implicit Arguments.
Unset Strict Implicit.
Local Open Scope ring_scope.

Section facts.
Variable R : rcfType.
Add Field q2ff_field : (rcf_field R).
Variables r a b : nat.
Local Notation vec := (pair_ R r a b).
Implicit Types x y eta xi : vec.
Lemma fact_positive x : is_point x -> (forall v, vertical x v <-> metric x v v = 0) /\
  forall eta, horizontal x eta -> 0 <= metric x eta eta /\ (metric x eta eta = 0 -> eta = zerop R r a b).
Proof.
move=> Hx; split=> [v|eta He].
  rewrite metricE vertical_lift //; split=> [->|/inner_eq0 //]; by rewrite inner0l.
rewrite metricE; split; first exact: inner_ge0.
by move/inner_eq0/(lift_kernel Hx) => Hv; apply: (vh_zero Hx).
Qed.
Lemma fact_projection CHOL x eta : chol_ok CHOL -> is_point x -> let h := projection CHOL x eta in
  [/\ horizontal x h, vertical x (subp eta h), lift x h = lift x eta &
      forall h', horizontal x h' -> vertical x (subp eta h') -> h' = h].
Proof.
move=> HC Hx h; split; [exact: proj_hor|exact: proj_ver|exact: proj_lift|].
by move=> h' H1 H2; exact: proj_unique.
Qed.
Lemma fact_gradient CHOL x egf : chol_ok CHOL -> is_point x -> invariant_at x egf -> let g := gradient CHOL x egf in
  [/\ horizontal x g, forall xi, metric x g xi = pairing egf xi &
      forall h, horizontal x h -> (forall xi, horizontal x xi -> metric x h xi = pairing egf xi) -> h = g].
Proof.
move=> HC Hx Hi g; split; [exact: grad_hor|by move=> xi; rewrite metricE grad_rep|].
by move=> h Hh E; apply: grad_unique => // xi Hxi; rewrite -metricE E.
Qed.
Lemma fact_gradient_product CHOL x E : chol_ok CHOL -> is_point x ->
  invariant_at x (egrad_of x E) /\ normal_at x (E - lift x (gradient CHOL x (egrad_of x E))).
Proof. by move=> HC Hx; split; [exact: egrad_inv|exact: grad_normal]. Qed.
Lemma fact_hessian CHOL x E D eta xi zeta (A := fst_ xi *m (snd_ eta)^T + fst_ eta *m (snd_ xi)^T + lift x zeta) :
  chol_ok CHOL -> is_point x -> normal_at x A ->
  metric x (hessian CHOL x (egrad_of x E) eta (egrad_diff x eta E D)) xi = inner D (lift x xi) + inner E A.
Proof. by move=> HC Hx HA; rewrite metricE; exact: hess_normal. Qed.
Lemma fact_egrad_diff x eta (E D : 'M[R]_(r + a, r + b)) t : egrad_of (addp x (scalep t eta)) (E + t *: D) =
  addp (addp (egrad_of x E) (scalep t (egrad_diff x eta E D))) (scalep (t ^+ 2) (egrad_of eta D)).
Proof.
apply: pair_eq; rewrite /= ?trD ?trZ !mulmxDl !mulmxDr !mulZl !mulZr.
  rewrite scalerA -expr2 scalerDr !addrA; congr (_ + _); exact: addrAC.
rewrite scalerA -expr2 scalerDr !addrA; congr (_ + _); exact: addrAC.
Qed.
Lemma fact_self CHOL x E D1 D2 eta xi : chol_ok CHOL -> is_point x -> inner D1 (lift x xi) = inner (lift x eta) D2 ->
  metric x (hessian CHOL x (egrad_of x E) eta (egrad_diff x eta E D1)) xi =
  metric x eta (hessian CHOL x (egrad_of x E) xi (egrad_diff x xi E D2)).
Proof. by move=> HC Hx HD; rewrite !metricE; apply: hess_self => //; rewrite HD innerC. Qed.
Lemma fact_coords CHOL x QG RG QH RH eta xi : chol_ok CHOL -> is_point x -> is_hhr (fst_ x) QG RG -> is_hhr (snd_ x) QH RH ->
  let f := obtain_intr QG RG QH RH in let g := obtain_extr QG RG QH RH in
  [/\ size (f eta) = intr_dim r a b, vdot (f eta) (f xi) = metric x eta xi, g (f eta) = projection CHOL x eta,
      horizontal x eta -> g (f eta) = eta &
      forall v, size v = intr_dim r a b -> horizontal x (g v) /\ f (g v) = v].
Proof.
move=> HC Hx H1 H2 f g; have E : g (f eta) = projection CHOL x eta by exact: intr_extr.
split=> //; [exact: (intr_size H1 H2)|exact: (intr_inner H1 H2)|by move=> H; rewrite E proj_same|].
by move=> v Hv; split; [exact: (extr_hor Hx H1 H2)|exact: (extr_intr Hx H1 H2)].
Qed.
Lemma fact_transport x y QGx RGx QHx RHx QGy RGy QHy RHy xi zeta : is_point x -> is_point y ->
  is_hhr (fst_ x) QGx RGx -> is_hhr (snd_ x) QHx RHx -> is_hhr (fst_ y) QGy RGy -> is_hhr (snd_ y) QHy RHy ->
  let T := transport_extr QGx RGx QHx RHx QGy RGy QHy RHy in
  [/\ horizontal y (T xi), metric y (T xi) (T zeta) = metric x xi zeta,
      transport_coords (obtain_intr QGx RGx QHx RHx xi) = obtain_intr QGy RGy QHy RHy (T xi) &
      horizontal x xi -> transport_extr QGy RGy QHy RHy QGx RGx QHx RHx (T xi) = xi].
Proof.
move=> Hx Hy H1 H2 H3 H4 T.
have [CHOL HC] := chol_function R r.
have E z : obtain_intr QGy RGy QHy RHy (T z) = obtain_intr QGx RGx QHx RHx z.
  by rewrite /T /transport_extr (extr_intr Hy H3 H4) // (intr_size H1 H2).
split; [exact: (extr_hor Hy H3 H4)| |by rewrite E|].
  by rewrite -(intr_inner H3 H4) !E (intr_inner H1 H2).
by move=> Hxi; rewrite {1}/transport_extr E (intr_extr Hx H1 H2 xi HC) (proj_same HC).
Qed.
Lemma fact_inverse CHOL x QGx RGx QHx RHx QGy RGy QHy RHy (xiy : vec) : chol_ok CHOL -> is_point x ->
  is_hhr (fst_ x) QGx RGx -> is_hhr (snd_ x) QHx RHx ->
  inverse_transport_extr QGx RGx QHx RHx QGy RGy QHy RHy xiy = projection CHOL x xiy.
Proof. by move=> HC Hx H1 H2; exact: intr_extr. Qed.

(** A point, for all sizes. *)
Lemma full_id k : full_rank (col_mx 1%:M 0 : 'M[R]_(r + k, r)).
Proof.
by move=> v; rewrite mul_col_mx mul1mx => H; have := congr1 usubmx H; rewrite col_mxKu => ->; apply/matrixP => i j; rewrite !mxE.
Qed.
Lemma some_point : is_point (Pair (col_mx 1%:M 0) (col_mx 1%:M 0) : vec).
Proof. by split; exact: full_id. Qed.
Lemma some_routines : (r <= a)%N -> (r <= b)%N -> exists QRa QRb SVD,
  [/\ forall A : 'M[R]_(r + a, r + r), qr_at QRa A, forall A : 'M[R]_(r + b, r + r), qr_at QRb A &
      forall A : 'M[R]_(r + r), svd_desc SVD A].
Proof.
move=> Ha Hb; have [QRa H1] := @qr_function R (r + a) (r + r) (ltac:(by rewrite leq_add2l)).
have [QRb H2] := @qr_function R (r + b) (r + r) (ltac:(by rewrite leq_add2l)).
by have [SVD H3] := svd_function_sorted R (r + r); exists QRa, QRb, SVD.
Qed.
Lemma some_hhr x : exists QG RG QH RH, is_hhr (fst_ x) QG RG /\ is_hhr (snd_ x) QH RH.
Proof.
have [QG [RG H1]] := hhr_exists (fst_ x); have [QH [RH H2]] := hhr_exists (snd_ x).
by exists QG, RG, QH, RH.
Qed.
Lemma narrow QRa QRb SVD x eta : (a < r)%N \/ (b < r)%N -> proj_retraction QRa QRb SVD x eta = None.
Proof. by rewrite /proj_retraction !ltn_add2l => [[->|->]]; rewrite ?orbT. Qed.
Lemma proj_collapse QRa QRb SVD : (forall A : 'M[R]_(r + a, r + r), qr_at QRa A) ->
  (forall A : 'M[R]_(r + b, r + r), qr_at QRb A) -> (forall A : 'M[R]_(r + r), svd_desc SVD A) ->
  (r <= a)%N -> (r <= b)%N -> (0 < r)%N -> forall x, is_point x ->
  exists eta y, [/\ horizontal x eta, proj_retraction QRa QRb SVD x eta = Some y & ~ is_point y].
Proof.
move=> Ha Hb Hs Hra Hrb Hr x Hx; have Hh : horizontal x (scalep (- half R) x) by apply: hor_scale; exact: point_hor.
have [y [E _ [P _]]] := proj_retr_spec Ha Hb Hs Hra Hrb x (scalep (- half R) x).
exists (scalep (- half R) x), y; split=> // /P.
have -> : product x + lift x (scalep (- half R) x) = 0.
  rewrite liftZ /lift -/(product x) scaleNr scalerDr -scalerDl (half2 R) scale1r subrr //.
by rewrite mxrank0 leqNgt Hr.
Qed.
End facts.

(** A case in which the inverse transport fails: 1 x 1 matrices, x = (1, 1), y = (2, 1). *)
Section witness.
Variable R : rcfType.
Add Field q2fw_field : (rcf_field R).
Local Notation c := (fun t : R => const_mx t : 'M[R]_(1 + 0, 1)).
Definition wx : pair_ R 1 0 0 := Pair (c 1) (c 1).
Definition wy : pair_ R 1 0 0 := Pair (c 2%:R) (c 1).
Lemma full1 (t : R) : t != 0 -> full_rank (c t).
Proof.
move=> Ht v /matrixP E; apply/matrixP => i j; have := E 0 j; rewrite !ord1 !mxE big_ord1 mxE => /eqP.
by rewrite mulf_eq0 (negbTE Ht) /= => /eqP.
Qed.
Lemma hhr1 (t : R) : is_hhr (c t) 1%:M (const_mx t).
Proof.
split.
- by rewrite /orthonormal trmx1 mul1mx.
- rewrite trmx1 mul1mx; apply/matrixP => i j; rewrite !mxE; case: splitP => k _; rewrite mxE //; by case: k.
by move=> i j; rewrite !ord1.
Qed.
Lemma wx_point : is_point wx.
Proof. by split; apply: full1; exact: oner_neq0. Qed.
Lemma wy_point : is_point wy.
Proof. by split; apply: full1; rewrite ?oner_neq0 // pnatr_eq0. Qed.
Lemma sz1 n : (nat_of_ord (@ord0 n)) = 0%N.
Proof. by []. Qed.
Lemma inverse_refuted : ~ (forall (x y : pair_ R 1 0 0) QGx RGx QHx RHx QGy RGy QHy RHy xi,
  is_point x -> is_point y -> is_hhr (fst_ x) QGx RGx -> is_hhr (snd_ x) QHx RHx ->
  is_hhr (fst_ y) QGy RGy -> is_hhr (snd_ y) QHy RHy -> horizontal x xi ->
  inverse_transport_extr QGx RGx QHx RHx QGy RGy QHy RHy (transport_extr QGx RGx QHx RHx QGy RGy QHy RHy xi) = xi).
Proof.
move=> H; have := H wx wy 1%:M (const_mx 1) 1%:M (const_mx 1) 1%:M (const_mx 2%:R) 1%:M (const_mx 1) wx
  wx_point wy_point (hhr1 1) (hhr1 1) (hhr1 2%:R) (hhr1 1) (point_hor wx_point).
have [CHOL HC] := chol_function R 1.
rewrite (fact_inverse _ _ _ _ _ HC wx_point (hhr1 1) (hhr1 1)) => E.
have := congr1 (lift wx) E; rewrite (proj_lift HC wx_point); move: (fact_transport wx wx wx_point wy_point
  (hhr1 1) (hhr1 1) (hhr1 2%:R) (hhr1 1)) => /=.
move: (transport_extr _ _ _ _ _ _ _ _ _) => t [Hh Hm _ _] /matrixP /(_ 0 0) El.
move: Hm; rewrite !metricE !inner_sum !big_ord1 /=.
have [K [Z1 [Z2 [/matrixP /(_ 0 0) E1 /matrixP /(_ 0 0) E2 E3 E4]]]] := Hh.
move: El; rewrite /lift E3 E4 /=.
rewrite !mxE !big_ord1 !mxE !big_ord1 !mxE in E1 E2 *.
have Z10 : Z1 0 0 = 0 by move/eqP: E1; rewrite mulf_eq0 pnatr_eq0 /= => /eqP.
rewrite mul1r in E2; rewrite Z10 E2 !addr0 !mulr1 !mul1r; move: (K 0 0) => k H1 H2.
rewrite !mulr_natl !mulr2n in H1 H2.
have C (u : R) : (u + u + (u + u)) * (u + u + (u + u)) = (u + u + u) * (u + u + u) + u * u *+ 7.
  by rewrite !mulrS mulr0n; rng R.
have E7 : k * k *+ 7 = 0 by move: H2; rewrite C H1 => /eqP; rewrite -subr_eq0 addrAC subrr add0r => /eqP.
move/eqP: E7; rewrite mulrn_eq0 /= mulf_eq0 orbb => /eqP k0; move: H1; rewrite k0 !addr0 => /esym/eqP.
by rewrite -mulr2n pnatr_eq0.
Qed.
End witness.
