(** The lemmas of CFixedRankQ2F put together, and examples. *)
From mathcomp Require Import all_ssreflect all_algebra.
From mathcomp.real_closed Require Import complex.
Require Import Ring Field.
From Verif Require Import MxTac StiefelModel StiefelSpec CStieSpec CStieModel CMx CStieProofs CFrSpec CDecomp CEckart.
From Verif Require Import CQ2FModel CQ2FSpec CFr CQ2FProofs CQ2FIntr CQ2FRetr.
Import Order.TTheory GRing.Theory Num.Theory.
Set Implicit Arguments.
Unset Strict Implicit.
Local Open Scope ring_scope.
Local Open Scope complex_scope.

Section facts.
Variable R : rcfType.
Local Notation C := R[i].
Local Notation re := (@complex.Re R).
Local Notation im := (@complex.Im R).
Add Field cq2ff_field : (rcf_field R).
Add Ring cq2ff_field_r : (kring R).
Variables r a b : nat.
Local Notation vec := (cpair R r a b).
Implicit Types x y eta xi : vec.
Lemma fact_positive x : is_point x -> (forall v, vertical x v <-> metric x v v = 0) /\
  forall eta, horizontal x eta -> 0 <= metric x eta eta /\ (metric x eta eta = 0 -> eta = zerop R r a b).
Proof.
move=> Hx; split=> [v|eta He].
  rewrite metricE vertical_lift //; split=> [->|/cinner_eq0 //]; by rewrite cinner0l.
rewrite metricE; split; first exact: cinner_ge0.
by move/cinner_eq0/(lift_kernel Hx) => Hv; apply: (vh_zero Hx).
Qed.
Lemma fact_projection CHOL x eta : cchol_ok CHOL -> is_point x -> let h := projection CHOL x eta in
  [/\ horizontal x h, vertical x (subp eta h), lift x h = lift x eta &
      forall h', horizontal x h' -> vertical x (subp eta h') -> h' = h].
Proof.
move=> HC Hx h; split; [exact: proj_hor|exact: proj_ver|exact: proj_lift|].
by move=> h' H1 H2; exact: proj_unique.
Qed.
Lemma fact_gradient CHOL x egf : cchol_ok CHOL -> is_point x -> invariant_at x egf -> let g := gradient CHOL x egf in
  [/\ horizontal x g, forall xi, metric x g xi = pairing egf xi &
      forall h, horizontal x h -> (forall xi, horizontal x xi -> metric x h xi = pairing egf xi) -> h = g].
Proof.
move=> HC Hx Hi g; split; [exact: grad_hor|by move=> xi; rewrite metricE grad_rep|].
by move=> h Hh E; apply: grad_unique => // xi Hxi; rewrite -metricE E.
Qed.
Lemma fact_gradient_product CHOL x E : cchol_ok CHOL -> is_point x ->
  invariant_at x (egrad_of x E) /\ normal_at x (E - lift x (gradient CHOL x (egrad_of x E))).
Proof. by move=> HC Hx; split; [exact: egrad_inv|exact: grad_normal]. Qed.
Lemma fact_hessian CHOL x E D eta xi zeta (A := cfst xi *m (adj (csnd eta)) + cfst eta *m (adj (csnd xi)) + lift x zeta) :
  cchol_ok CHOL -> is_point x -> normal_at x A ->
  metric x (hessian CHOL x (egrad_of x E) eta (egrad_diff x eta E D)) xi = cinner D (lift x xi) + cinner E A.
Proof. by move=> HC Hx HA; rewrite metricE; exact: hess_normal. Qed.
Lemma fact_egrad_diff x eta (E D : 'M[C]_(r + a, r + b)) t : egrad_of (addp x (scalep t eta)) (E + t%:C *: D) =
  addp (addp (egrad_of x E) (scalep t (egrad_diff x eta E D))) (scalep (t ^+ 2) (egrad_of eta D)).
Proof.
apply: pair_eq; rewrite /= ?adjD ?adjR !mulmxDl !mulmxDr !kmulZl !kmulZr.
  rewrite scalerA -rcM -expr2 scalerDr !addrA; congr (_ + _); exact: addrAC.
rewrite scalerA -rcM -expr2 scalerDr !addrA; congr (_ + _); exact: addrAC.
Qed.
Lemma fact_self CHOL x E D1 D2 eta xi : cchol_ok CHOL -> is_point x -> cinner D1 (lift x xi) = cinner (lift x eta) D2 ->
  metric x (hessian CHOL x (egrad_of x E) eta (egrad_diff x eta E D1)) xi =
  metric x eta (hessian CHOL x (egrad_of x E) xi (egrad_diff x xi E D2)).
Proof. by move=> HC Hx HD; rewrite !metricE; apply: hess_self => //; rewrite HD cinnerC. Qed.
Lemma fact_coords CHOL x QG RG QH RH eta xi : cchol_ok CHOL -> is_point x -> is_chhr (cfst x) QG RG -> is_chhr (csnd x) QH RH ->
  let f := obtain_intr QG RG QH RH in let g := obtain_extr QG RG QH RH in
  [/\ size (f eta) = intr_dim r a b, vdot (f eta) (f xi) = metric x eta xi, g (f eta) = projection CHOL x eta,
      horizontal x eta -> g (f eta) = eta &
      forall v, size v = intr_dim r a b -> horizontal x (g v) /\ f (g v) = v].
Proof.
move=> HC Hx H1 H2 f g; have E : g (f eta) = projection CHOL x eta by exact: intr_extr.
split=> //; [exact: (intr_size H1 H2)|exact: (intr_inner H1 H2)|by move=> H; rewrite E proj_same|].
by move=> v Hv; split; [exact: (extr_hor Hx H1 H2)|exact: (extr_intr Hx H1 H2)].
Qed.
Lemma fact_transport x y QGx RGx QHx RHx QGy RGy QHy RHy xi zeta : is_point x -> is_point y ->
  is_chhr (cfst x) QGx RGx -> is_chhr (csnd x) QHx RHx -> is_chhr (cfst y) QGy RGy -> is_chhr (csnd y) QHy RHy ->
  let T := transport_extr QGx RGx QHx RHx QGy RGy QHy RHy in
  [/\ horizontal y (T xi), metric y (T xi) (T zeta) = metric x xi zeta,
      transport_coords (obtain_intr QGx RGx QHx RHx xi) = obtain_intr QGy RGy QHy RHy (T xi) &
      horizontal x xi -> transport_extr QGy RGy QHy RHy QGx RGx QHx RHx (T xi) = xi].
Proof.
move=> Hx Hy H1 H2 H3 H4 T.
have [CHOL HC] := chol_function R r.
have E z : obtain_intr QGy RGy QHy RHy (T z) = obtain_intr QGx RGx QHx RHx z.
  by rewrite /T /transport_extr (extr_intr Hy H3 H4) // (intr_size H1 H2).
split; [exact: (extr_hor Hy H3 H4)| |by rewrite E|].
  by rewrite -(intr_inner H3 H4) !E (intr_inner H1 H2).
by move=> Hxi; rewrite {1}/transport_extr E (intr_extr Hx H1 H2 xi HC) (proj_same HC).
Qed.
Lemma fact_inverse CHOL x QGx RGx QHx RHx QGy RGy QHy RHy (xiy : vec) : cchol_ok CHOL -> is_point x ->
  is_chhr (cfst x) QGx RGx -> is_chhr (csnd x) QHx RHx ->
  inverse_transport_extr QGx RGx QHx RHx QGy RGy QHy RHy xiy = projection CHOL x xiy.
Proof. by move=> HC Hx H1 H2; exact: intr_extr. Qed.

Lemma fact_dim : intr_dim r a b = (2 * (r * r + r * a + r * b))%N.
Proof. by rewrite dimE mul2n !doubleD. Qed.

(** A point, for all sizes. *)
Lemma full_id k : cfull_rank (col_mx 1%:M 0 : 'M[C]_(r + k, r)).
Proof.
by move=> v; rewrite mul_col_mx mul1mx => H; have := congr1 usubmx H; rewrite col_mxKu => ->; apply/matrixP => i j; rewrite !mxE.
Qed.
Lemma some_point : is_point (CPair (col_mx 1%:M 0) (col_mx 1%:M 0) : vec).
Proof. by split; exact: full_id. Qed.
Lemma some_routines : (r <= a)%N -> (r <= b)%N -> exists QRa QRb SVD,
  [/\ forall A : 'M[C]_(r + a, r + r), cqr_at QRa A, forall A : 'M[C]_(r + b, r + r), cqr_at QRb A &
      forall A : 'M[C]_(r + r), csvd_desc SVD A].
Proof.
move=> Ha Hb; have [QRa H1] := @qr_function R (r + a) (r + r) (ltac:(by rewrite leq_add2l)).
have [QRb H2] := @qr_function R (r + b) (r + r) (ltac:(by rewrite leq_add2l)).
by have [SVD H3] := svd_function_sorted R (r + r); exists QRa, QRb, SVD.
Qed.
Lemma some_hhr x : exists QG RG QH RH, is_chhr (cfst x) QG RG /\ is_chhr (csnd x) QH RH.
Proof.
have [QG [RG H1]] := hhr_exists (cfst x); have [QH [RH H2]] := hhr_exists (csnd x).
by exists QG, RG, QH, RH.
Qed.
Lemma narrow QRa QRb SVD x eta : (a < r)%N \/ (b < r)%N -> proj_retraction QRa QRb SVD x eta = None.
Proof. by rewrite /proj_retraction !ltn_add2l => [[->|->]]; rewrite ?orbT. Qed.
Lemma proj_collapse QRa QRb SVD : (forall A : 'M[C]_(r + a, r + r), cqr_at QRa A) ->
  (forall A : 'M[C]_(r + b, r + r), cqr_at QRb A) -> (forall A : 'M[C]_(r + r), csvd_desc SVD A) ->
  (r <= a)%N -> (r <= b)%N -> (0 < r)%N -> forall x, is_point x ->
  exists eta y, [/\ horizontal x eta, proj_retraction QRa QRb SVD x eta = Some y & ~ is_point y].
Proof.
move=> Ha Hb Hs Hra Hrb Hr x Hx; have Hh : horizontal x (scalep (- half R) x) by apply: hor_scale; exact: point_hor.
have [y [E _ [P _]]] := proj_retr_spec Ha Hb Hs Hra Hrb x (scalep (- half R) x).
exists (scalep (- half R) x), y; split=> // /P.
have -> : product x + lift x (scalep (- half R) x) = 0.
  rewrite liftZ /lift -/(product x) rcN scaleNr scalerDr -scalerDl (chalf2 R) scale1r subrr //.
by rewrite mxrank0 leqNgt Hr.
Qed.
End facts.

(** A case in which the inverse transport fails: 1 x 1 matrices, x = (1, 1), y = (2, 1). *)
Section witness.
Variable R : rcfType.
Local Notation C := R[i].
Local Notation re := (@complex.Re R).
Local Notation im := (@complex.Im R).
Add Field cq2fw_field : (rcf_field R).
Add Ring cq2fw_field_r : (kring R).
Local Notation c := (fun t : C => const_mx t : 'M[C]_(1 + 0, 1)).
Definition wx : cpair R 1 0 0 := CPair (c 1) (c 1).
Definition wy : cpair R 1 0 0 := CPair (c (1 + 1)) (c 1).
Lemma full1 (t : C) : t != 0 -> cfull_rank (c t).
Proof.
move=> Ht v /matrixP E; apply/matrixP => i j; have := E 0 j; rewrite !ord1 !mxE big_ord1 mxE => /eqP.
by rewrite mulf_eq0 (negbTE Ht) /= => /eqP.
Qed.
Lemma one_real : im (1 : C) = 0.
Proof. by []. Qed.
Lemma two_real : im (1 + 1 : C) = 0.
Proof. by rewrite imD /= addr0. Qed.
Lemma two_neq0 : (1 + 1 : C) != 0.
Proof. by rewrite -mulr2n pnatr_eq0. Qed.
Lemma hhr1 (t : C) : im t = 0 -> is_chhr (c t) 1%:M (const_mx t).
Proof.
move=> Ht; split.
- by rewrite /unitary adj1 mul1mx.
- rewrite adj1 mul1mx; apply/matrixP => i j; rewrite !mxE; case: splitP => k _; rewrite mxE //; by case: k.
- by move=> i j; rewrite !ord1.
by move=> i; rewrite mxE.
Qed.
Lemma wx_point : is_point wx.
Proof. by split; apply: full1; exact: oner_neq0. Qed.
Lemma wy_point : is_point wy.
Proof. by split; apply: full1; rewrite ?oner_neq0 ?two_neq0. Qed.
Lemma sz1 n : (nat_of_ord (@ord0 n)) = 0%N.
Proof. by []. Qed.
Lemma inverse_refuted : ~ (forall (x y : cpair R 1 0 0) QGx RGx QHx RHx QGy RGy QHy RHy xi,
  is_point x -> is_point y -> is_chhr (cfst x) QGx RGx -> is_chhr (csnd x) QHx RHx ->
  is_chhr (cfst y) QGy RGy -> is_chhr (csnd y) QHy RHy -> horizontal x xi ->
  inverse_transport_extr QGx RGx QHx RHx QGy RGy QHy RHy (transport_extr QGx RGx QHx RHx QGy RGy QHy RHy xi) = xi).
Proof.
move=> H; have := H wx wy 1%:M (const_mx 1) 1%:M (const_mx 1) 1%:M (const_mx (1 + 1)) 1%:M (const_mx 1) wx
  wx_point wy_point (hhr1 one_real) (hhr1 one_real) (hhr1 two_real) (hhr1 one_real) (point_hor wx_point).
have [CHOL HC] := chol_function R 1.
rewrite (fact_inverse _ _ _ _ _ HC wx_point (hhr1 one_real) (hhr1 one_real)) => E.
have := congr1 (lift wx) E; rewrite (proj_lift HC wx_point); move: (fact_transport wx wx wx_point wy_point
  (hhr1 one_real) (hhr1 one_real) (hhr1 two_real) (hhr1 one_real)) => /=.
move: (transport_extr _ _ _ _ _ _ _ _ _) => t [Hh Hm _ _] /matrixP /(_ 0 0) El.
move: Hm; rewrite !metricE !inner_sum !big_ord1 /=.
have [K [Z1 [Z2 [/matrixP /(_ 0 0) E1 /matrixP /(_ 0 0) E2 E3 E4]]]] := Hh.
move: El; rewrite /lift E3 E4 /=.
rewrite !mxE !big_ord1 !mxE !big_ord1 !mxE ?conjc1 ?cjD ?conjc1 in E1 E2 *.
have Z10 : Z1 0 0 = 0 by move/eqP: E1; rewrite mulf_eq0 (negbTE two_neq0) /= => /eqP.
rewrite mul1r in E2; rewrite Z10 E2 !conjc0 !addr0 !mulr1 !mul1r ?conjcK; move: (K 0 0) => k H1 H2.
rewrite !mulrDl !mul1r in H1 H2.
have S (u : C) : sqn (u + u + (u + u)) = sqn (u + u + u) + sqn u *+ 7.
  by rewrite /sqn !reD !imD !mulrS mulr0n; rng R.
have E7 : sqn k *+ 7 = 0 by move: H2; rewrite S H1 => /eqP; rewrite -subr_eq0 addrAC subrr add0r => /eqP.
have k0 : k = 0 by apply: sq2_eq0; move/eqP: E7; rewrite mulrn_eq0 /= => /eqP <-.
by move: H1 two_neq0; rewrite k0 !addr0 => <-; rewrite eqxx.
Qed.
End witness.
