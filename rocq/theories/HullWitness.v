(** The statements of the theorems about MinPNormConHull, collected, and concrete cases. *)
From mathcomp Require Import all_ssreflect all_algebra.
Require Import Ring Field.
From Verif Require Import MxTac StiefelModel StiefelSpec StiefelProofs ObjectiveModel ObjectiveSpec ObjectiveProofs ObjectiveCases HullModel HullSpec HullProofs.
Import Order.TTheory GRing.Theory Num.Theory.
Set Implicit Arguments.
Unset Strict Implicit.
Local Open Scope ring_scope.

Section facts.
Variables (R : rcfType) (d k : nat).
Local Notation l := (1 + k)%N.
Add Field fhull_field : (rcf_field R).
Variables (Ys : 'I_l -> 'cV[R]_d) (Hv : option ('cV[R]_d -> 'cV[R]_d)).
Variables (rtr : 'cV[R]_l -> 'cV[R]_l) (init : 'cV[R]_l).
Local Notation out := (min_norm_hull Ys Hv rtr init).
Local Notation P := (apply_Hv Hv).
Lemma outE : out = (inner (w Ys (rtr init)) (P (w Ys (rtr init))), w Ys (rtr init)).
Proof. by rewrite /min_norm_hull /= dotE. Qed.
Lemma fact_in_hull : on_sphere (rtr init) -> in_hull Ys out.2 /\ out.1 = sq_length Hv out.2.
Proof.
rewrite outE sq_lengthE /=; move: (rtr init) => x Hx; split=> //.
exists (fun i => x i 0 ^+ 2); split=> [i|]; first exact: sqr_ge0.
by rewrite wE; split=> //; rewrite -Hx inner_col; apply: eq_bigr => i _; rewrite expr2.
Qed.
Lemma fact_minimum : metric_operator Hv -> second_order (hull_grad Ys Hv) (hull_hess Ys Hv) (rtr init) ->
  (forall v, in_hull Ys v -> out.1 <= sq_length Hv v) /\
  ((forall u, u != 0 -> 0 < sq_length Hv u) -> forall v, in_hull Ys v -> sq_length Hv v = out.1 -> v = out.2).
Proof.
rewrite outE /=; move: (rtr init) => x HP Hs; have A := all_better Hs; split=> [v Hv'|Hd v Hv' E].
  have := @certificate R d k Ys Hv HP (w Ys x) 0 _ v Hv'; rewrite mulr0 subr0 sq_lengthE; apply=> i.
  by rewrite ?subr0; exact: A.
apply/eqP; rewrite -subr_eq0; apply/negPn/negP => /Hd; rewrite sq_lengthE.
case: Hv' => c [c0 [c1 Ev]].
have H1 : inner (w Ys x) (P (w Ys x)) <= inner v (P (w Ys x)).
  rewrite [in X in _ <= X]Ev inner_sum -[X in X <= _]mul1r -c1 mulr_suml; apply: ler_sum => i _.
  by rewrite ler_wpmul2l //; exact: A.
apply/negP; rewrite -leNgt -scaleN1r addrC (Plin HP) !innerDl !innerDr !innerZl !innerZr -((Pself HP) (w Ys x) v) (innerC (P (w Ys x))).
rewrite sq_lengthE in E; rewrite E; move: H1; rewrite -subr_ge0 -oppr_le0.
move: (inner v (P (w Ys x))) (inner (w Ys x) (P (w Ys x))) => b e H.
have -> : -1 * (-1 * e) + -1 * b + (-1 * b + e) = 2%:R * - (b - e) by rng R.
by rewrite mulr_ge0_le0 ?ler0n.
Qed.
Lemma fact_certificate (delta : R) : metric_operator Hv ->
  (forall i, out.1 - delta <= inner (Ys i) (if Hv is Some h then h out.2 else out.2)) ->
  forall v, in_hull Ys v -> out.1 - 2%:R * delta <= sq_length Hv v.
Proof.
rewrite outE /=; move: (rtr init) => x HP A v Hv'; rewrite sq_lengthE.
apply: (certificate HP _ Hv') => i; have := A i; rewrite /apply_Hv; by case: Hv.
Qed.
End facts.

Section zero.
Variables (R : rcfType) (d k : nat).
Local Notation l := (1 + k)%N.
Add Field zhull_field : (rcf_field R).
Variables (Ys : 'I_l -> 'cV[R]_d).
Lemma zero_second x : w Ys x = 0 -> second_order (hull_grad Ys None) (hull_hess Ys None) x.
Proof.
move=> H0; have E : egrad (convex_hull Ys None) x = 0.
  by apply/colP => i; rewrite ch_egrad !mxE -/(w Ys x) H0 /= inner0r mulr0.
split=> [|eta Ht].
  by rewrite /hull_grad -/(egrad _ _) E /grad_euclidean projE inner0r scale0r subrr.
rewrite /hull_hess -/(ehess _ _ _) -/(egrad _ _) hess_pair // E inner0r mul0r subr0 innerC.
pose b := combine Ys (hadamard x eta).
have -> : inner (ehess (convex_hull Ys None) x eta) eta = 8%:R * inner b b.
  have -> : ehess (convex_hull Ys None) x eta = 2%:R *: \col_i (4%:R * x i 0 * inner (Ys i) b).
    apply/colP => i; rewrite ch_ehess !mxE -/(w Ys x) H0 /= inner0r mulr0 add0r -/b; move: (x i 0) (inner _ _) => a c.
    by rewrite E8 E4; rng R.
  by rewrite innerZl hull_pair mulrA -/b -natrM.
by rewrite mulr_ge0 ?ler0n ?inner_ge0.
Qed.
End zero.

Section witness.
Variable R : rcfType.
Add Field whull_field : (rcf_field R).
(** The numbers 16 and -9, and the coefficients 9/25 and 16/25. *)
Definition wY (i : 'I_(1 + 1)) : 'cV[R]_1 := \col_j (if i == 0 then 16%:R else - 9%:R).
Definition wx : 'cV[R]_(1 + 1) := \col_i (if i == 0 then 3%:R / 5%:R else 4%:R / 5%:R).
Lemma wx_zero : w wY wx = 0.
Proof.
have H5 : (5%:R : R) != 0 by rewrite pnatr_eq0.
apply/colP => j; rewrite wE !big_ord_recl big_ord0 !mxE /= addr0 !expr_div_n mulrN -!natrX.
by rewrite -!mulrA ![_^-1 * _]mulrC !mulrA -!natrM subrr.
Qed.
Lemma wx_certificate i : (min_norm_hull wY None id wx).1 - 0 <= inner (wY i) (min_norm_hull wY None id wx).2.
Proof. by rewrite outE /= wx_zero !inner0r subr0. Qed.
Lemma wx_ok : on_sphere wx /\ second_order (hull_grad wY None) (hull_hess wY None) wx /\ metric_operator (@None ('cV[R]_1 -> 'cV[R]_1)).
Proof.
have H5 : (5%:R : R) != 0 by rewrite pnatr_eq0.
split; last split=> //.
  rewrite /on_sphere inner_col !big_ord_recl big_ord0 !mxE /= addr0 -!expr2 !expr_div_n -mulrDl -!natrX -natrD.
  by rewrite mulfV // pnatr_eq0.
exact: zero_second wx_zero.
Qed.
(** The numbers 2 and 1, started at the first one. *)
Definition rY (i : 'I_(1 + 1)) : 'cV[R]_1 := \col_j (if i == 0 then 2%:R else 1).
Definition rx : 'cV[R]_(1 + 1) := \col_i (if i == 0 then 1 else 0).
Lemma fact_first_order : on_sphere rx /\ hull_grad rY None rx = 0 /\
  exists v, in_hull rY v /\ sq_length None v < (min_norm_hull rY None id rx).1.
Proof.
have Ew : w rY rx = \col_j 2%:R.
  by apply/colP => j; rewrite wE !big_ord_recl big_ord0 !mxE /= ?addr0 expr1n expr0n mul1r mul0r addr0.
have E1 (a b : 'cV[R]_1) : inner a b = a 0 0 * b 0 0 by rewrite -dotE /dot !big_ord1.
split; first by rewrite /on_sphere inner_col !big_ord_recl big_ord0 !mxE /= mul1r mul0r !addr0.
split.
  apply/colP => i; rewrite gradE multiplier /g Ew /= !E1 !mxE.
  case: (i == 0) => /=; last by rewrite !(mulr0, mul0r, addr0, subr0).
  by rewrite !mulr1 subrr mulr0 add0r subrr.
exists (rY 1); split.
  exists (fun i => if i == 0 then 0 else 1); split=> [i|]; first by case: ifP; rewrite ?ler01.
  by rewrite !big_ord_recl !big_ord0 /= scale0r scale1r !add0r !addr0; split=> //; congr rY; exact: val_inj.
rewrite outE /= Ew /sq_length !E1 !mxE /= mul1r -natrM ltr1n; reflexivity.
Qed.
End witness.
