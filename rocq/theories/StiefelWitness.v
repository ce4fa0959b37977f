(** Concrete points and vectors: the theorems' hypotheses hold of them, and the refutations use
    them. *)
From mathcomp Require Import all_ssreflect all_algebra.
Require Import Ring Field.
From Verif Require Import MxTac StiefelModel StiefelSpec StiefelProofs StiefelRetr StiefelIntr.
Import Order.TTheory GRing.Theory Num.Theory.
Set Implicit Arguments.
Unset Strict Implicit.
Local Open Scope ring_scope.

Section witness.
Variable R : rcfType.
Add Field witness_field : (rcf_field R).
(** A matrix from its rows. *)
Definition mx m n (l : seq (seq R)) : 'M[R]_(m, n) := \matrix_(i, j) nth 0 (nth [::] l i) j.
Definition th : R := 1 + 1 + 1.
Definition fo : R := 1 + 1 + 1 + 1.
Definition fi : R := 1 + 1 + 1 + 1 + 1.
Lemma th_neq0 : th != 0. Proof. by rewrite lt0r_neq0 // /th !addr_gt0 // ltr01. Qed.
Lemma fo_neq0 : fo != 0. Proof. by rewrite lt0r_neq0 // /fo !addr_gt0 // ltr01. Qed.
Lemma fi_neq0 : fi != 0. Proof. by rewrite lt0r_neq0 // /fi !addr_gt0 // ltr01. Qed.

(** n = 3, p = 2 *)
Definition wx : 'M[R]_(2 + 1, 2) := mx _ _ [:: [:: 1; 0]; [:: 0; 1]; [:: 0; 0]].
Definition weta : 'M[R]_(2 + 1, 2) := mx _ _ [:: [:: 0; 0]; [:: 0; 0]; [:: th / fo; th * fi / (fo * fo)]].
Definition wy : 'M[R]_(2 + 1, 2) :=
  mx _ _ [:: [:: fo / fi; - (th * th / (fi * fi))]; [:: 0; fo / fi]; [:: th / fi; th * fo / (fi * fi)]].
Definition wr : 'M[R]_2 := mx _ _ [:: [:: fi / fo; th * th / (fo * fo)]; [:: 0; fi / fo]].
Definition wri : 'M[R]_2 := mx _ _ [:: [:: fo / fi; - (th * th / (fi * fi))]; [:: 0; fo / fi]].
End witness.
Ltac mxcase := apply/matrixP; case=> [[|[|[|//]]] ?]; case=> [[|[|[|//]]] ?] //;
  rewrite !mxE ?big_ord_recr ?big_ord0 /= ?mxE /= ?mulr1n ?mulr0n.
Section facts.
Variable R : rcfType.
Add Field facts_field : (rcf_field R).
Lemma pyth : rmul R (th R) (th R) = rsub R (rmul R (fi R) (fi R)) (rmul R (fo R) (fo R)).
Proof. by rewrite /th /fo /fi; rng R. Qed.
Ltac num := move: (th_neq0 R) (fo_neq0 R) (fi_neq0 R) pyth;
  generalize (th R) (fo R) (fi R); let c := fresh in let d := fresh in let e := fresh in
  let Hc := fresh in let Hd := fresh in let He := fresh in let Hp := fresh in
  intros c d e Hc Hd He Hp; toR R; field [Hp]; repeat split; exact/eqP.
Lemma wx_orth : orthonormal (wx R).
Proof. by rewrite /orthonormal; mxcase; rng R. Qed.
Lemma weta_h : horizontal (wx R) (weta R).
Proof. by rewrite /horizontal; mxcase; rng R. Qed.
Lemma w_tangent m n (x v : 'M[R]_(m, n)) : horizontal x v -> tangent x v.
Proof. by rewrite /tangent /skew => ->; rewrite trmx0 oppr0. Qed.
Lemma w_qr : is_qr (wx R + weta R) (wy R) (wr R).
Proof.
split.
- by mxcase; num.
- by rewrite /orthonormal; mxcase; num.
- by case=> [[|[|[|//]]] ?]; case=> [[|[|[|//]]] ?] //; rewrite !mxE.
Qed.
Lemma wr_inv : wr R *m wri R = 1%:M.
Proof. by mxcase; num. Qed.
Lemma wr_unit : wr R \in unitmx.
Proof. by have [] := mulmx1_unit wr_inv. Qed.
Lemma wr_invE : invmx (wr R) = wri R.
Proof. by rewrite -[LHS]mulmx1 -wr_inv mulmxA mulVmx ?wr_unit // mul1mx. Qed.
Lemma wr_pos (i : 'I_2) : 0 < wr R i i.
Proof.
have H4 : 0 < fo R by rewrite /fo !addr_gt0 // ltr01.
have H5 : 0 < fi R by rewrite /fi !addr_gt0 // ltr01.
by case: i => [[|[|//]] ?]; rewrite mxE /= divr_gt0.
Qed.
Lemma wr_fix_columns m (Q : 'M[R]_(m, 2)) : fix_columns (wr R) Q = Q.
Proof. by apply/matrixP=> a i; rewrite mxE ltNge ltW ?wr_pos. Qed.

(** On the quotient, DiffRetraction's extrinsic value is not horizontal. *)
Lemma gr_diff_not_horizontal : ~ horizontal (wy R) (diff_qf (wr R) (wy R) (weta R)).
Proof.
rewrite /horizontal /diff_qf wr_fix_columns wr_invE /gemm /gemm0 !scale1r mulmxDr mulmxA.
have [_ -> _] := w_qr; rewrite mul1mx => /matrixP /(_ (lift ord0 ord0) ord0).
rewrite !mxE /= !big_ord_recr !big_ord0 /= !mxE !big_ord_recr !big_ord0 /= !mxE /= => H.
have : th R * th R * fo R / (fi R * fi R * fi R) = 0 by rewrite -[RHS]H; num.
apply/eqP.
by rewrite !mulf_neq0 ?invr_eq0 ?mulf_neq0 ?th_neq0 ?fo_neq0 ?fi_neq0.
Qed.

(** The Hessian conversions, n = 2 and p = 1, where the two metrics agree. *)
Definition hx : 'M[R]_(1 + 1, 1) := mx _ _ [:: [:: 1]; [:: 0]].
Definition he : 'M[R]_(1 + 1, 1) := mx _ _ [:: [:: 0]; [:: 1]].
Lemma hx_orth : orthonormal hx.
Proof. by rewrite /orthonormal; mxcase; rng R. Qed.
Lemma he_h : horizontal hx he.
Proof. by rewrite /horizontal; mxcase; rng R. Qed.
Lemma he_hT : he^T *m hx = 0.
Proof. by rewrite -[LHS]trmxK trM trmxK he_h trmx0. Qed.
Lemma metrics_agree (x v w : 'M[R]_(1 + 1, 1)) : tangent x v -> metric_canonical x v w = metric_euclidean v w.
Proof.
move=> H; rewrite metric_canE metric_eucE.
have -> : v^T *m x = 0.
  have E : (x^T *m v) 0 0 = 0 by exact: (skew_diag _ H).
  by apply/matrixP=> i j; rewrite !ord1 -[v^T *m x]trmxK trM trmxK mxE E mxE.
by rewrite /inner trmx0 mul0mx mxtrace0 mulr0 subr0.
Qed.
Lemma hess_differ : hess_canonical hx he 0 hx <> hess_euclidean hx he 0 hx.
Proof.
have -> : hess_euclidean hx he 0 hx = - he.
  rewrite /hess_euclidean /extr_projection /gemm /gemm0 !scale1r hx_orth trmx1.
  have -> : half R *: (1%:M + 1%:M) = 1%:M :> 'M[R]_1.
    by rewrite -mulr2n -scaler_nat scalerA /half mulVf ?pnatr_eq0 // scale1r.
  by mxz; rewrite -!mulmxA he_h he_hT; mxz; rewrite !scaler0 !addr0 !scaler0 add0r scaleN1r.
have -> : hess_canonical hx he 0 hx = - (half R *: he) - he.
  rewrite /hess_canonical /gemm /gemm0 !scale1r hx_orth he_h.
  rewrite he_hT.
  by rewrite trmx0; mxz; rewrite ?subr0 ?subrr ?scaler0; mxz; rewrite ?scaler0 ?addr0 ?add0r scaleN1r scaleNr.
move=> /matrixP /(_ (lift ord0 ord0) ord0); rewrite !mxE /= mulr1 => /eqP.
by rewrite -subr_eq0 opprK addrNK oppr_eq0 invr_eq0 pnatr_eq0.
Qed.

(** QR and SVD of a matrix with one column. *)
Definition norm1 m (A : 'M[R]_(m, 1)) : R := Num.sqrt (inner A A).
Definition qr1 m (A : 'M[R]_(m, 1)) : 'M[R]_(m, 1) * 'M[R]_1 := ((norm1 A)^-1 *: A, (norm1 A)%:M).
Definition svd1 m (A : 'M[R]_(m, 1)) : 'M[R]_(m, 1) * 'rV[R]_1 * 'M[R]_1 :=
  ((norm1 A)^-1 *: A, (\row_i norm1 A), 1%:M).
Lemma inner1 m (A : 'M[R]_(m, 1)) : A^T *m A = (inner A A)%:M.
Proof. by rewrite /inner trace_mx11 -mx11_scalar. Qed.
Lemma norm1_orth m (A : 'M[R]_(m, 1)) : 0 < inner A A -> orthonormal ((norm1 A)^-1 *: A).
Proof.
move=> H; rewrite /orthonormal; mxz; rewrite inner1 scalerA scale_scalar_mx; congr (_%:M).
have Hn : norm1 A != 0 by rewrite sqrtr_eq0 -ltNge.
have E : norm1 A * norm1 A = inner A A by rewrite -expr2 sqr_sqrtr // ltW.
by rewrite -E mulrA -[_ / _ * _]mulrA mulVf // mulr1 mulVf.
Qed.
Lemma qr1_at m (A : 'M[R]_(m, 1)) : 0 < inner A A -> qr_at (@qr1 m) A.
Proof.
move=> H; have Hn : norm1 A != 0 by rewrite sqrtr_eq0 -ltNge.
split=> /=; first by rewrite mul_mx_scalar scalerA divff // scale1r.
  exact: norm1_orth.
by move=> i j; rewrite !ord1.
Qed.
Lemma svd1_at m (A : 'M[R]_(m, 1)) : 0 < inner A A -> svd_at (@svd1 m) A.
Proof.
move=> H; have Hn : norm1 A != 0 by rewrite sqrtr_eq0 -ltNge.
split=> /=.
- have -> : diag_mx (\row_(i < 1) norm1 A) = (norm1 A)%:M by apply/matrixP=> i j; rewrite !mxE.
  by rewrite mulmx1 mul_mx_scalar scalerA divff // scale1r.
- exact: norm1_orth.
- by rewrite /orthonormal trmx1 mulmx1 trmx1.
- by move=> i; rewrite mxE sqrtr_ge0.
Qed.
Lemma tangent_pos m (x eta : 'M[R]_(m, 1)) : orthonormal x -> tangent x eta -> 0 < inner (x + eta) (x + eta).
Proof.
move=> Hx Ht; have E : (x^T *m eta) 0 0 = 0 by exact: (skew_diag _ Ht).
have H0 : x^T *m eta = 0 by apply/matrixP=> i j; rewrite !ord1 E mxE.
have H1 : eta^T *m x = 0 by rewrite -[LHS]trmxK trM trmxK H0 trmx0.
rewrite /inner; mxz; rewrite Hx H0 H1 add0r addr0 mxtraceD mxtrace1.
by rewrite ltr_paddr ?ltr01 // -/(inner eta eta) inner_ge0.
Qed.
End facts.
