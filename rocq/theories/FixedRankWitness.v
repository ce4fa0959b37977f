(** Concrete matrices of rank one: the theorems' hypotheses hold of them, and the refutations use
    them. *)
From mathcomp Require Import all_ssreflect all_algebra.
Require Import Ring Field.
From Verif Require Import MxTac StiefelModel StiefelSpec StiefelProofs StiefelRetr StiefelPolar StiefelWitness.
From Verif Require Import FixedRankModel FixedRankSpec FixedRankProofs FixedRankOps FixedRankCurve FixedRankRetr FixedRankHess.
Import Order.TTheory GRing.Theory Num.Theory.
Set Implicit Arguments.
Unset Strict Implicit.
Local Open Scope ring_scope.

Section witness.
Variable R : rcfType.
Add Field frw_field : (rcf_field R).
(** x = e1 2 e1^T in 2 x 2 matrices, and a direction with all three parts. *)
Definition fx : point R 1 1 1 := Point (hx R *m 2%:R%:M *m (hx R)^T) (hx R) 2%:R%:M (hx R).
Definition fe : fields R 1 1 1 := Fields (he R) 1%:M (2%:R *: he R).
Definition fE : 'M[R]_(1 + 1, 1 + 1) := assemble fx fe.
Definition fG : 'M[R]_(1 + 1, 1 + 1) := mx _ _ [:: [:: 1; 2%:R]; [:: 3%:R; 4%:R]].
Lemma two_unit : (2%:R%:M : 'M[R]_1) \in unitmx.
Proof. by rewrite unitmxE det_scalar expr1 unitfE pnatr_eq0. Qed.
Lemma fx_on : on_manifold fx.
Proof. by split; rewrite /fx /=; [exact: hx_orth|exact: hx_orth|exact: two_unit|]. Qed.
Lemma he_h0 : (hx R)^T *m he R = 0.
Proof. exact: he_h. Qed.
Lemma fe_rep : represents fx fe fE.
Proof.
split; first exact: assembleE.
  exact: he_h0.
by rewrite /= mulZr he_h0 scaler0.
Qed.
Definition ft : tvec R 1 1 1 := Tvec fE fe.
Lemma ft_tangent : is_tangent fx ft.
Proof. exact: fe_rep. Qed.
Lemma qr_svd1 q (A : 'M[R]_(1 + q, 1)) : 0 < inner A A -> lapack_ok (@qr1 R (1 + q)) (@svd1 R 1) A.
Proof.
move=> H; split; first exact: qr1_at.
apply: svd1_at; rewrite /qr1 /=.
have Hn : norm1 A != 0 by rewrite sqrtr_eq0 -ltNge.
rewrite /inner tr_scalar_mx -scalar_mxM mxtrace_scalar mulr1n -expr2 lt_neqAle eq_sym sqrf_eq0 Hn sqr_ge0. by [].
Qed.
Lemma line1 q (u d : 'M[R]_(1 + q, 1)) (t : R) : orthonormal u -> u^T *m d = 0 -> 0 < inner (u + t *: d) (u + t *: d).
Proof.
move=> Hu Hd; apply: tangent_pos => //; rewrite /tangent /skew mulZr Hd scaler0 trmx0 oppr0. by [].
Qed.
Lemma lapU t : lapack_ok (@qr1 R (1 + 1)) (@svd1 R 1) (pU fx + t *: fdU fe).
Proof. apply: qr_svd1; apply: line1; [exact: hx_orth|exact: he_h0]. Qed.
Lemma lapV t : lapack_ok (@qr1 R (1 + 1)) (@svd1 R 1) (pV fx + t *: fdV fe).
Proof. apply: qr_svd1; apply: line1; [exact: hx_orth|rewrite /= mulZr he_h0 scaler0 //]. Qed.
Lemma lap0U : lapack_ok (@qr1 R (1 + 1)) (@svd1 R 1) (pU fx).
Proof. by have := lapU 0; rewrite scale0r addr0. Qed.
Lemma lap0V : lapack_ok (@qr1 R (1 + 1)) (@svd1 R 1) (pV fx).
Proof. by have := lapV 0; rewrite scale0r addr0. Qed.
Lemma he_neq0 : he R <> 0.
Proof. by move/matrixP => /(_ (lift ord0 ord0) ord0); rewrite !mxE /= => /eqP; rewrite oner_eq0. Qed.
Lemma he2_neq0 : 2%:R *: he R <> 0.
Proof. by move/eqP; rewrite scaler_eq0 pnatr_eq0 /= => /eqP /he_neq0. Qed.

(** A step to a singular D. *)
Definition fd : fields R 1 1 1 := Fields 0 (- 2%:R%:M) 0.
Lemma fd_rep : represents fx fd (assemble fx fd).
Proof. by split; [exact: assembleE|rewrite /= mulmx0|rewrite /= mulmx0]. Qed.
Lemma fd_off : ~ on_manifold (retraction (@qr1 R (1 + 1)) (@qr1 R (1 + 1)) (@svd1 R 1) fx fd).
Proof.
case=> _ _; rewrite /retraction /= subrr unitmxE det0 unitr0. by [].
Qed.

(** DiffRetraction: a negative multiple. *)
Definition fn : fields R 1 1 1 := Fields (he R) 0 (he R).
Definition fN : 'M[R]_(1 + 1, 1 + 1) := assemble fx fn.
Lemma fn_rep : represents fx fn fN.
Proof. by split; [exact: assembleE|exact: he_h0|exact: he_h0]. Qed.
Lemma lapn t : lapack_ok (@qr1 R (1 + 1)) (@svd1 R 1) (hx R + t *: he R).
Proof. apply: qr_svd1; apply: line1; [exact: hx_orth|exact: he_h0]. Qed.
Local Notation retr1 := (retraction (@qr1 R (1 + 1)) (@qr1 R (1 + 1)) (@svd1 R 1) fx).
Local Notation diff1 := (diff_retraction (@qr1 R (1 + 1)) (@qr1 R (1 + 1)) (@svd1 R 1) fx).
Lemma diff_neg_same : diff1 fn (retr1 fn) (scaleF (-1) fn) = diff1 fn (retr1 fn) (scaleF 1 fn).
Proof.
rewrite !diff_retr_fields; try exact: he_neq0.
by rewrite normrN scaleN1r scale1r /= oppr0.
Qed.
Lemma diff_nonzero d : diff1 fn (retr1 fn) (scaleF 1 fn) = Some d -> tE d <> 0.
Proof.
have HL := lapn 1; rewrite scale1r in HL.
rewrite diff_retr_fields; try exact: he_neq0.
move=> /Some_inj <- E0; set y := retr1 fn in E0.
have Hy : on_manifold y.
  have [_ [_ [_]]] := @retr_on _ _ _ _ (@qr1 R (1 + 1)) (@qr1 R (1 + 1)) (@svd1 R 1) fx fn HL HL.
  by apply; rewrite /= addr0; exact: two_unit.
have [d' [Ed [Td _]]] := diff_retr_velocity fx_on fn_rep ler01 he_neq0 he_neq0 lapn lapn.
move: Ed; rewrite diff_retr_fields; try exact: he_neq0.
move=> /Some_inj Ed; rewrite -Ed in Td; have := rep_unique Hy Td; rewrite E0 => /(congr1 (@fdU _ _ _ _)).
have -> : fdU (tF (projection y 0)) = 0.
  by rewrite /projection tFE fdUE mul0mx !mulmx0 subr0 /mdiv mul0mx.
rewrite tFE fdUE normr1 scale1r retr_U => Z.
have [_ [P [dP [HP [EP [_ EQ]]]]]] := diff_polar_ok 1 (svd_of_ok HL) (hx_orth R) (orth0_tangent he_h0).
move: EQ; rewrite Z mul0mx add0r scale1r => EQ.
have HU := posdef_unit HP.
have : he R = (hx R + he R) *m (invmx P *m dP) by rewrite EP mulmxA mulmxK.
move: (invmx P *m dP) => M /matrixP K.
have := K ord0 ord0; have := K (lift ord0 ord0) ord0.
rewrite !mxE !big_ord1 !mxE /= add0r addr0 !mul1r => <- /eqP; by rewrite eq_sym oner_eq0.
Qed.
Lemma vel1_neg (c : R -> R) a h : vel1 (fun t => c (1 + 1 * t)) a h -> vel1 (fun t => c (1 + -1 * t)) a (- h).
Proof.
move=> [C [e [e0 [e1 [C0 K]]]]]; exists C, e; do 3 split=> //.
move=> t Ht; have [|u [Hu Eu]] := K (- t); first by rewrite normrN.
exists u; split; first exact: Hu.
by move: Eu; rewrite mulN1r mul1r => ->; rng R.
Qed.
Lemma diff_neg_wrong : exists d, diff1 fn (retr1 fn) (scaleF (-1) fn) = Some d /\
  ~ velocity (fun t => pX (retr1 (scaleF (1 + -1 * t) fn))) (pX (retr1 fn)) (tE d).
Proof.
have [d [Ed [Td Vd]]] := diff_retr_velocity fx_on fn_rep ler01 he_neq0 he_neq0 lapn lapn.
exists d; split; first by rewrite diff_neg_same.
move=> /velocity_mvel V'; have V := velocity_mvel Vd.
apply: (diff_nonzero Ed); apply/matrixP => i j; rewrite [RHS]mxE.
have N : vel1 (fun t => pX (retr1 (scaleF (1 + -1 * t) fn)) i j) (pX (retr1 fn) i j) (- tE d i j).
  exact: (@vel1_neg (fun u => pX (retr1 (scaleF u fn)) i j)) (V i j).
have E2 := vel1_unique (V' i j) N; apply/eqP.
by move/eqP: E2; rewrite -subr_eq0 opprK -mulr2n mulrn_eq0.
Qed.
(** DiffRetraction: a direction that moves only D. *)
Definition fz : fields R 1 1 1 := Fields 0 1%:M 0.
Lemma fz_rep : represents fx fz (assemble fx fz).
Proof. by split; [exact: assembleE|rewrite /= mulmx0|rewrite /= mulmx0]. Qed.
Lemma diff_zero_none : diff1 fz (retr1 fz) fz = None.
Proof. by apply: diff_retr_none; left. Qed.

(** Vectors in memory: 0 has fields, 1 has none. *)
Definition fst : store R 1 1 1 := fun a => if a == 0%N then Slot fE (Some fe) else Slot fG None.
Lemma fst0 : sf (fst 0%N) = Some fe /\ represents fx fe (sE (fst 0%N)).
Proof. by split; [|exact: fe_rep]. Qed.
Lemma fst_wf c f : c = 0%N \/ c = 1%N -> sf (fst c) = Some f -> represents fx f (sE (fst c)).
Proof. by case=> ->; rewrite /fst //= => -[<-]; exact: fe_rep. Qed.

(** Householder: the point is already in triangular form. *)
Lemma q1_orth : orthonormal (1%:M : 'M[R]_(1 + 1)).
Proof. by rewrite /orthonormal trmx1 mulmx1. Qed.
Lemma q1_form : (1%:M : 'M[R]_(1 + 1))^T *m hx R = col_mx 1%:M 0.
Proof.
rewrite trmx1 mul1mx; apply/matrixP => i j; rewrite !mxE !ord1; case: splitP => a Ha; rewrite !mxE Ha ?(ord1 a) //=.
Qed.
Lemma fG_normal_part : normal_intr (1%:M : 'M[R]_(1 + 1)) (1%:M : 'M[R]_(1 + 1)) fG = 4%:R%:M.
Proof. by apply/matrixP => i j; rewrite intr_block trmx1 mul1mx mulmx1 !ord1 !mxE. Qed.

(** The curve of the retraction meets the hypotheses of the theorem on the Hessian. *)
Lemma fx_curve : let c := fun t => retr1 (scaleF t fe) in
  (exists d : R, 0 < d /\ forall t : R, `|t| <= d -> on_manifold (c t)) /\
  velocity (fun t => pU (c t)) (pU fx) (fdU fe) /\ velocity (fun t => pD (c t)) (pD fx) (fdD fe) /\
  velocity (fun t => pV (c t)) (pV fx) (fdV fe) /\ velocity (fun t => pX (c t)) (pX fx) (tE ft) /\
  velocity (fun t => fG + t *: fG) fG fG.
Proof.
move=> c; split; first exact: (retr_near fx_on fe_rep lapU lapV).
split; first by apply/mvel_velocity/(mvel_ext _ (polar_mvel lapU (on_U fx_on) (rep_U fe_rep))) => t; rewrite /c retr_U.
split; first by apply/mvel_velocity/mvel_line.
split; first by apply/mvel_velocity/(mvel_ext _ (polar_mvel lapV (on_V fx_on) (rep_V fe_rep))) => t; rewrite /c retr_V.
split; first exact: (retr_velocity fx_on fe_rep lapU lapV).
by apply/mvel_velocity/mvel_line.
Qed.
End witness.
