(** Summaries of the proofs about objective functions, and concrete data. *)
From mathcomp Require Import all_ssreflect all_algebra.
From Verif Require Import MxTac StiefelModel StiefelSpec StiefelProofs ObjectiveModel ObjectiveSpec ObjectiveProofs ObjectiveCases ObjectiveFacts.
Import Order.Theory GRing.Theory Num.Theory.
Set Implicit Arguments.
Unset Strict Implicit.
Local Open Scope ring_scope.

Section all.
Variable R : rcfType.
Lemma lyapunov_ok n p c (A M : 'M[R]_n) (C : 'M[R]_(n, c)) : symmetric A -> symmetric M ->
  (forall x, value (lyapunov p A M C) x = \tr (x *m x^T *m A *m x *m x^T *m M) - \tr (x *m x^T *m C *m C^T)) /\
  derivatives_of (@inner R n p) (lyapunov p A M C) (value (lyapunov p A M C)).
Proof.
move=> HA HM; split=> [x|x]; first exact: ly_doc.
by split=> [|eta]; [exact: ly_gradient|exact: ly_hessian].
Qed.
Lemma completion_ok m n r nz (ir : 'I_nz -> 'I_m) (jc : 'I_nz -> 'I_n) (vals : 'rV[R]_nz) :
  (forall x, value (mat_completion r ir jc vals) x = half R * \sum_t ((x.1 *m x.2^T) (ir t) (jc t) - vals 0 t) ^+ 2) /\
  derivatives_of (@inner2 R m r n r) (mat_completion r ir jc vals) (value (mat_completion r ir jc vals)).
Proof.
split=> [x|x]; first exact: mc_doc.
by split=> [|eta]; [exact: mc_gradient|exact: mc_hessian].
Qed.
Lemma hull_ok d l (W : 'I_l -> 'cV[R]_d) (Hv : option ('cV[R]_d -> 'cV[R]_d)) :
  (forall h, Hv = Some h -> (forall k u v, h (k *: u + v) = k *: h u + h v) /\ (forall u v, inner (h u) v = inner u (h v))) ->
  (forall x : 'cV[R]_l, let w := \sum_i (x i 0) ^+ 2 *: W i in
     value (convex_hull W Hv) x = inner w (if Hv is Some h then h w else w)) /\
  derivatives_of (@inner R l 1) (convex_hull W Hv) (value (convex_hull W Hv)).
Proof.
move=> H.
have Hl : forall k u v, apply_Hv Hv (k *: u + v) = k *: apply_Hv Hv u + apply_Hv Hv v.
  by case: Hv H => [h|] // /(_ h erefl) [].
have Hs : forall u v, inner (apply_Hv Hv u) v = inner u (apply_Hv Hv v).
  by case: Hv H {Hl} => [h|] // /(_ h erefl) [].
split=> [x w|x].
- rewrite /value /= dotE combineE /apply_Hv.
  have -> : \sum_i hadamard x x i 0 *: W i = w by apply: eq_bigr => i _; rewrite mxE expr2.
  by case: (Hv).
- by split=> [|eta]; [exact: ch_gradient|exact: ch_hessian].
Qed.
Lemma spca_full m n p r lambda (B : 'M[R]_(m, n)) (U : 'M[R]_(m, r)) (S : 'rV[R]_r) (Vt : 'M[R]_(r, n)) (s0 : R) :
  B = U *m diag_mx S *m Vt -> orthonormal U -> Vt *m Vt^T = 1%:M -> (forall i, 0 <= S 0 i <= s0) ->
  let smooth (x : 'M[R]_(n, p)) := - \tr (x^T *m B^T *m B *m x) in
  (forall x, value (stie_spca p lambda B) x = smooth x + lambda * norm1 x) /\
  derivatives_of (@inner R n p) (stie_spca p lambda B) smooth /\
  lipschitz_bound (@inner R n p) smooth (egrad (stie_spca p lambda B)) (spca_L s0).
Proof.
move=> E HU HV HS smooth; have [H1 H2] := spca_ok p lambda B; split; [exact: H1|split; [exact: H2|]].
apply: (spca_bound lambda E HU HV HS).
Qed.
Lemma sparsest_ok m n (Q : 'M[R]_(m, n)) :
  (forall x, value (sparsest Q) x = norm1 (Q *m x)) /\
  (forall x y, value (sparsest Q) x + inner (egrad (sparsest Q) x) (y - x) <= value (sparsest Q) y) /\
  (forall x, (forall i, (Q *m x) i 0 != 0) -> is_gradient (@inner R n 1) (value (sparsest Q)) x (egrad (sparsest Q) x)).
Proof. by split; [exact: sv_value|split; [exact: sv_subgradient|exact: sv_gradient]]. Qed.

(** A symmetric matrix that is not diagonal. *)
Definition wsym : 'M[R]_2 := \matrix_(i, j) (i + j)%:R.
Lemma wsym_sym : symmetric wsym /\ wsym 0 1 = 1.
Proof. by split; [apply/matrixP => i j; rewrite !mxE addnC|rewrite mxE]. Qed.
(** A matrix that is not symmetric. *)
Definition wskew : 'M[R]_2 := \matrix_(i, j) i%:R.
Lemma wskew_not : ~ symmetric wskew.
Proof.
move=> H; have := congr1 (fun M : 'M_2 => M 0 1) H; rewrite !mxE /= => E.
by have := @oner_neq0 R; rewrite -[1]/(1%:R) E eqxx.
Qed.
Definition wone : 'cV[R]_2 := const_mx 1.
Definition wQ : 'M[R]_2 := const_mx 1.
Lemma wQ_ok : (forall i, (wQ *m wone) i 0 != 0) /\ wone <> 0.
Proof.
split=> [i|H].
- rewrite mxE (eq_bigr (fun=> 1)); last by move=> j _; rewrite !mxE mulr1.
  by rewrite sumr_const card_ord; apply: lt0r_neq0; exact: ltr0Sn.
- by have := congr1 (fun M : 'cV_2 => M 0 0) H; rewrite !mxE => /eqP; rewrite oner_eq0.
Qed.
Definition wS : 'rV[R]_2 := \row_i (i.+1)%:R.
Lemma wS_ok : let B : 'M[R]_2 := diag_mx wS in B = 1%:M *m diag_mx wS *m 1%:M /\ orthonormal (1%:M : 'M[R]_2) /\
  (1%:M : 'M[R]_2) *m 1%:M^T = 1%:M /\ (forall i, 0 <= wS 0 i <= 2%:R).
Proof.
split; first by rewrite mul1mx mulmx1. split; first by rewrite /orthonormal trmx1 mul1mx.
split; first by rewrite trmx1 mul1mx.
by move=> i; rewrite mxE ler0n ler_nat ltn_ord.
Qed.
Lemma whv_ok : let h : 'cV[R]_2 -> 'cV[R]_2 := mulmx wsym in
  (forall k u v, h (k *: u + v) = k *: h u + h v) /\ (forall u v, inner (h u) v = inner u (h v)).
Proof.
split=> [k u v|u v]; first by rewrite mulmxDr -scalemxAr.
by rewrite inner_mull (proj1 wsym_sym).
Qed.
End all.
