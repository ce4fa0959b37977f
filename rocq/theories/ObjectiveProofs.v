(** Proofs that the gradients and Hessians of the objective functions are derivatives. *)
From mathcomp Require Import all_ssreflect all_algebra.
Require Import Ring Field.
From Verif Require Import MxTac StiefelModel StiefelSpec StiefelProofs ObjectiveModel ObjectiveSpec.
Import Order.Theory GRing.Theory Num.Theory.
Set Implicit Arguments.
Unset Strict Implicit.
Local Open Scope ring_scope.

Section general.
Variables (R : rcfType) (V : lmodType R) (ip : V -> V -> R).
Add Field general_field : (rcf_field R).
Hypothesis Hip : bilinear ip.

Lemma ipDl u v w : ip (u + v) w = ip u w + ip v w.
Proof. by have := ip_lin Hip 1 u v w; rewrite scale1r mul1r. Qed.
Lemma ip0l w : ip 0 w = 0.
Proof. by have := ipDl 0 0 w; rewrite addr0 -{1}(addr0 (ip 0 w)) => /addrI. Qed.
Lemma ipZl a u w : ip (a *: u) w = a * ip u w.
Proof. by have := ip_lin Hip a u 0 w; rewrite addr0 ip0l addr0. Qed.
Lemma ipDr u v w : ip w (u + v) = ip w u + ip w v.
Proof. by rewrite (ip_sym Hip) ipDl !(ip_sym Hip w). Qed.
Lemma ipZr a u w : ip w (a *: u) = a * ip w u.
Proof. by rewrite (ip_sym Hip) ipZl (ip_sym Hip w). Qed.

Lemma pow_le1 (t : R) k : `|t| <= 1 -> `|t ^+ k| <= 1.
Proof. by move=> H; rewrite normrX exprn_ile1. Qed.
Lemma sq_norm (t : R) : `|t ^+ 2| = t ^+ 2.
Proof. by rewrite ger0_norm // sqr_ge0. Qed.
Lemma term_le (a t : R) k : `|t| <= 1 -> `|t ^+ 2 * (t ^+ k * a)| <= `|a| * t ^+ 2.
Proof.
move=> H; rewrite normrM sq_norm normrM mulrC; apply: ler_wpmul2r; first exact: sqr_ge0.
by rewrite -[X in _ <= X]mul1r; apply: ler_wpmul2r; [exact: normr_ge0|exact: pow_le1].
Qed.
Lemma grad_poly f x g :
  (forall d, exists b c e, forall t : R, f (x + t *: d) = f x + t * ip g d + t ^+ 2 * b + t ^+ 3 * c + t ^+ 4 * e) ->
  is_gradient ip f x g.
Proof.
move=> H d; have [b [c [e E]]] := H d.
exists (`|b| + `|c| + `|e|), 1; split; first exact: ltr01.
move=> t Ht.
have -> : f (x + t *: d) - f x - t * ip g d = t ^+ 2 * (t ^+ 0 * b) + t ^+ 2 * (t ^+ 1 * c) + t ^+ 2 * (t ^+ 2 * e).
  by rewrite E !exprS !expr0; move: (f x) (ip g d) => u v; rng R.
rewrite !mulrDl.
apply: (le_trans (ler_norm_add _ _)); apply: ler_add; last exact: term_le.
by apply: (le_trans (ler_norm_add _ _)); apply: ler_add; exact: term_le.
Qed.
Lemma four (a b c d : V) : a + b + c + d - a - b = c + d.
Proof. by rewrite -(addrA (a + b)) (addrC (a + b)) -!(addrA (c + d)) (addrC a b) addrK subrr addr0. Qed.
Lemma der_poly G x d h :
  (exists B C, forall t : R, G (x + t *: d) = G x + t *: h + t ^+ 2 *: B + t ^+ 3 *: C) ->
  is_derivative ip G x d h.
Proof.
move=> [B [C E]]; exists (`|ip B B| + (`|ip B C| + `|ip B C|) + `|ip C C|), 1; split; first exact: ltr01.
move=> t Ht.
have -> : G (x + t *: d) - G x - t *: h = t ^+ 2 *: B + t ^+ 3 *: C.
  by rewrite E four.
rewrite !(ipDl, ipDr) !ipZl !ipZr (ip_sym Hip C B).
have -> : t ^+ 2 * (t ^+ 2 * ip B B) + t ^+ 2 * (t ^+ 3 * ip B C) + (t ^+ 3 * (t ^+ 2 * ip B C) + t ^+ 3 * (t ^+ 3 * ip C C)) =
  t ^+ 4 * (ip B B + (t ^+ 1 * ip B C + t ^+ 1 * ip B C) + t ^+ 2 * ip C C).
  by move: (ip B B) (ip B C) (ip C C) => u v w; rewrite !exprS !expr0; rng R.
have H4 : 0 <= t ^+ 4 by rewrite (exprM t 2 2) sqr_ge0.
have P k (a : R) : t ^+ k * a <= `|a|.
  apply: (le_trans (ler_norm _)); rewrite normrM -[X in _ <= X]mul1r.
  by apply: ler_wpmul2r; [exact: normr_ge0|exact: pow_le1].
rewrite mulrC; apply: ler_wpmul2r => //.
apply: ler_add; last exact: P.
apply: ler_add; first exact: ler_norm.
by apply: ler_add; exact: P.
Qed.

(** A quadratic function of a self-adjoint operator. *)
Variables (Fl : Type) (o : objective R V Fl) (s : V -> R) (c : R) (a : V) (T : V -> V).
Hypothesis Tlin : forall k u v, T (k *: u + v) = k *: T u + T v.
Hypothesis Tself : forall u v, ip (T u) v = ip u (T v).
Hypothesis Hs : forall x, s x = c * ip (x - a) (T (x - a)).
Hypothesis Hg : forall x, egrad o x = (c + c) *: T (x - a).
Hypothesis Hh : forall x eta, ehess o x eta = (c + c) *: T eta.
Lemma quad_ok : derivatives_of ip o s.
Proof.
have S x t eta : x + t *: eta - a = t *: eta + (x - a) by rewrite addrAC addrC.
move=> x; split.
- apply: grad_poly => d; exists (c * ip d (T d)), 0, 0 => t.
  rewrite !Hs Hg S; move: (x - a) => y.
  rewrite Tlin !(ipDl, ipDr) !ipZl !ipZr -(Tself y d) (ip_sym Hip (T y) d).
  move: (ip d (T d)) (ip d (T y)) (ip y (T y)) => u v w.
  by rewrite !exprS !expr0; rng R.
- move=> eta; apply: der_poly; exists 0, 0 => t.
  by rewrite !Hg Hh S Tlin scalerDr !scaler0 !addr0 addrC !scalerA mulrC.
Qed.
End general.

Section instances.
Variable R : rcfType.
Add Field instances_field : (rcf_field R).

Lemma inner_bilinear m n : bilinear (@inner R m n : 'M[R]_(m, n) -> 'M[R]_(m, n) -> R).
Proof. by split => [u v|a u v w]; [exact: innerC|rewrite innerDl innerZl]. Qed.
Lemma inner2_bilinear m n p q : bilinear (@inner2 R m n p q).
Proof.
split => [u v|a u v w]; first by rewrite /inner2 innerC (innerC u.2).
by rewrite /inner2 /= !innerDl !innerZl; rng R.
Qed.
Lemma inner3_bilinear m n p q r s : bilinear (@inner3 R m n p q r s).
Proof.
split => [u v|a u v w]; first by rewrite /inner3 innerC (innerC u.1.2) (innerC u.2).
by rewrite /inner3 /= !innerDl !innerZl; move: (inner _ _) (inner _ _) (inner _ _) => x y z; rng R.
Qed.
Lemma diag_timesE n p (D : 'rV[R]_p) (M : 'M[R]_(n, p)) : diag_times D M = M *m diag_mx D.
Proof. by apply/matrixP => i j; rewrite mul_mx_diag !mxE. Qed.
Lemma gemm0_1 m n p (A : 'M[R]_(m, n)) (B : 'M[R]_(n, p)) : gemm0 1 A B = A *m B.
Proof. by rewrite /gemm0 scale1r. Qed.
Lemma diag_sym p (D : 'rV[R]_p) : (diag_mx D)^T = diag_mx D.
Proof. exact: tr_diag_mx. Qed.
Lemma two : 1 + 1 = 2%:R :> R. Proof. by []. Qed.

Lemma quadratic_ok d (A : 'M[R]_d) : symmetric A ->
  (forall x, value (euc_quadratic A) x = half R * \tr (x^T *m A *m x)) /\
  derivatives_of (@inner R d 1) (euc_quadratic A) (value (euc_quadratic A)).
Proof.
move=> HA; split.
- by move=> x; rewrite /value /= dotE gemm0_1 /inner mulmxA.
- apply: (@quad_ok _ _ _ (inner_bilinear d 1) _ _ _ (half R) 0 (fun x => A *m x)).
  + by move=> k u v; rewrite mulmxDr mulZr.
  + by move=> u v; rewrite inner_mull HA.
  + by move=> x; rewrite /value /= subr0 dotE gemm0_1.
  + by move=> x; rewrite /egrad /= subr0 half2 scale1r gemm0_1.
  + by move=> x eta; rewrite /ehess /= half2 scale1r gemm0_1.
Qed.
Lemma brockett_ok n p (B : 'M[R]_n) (D : 'rV[R]_p) : symmetric B ->
  (forall x, value (stie_brockett B D) x = \tr (x^T *m B *m x *m diag_mx D)) /\
  derivatives_of (@inner R n p) (stie_brockett B D) (value (stie_brockett B D)).
Proof.
move=> HB; split.
- by move=> x; rewrite /value /= dotE diag_timesE gemm0_1 /inner !mulmxA.
- apply: (@quad_ok _ _ _ (inner_bilinear n p) _ _ _ 1 0 (fun x => B *m x *m diag_mx D)).
  + by move=> k u v; rewrite mulmxDr mulZr mulmxDl mulZl.
  + by move=> u v; rewrite inner_mulr diag_sym inner_mull HB mulmxA.
  + by move=> x; rewrite /value /= subr0 mul1r dotE diag_timesE gemm0_1.
  + by move=> x; rewrite /egrad /= subr0 diag_timesE gemm0_1.
  + by move=> x eta; rewrite /ehess /= diag_timesE /gemm0 mulZl.
Qed.
Lemma rq_ok n p (B : 'M[R]_n) : symmetric B ->
  (forall x, value (grass_rq p B) x = half R * \tr (x^T *m B *m x)) /\
  derivatives_of (@inner R n p) (grass_rq p B) (value (grass_rq p B)).
Proof.
move=> HB; have E x : value (grass_rq p B) x = half R * inner x (B *m x).
  by rewrite /value /= dotE gemm0_1 innerC /half mulrC.
split; first by move=> x; rewrite E /inner mulmxA.
apply: (@quad_ok _ _ _ (inner_bilinear n p) _ _ _ (half R) 0 (fun x => B *m x)).
+ by move=> k u v; rewrite mulmxDr mulZr.
+ by move=> u v; rewrite inner_mull HB.
+ by move=> x; rewrite subr0 E.
+ by move=> x; rewrite /egrad /= subr0 half2 scale1r gemm0_1.
+ by move=> x eta; rewrite /ehess /= half2 scale1r gemm0_1.
Qed.
Lemma prod_brockett_ok n p m q (B1 B2 : 'M[R]_n) (B3 : 'M[R]_m) (D1 D2 : 'rV[R]_p) (D3 : 'rV[R]_q) :
  symmetric B1 -> symmetric B2 -> symmetric B3 ->
  (forall x, value (prod_brockett B1 B2 B3 D1 D2 D3) x = \tr (x.1.1^T *m B1 *m x.1.1 *m diag_mx D1) +
     \tr (x.1.2^T *m B2 *m x.1.2 *m diag_mx D2) + \tr (x.2^T *m B3 *m x.2 *m diag_mx D3)) /\
  derivatives_of (@inner3 R n p n p m q) (prod_brockett B1 B2 B3 D1 D2 D3) (value (prod_brockett B1 B2 B3 D1 D2 D3)).
Proof.
move=> H1 H2 H3; split.
- by move=> x; rewrite /value /= !dotE !diag_timesE !gemm0_1 /inner !mulmxA.
- apply: (@quad_ok _ _ _ (inner3_bilinear n p n p m q) _ _ _ 1 0
    (fun x => (B1 *m x.1.1 *m diag_mx D1, B2 *m x.1.2 *m diag_mx D2, B3 *m x.2 *m diag_mx D3))).
  + by move=> k u v; rewrite /= !mulmxDr !mulZr !mulmxDl !mulZl.
  + have E a b (B : 'M[R]_a) (D : 'rV[R]_b) u v : symmetric B -> inner (B *m u *m diag_mx D) v = inner u (B *m v *m diag_mx D).
      by move=> HB; rewrite inner_mulr diag_sym inner_mull HB mulmxA.
    by move=> u v; rewrite /inner3 /= !E.
  + by move=> x; rewrite subr0 /value /= mul1r !dotE !diag_timesE !gemm0_1.
  + by move=> x; rewrite subr0 /egrad /= !diag_timesE !gemm0_1.
  + by move=> x eta; rewrite /ehess /= !diag_timesE /gemm0 !mulZl.
Qed.
Lemma to_columnE m n (A : 'M[R]_(m, n)) (a : R) (B : 'M[R]_(m, n)) : to_column (a *: A + B) = a *: to_column A + to_column B.
Proof. by rewrite /to_column !trD !trZ linearD linearZ /= trD trZ. Qed.
Lemma to_of_column m n (v : 'cV[R]_(n * m)) : to_column (of_column v) = v.
Proof. by rewrite /to_column /of_column trmxK vec_mxK trmxK. Qed.
Lemma of_to_column m n (A : 'M[R]_(m, n)) : of_column (to_column A) = A.
Proof. by rewrite /to_column /of_column trmxK mxvecK trmxK. Qed.
Lemma of_columnE m n (a : R) (u v : 'cV[R]_(n * m)) : of_column (a *: u + v) = a *: of_column u + of_column v.
Proof. by rewrite /of_column trD trZ linearD linearZ /= trD trZ. Qed.
Lemma inner_column m n (A B : 'M[R]_(m, n)) : inner (to_column A) (to_column B) = inner A B.
Proof.
rewrite -(inner_tr A) -!dotE /dot /to_column exchange_big /= big_ord1.
rewrite (reindex _ (curry_mxvec_bij _ _)) /= pair_bigA /=; apply: eq_bigr => -[i j] _ /=.
by rewrite !mxE !mxvecE !mxE.
Qed.
Lemma weight_ok m n (A : 'M[R]_(m, n)) (W : 'M[R]_(n * m)) : symmetric W ->
  (forall x, value (weight_approx A W) x = ((to_column (x - A))^T *m W *m to_column (x - A)) 0 0) /\
  derivatives_of (@inner R m n) (weight_approx A W) (value (weight_approx A W)).
Proof.
move=> HW; have S x : (-1) *: A + x = x - A by rewrite scaleN1r addrC.
have E x : value (weight_approx A W) x = inner (to_column (x - A)) (W *m to_column (x - A)).
  by rewrite /value /= dotE gemm0_1 to_of_column S.
split; first by move=> x; rewrite E /inner /mxtrace big_ord1 mulmxA.
apply: (@quad_ok _ _ _ (inner_bilinear m n) _ _ _ 1 A (fun x => of_column (W *m to_column x))).
+ by move=> k u v; rewrite to_columnE mulmxDr mulZr of_columnE.
+ by move=> u v; rewrite -inner_column to_of_column -(inner_column u) to_of_column inner_mull HW.
+ by move=> x; rewrite E mul1r -(inner_column (x - A)) to_of_column.
+ by move=> x; rewrite /egrad /= gemm0_1 S.
+ move=> x eta; rewrite /ehess /= /gemm0 -[_ *: (W *m _)]addr0 of_columnE.
  by rewrite [X in _ + X](_ : _ = 0) ?addr0 // /of_column trmx0 linear0 trmx0.
Qed.
Lemma entry_sumE m n (lambda : R) (x : 'M[R]_(m, n)) : entry_sum lambda x = lambda * norm1 x.
Proof. by rewrite /entry_sum /norm1 mulr_sumr; apply: eq_bigr => i _; rewrite mulr_sumr. Qed.
Lemma half_two : half R * 2%:R = 1. Proof. exact: half2'. Qed.
Lemma sparse_ok m n lambda (A : 'M[R]_(m, n)) :
  (forall x, value (sparse_approx lambda A) x = inner (x - A) (x - A) + lambda * norm1 x) /\
  derivatives_of (@inner R m n) (sparse_approx lambda A) (fun x => inner (x - A) (x - A)) /\
  lipschitz_bound (@inner R m n) (fun x => inner (x - A) (x - A)) (egrad (sparse_approx lambda A)) (sparse_L R).
Proof.
have S x : (-1) *: A + x = x - A by rewrite scaleN1r addrC.
split; first by move=> x; rewrite /value /= S dotE entry_sumE.
split.
- apply: (@quad_ok _ _ _ (inner_bilinear m n) _ _ _ 1 A id) => //; first by move=> x; rewrite mul1r.
  by move=> x; rewrite /egrad /= S.
- move=> x d; rewrite /egrad /= S (addrAC x d); move: (x - A) => y.
  rewrite !(innerDl, innerDr) innerZl (innerC d y) /sparse_L divff ?pnatr_eq0 // mul1r.
  rewrite [X in `|X|](_ : _ = inner d d); first by rewrite ger0_norm // inner_ge0.
  by move: (inner y d) (inner y y) (inner d d) => u v w; rng R.
Qed.
Lemma spca_ok m n p lambda (B : 'M[R]_(m, n)) :
  (forall x, value (stie_spca p lambda B) x = - \tr (x^T *m B^T *m B *m x) + lambda * norm1 x) /\
  derivatives_of (@inner R n p) (stie_spca p lambda B) (fun x => - \tr (x^T *m B^T *m B *m x)).
Proof.
have T x : \tr (x^T *m B^T *m B *m x) = inner x (B^T *m (B *m x)) by move=> *; rewrite /inner !mulmxA.
split.
- by move=> x; rewrite /value /= !gemm0_1 dotE entry_sumE T inner_mull.
- apply: (@quad_ok _ _ _ (inner_bilinear n p) _ _ _ (-1) 0 (fun x => B^T *m (B *m x))).
  + by move=> k u v; rewrite !mulmxDr !mulZr.
  + by move=> u v; rewrite inner_mull trmxK inner_mull.
  + by move=> x; rewrite subr0 T mulN1r.
  + by move=> x; rewrite /egrad /= subr0 gemm0_1 /gemm0 -opprD.
  + by move=> x eta; rewrite /ehess /= gemm0_1 /gemm0 -opprD.
Qed.
Lemma tx_ok (V : lmodType R) (metric : V -> V -> R) (Hess : V -> V) (ismin : bool) :
  bilinear metric -> (forall k u v, Hess (k *: u + v) = k *: Hess u + Hess v) ->
  (forall u v, metric (Hess u) v = metric u (Hess v)) ->
  (forall x, value (tx_rq metric Hess ismin) x = (if ismin then 1 else -1) * metric (Hess x) x) /\
  derivatives_of metric (tx_rq metric Hess ismin) (value (tx_rq metric Hess ismin)).
Proof.
move=> Hm Hl Hs; split; first by move=> x; rewrite /value /=; case: ismin; rewrite ?mul1r ?mulN1r.
apply: (@quad_ok _ _ _ Hm _ _ _ (if ismin then 1 else -1) 0 Hess) => //.
+ by move=> x; rewrite subr0 /value /= -Hs; case: ismin; rewrite ?mul1r ?mulN1r.
+ by move=> x; rewrite subr0 /egrad /=; case: ismin => //; rewrite -opprD.
+ by move=> x eta; rewrite /ehess /=; case: ismin => //; rewrite -opprD.
Qed.
End instances.
