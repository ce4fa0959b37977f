(** Proofs about the phase retrieval problem. *)
From mathcomp Require Import all_ssreflect all_algebra.
From mathcomp.real_closed Require Import complex.
Require Import Ring Field.
From Verif Require Import MxTac StiefelModel CStieSpec CStieModel CMx CSymFRSpec PhaseModel PhaseSpec.
Import Order.TTheory GRing.Theory Num.Theory.
Set Implicit Arguments.
Unset Strict Implicit.
Local Open Scope ring_scope.
Local Open Scope complex_scope.

Section phase.
Variables (R : rcfType) (n1 n2 l r : nat).
Local Notation C := R[i].
Local Notation re := (@complex.Re R).
Local Notation im := (@complex.Im R).
Local Notation n := (n1 * n2)%N.
Local Notation var := 'M[C]_(n, r).
Variables (w1 w2 : C).
Add Field phase_field : (rcf_field R).
Add Ring phase_ring : (kring R).

(** The pixels. *)
Lemma idx_row (a : 'I_n1) (b : 'I_n2) : ((a + b * n1) %% n1)%N = a.
Proof. by rewrite addnC modnMDl modn_small. Qed.
Lemma idx_col (a : 'I_n1) (b : 'I_n2) : ((a + b * n1) %/ n1)%N = b.
Proof.
have H : (0 < n1)%N by case: n1 a => [[]|].
by rewrite addnC divnMDl // divn_small // addn0.
Qed.
Lemma sum_pixels (V : zmodType) (F : 'I_n -> V) : \sum_k F k = \sum_(a < n1) \sum_(b < n2) F (Ordinal (idx_lt a b)).
Proof.
rewrite pair_bigA /= (reindex (fun ab : 'I_n1 * 'I_n2 => Ordinal (idx_lt ab.1 ab.2))) //=.
exists (fun k => (Ordinal (row_lt k), Ordinal (col_lt k))) => [[a b] _|k _] /=.
  by congr pair; apply: val_inj => /=; rewrite ?idx_row ?idx_col.
by apply: val_inj => /=; rewrite addnC -divn_eq.
Qed.

Section problem.
Variables (masks : 'I_l -> 'cV[C]_n) (b : 'I_l -> 'cV[R]_n) (kappa : R).
Local Notation s := (sqn R n1 n2).
Local Notation A i := (sensing w1 w2 (masks i)).
Local Notation sample := (sample w1 w2 masks).
Lemma rcV (a : R) : (a%:C)^-1 = (a^-1)%:C :> C.
Proof. by rewrite -fmorphV. Qed.
Lemma maskedE i (x : var) j k : masked masks i x j k 0 = masks i k 0 * x k j / s%:C.
Proof.
rewrite mxE rcV; apply: ceq => /=; rewrite !(reM, imM, reC, imC); first by rng R.
by rewrite mulr0 add0r addrC.
Qed.
Lemma perm1 (m x q a e : C) : m * x * q * a * e = a * e * m * q * x.
Proof. by krng R. Qed.
Lemma perm2 (m x q a e : C) : x * a * e * q * m = a * e * m * q * x.
Proof. by krng R. Qed.
Lemma sampleE (x : var) i : sample x i = A i *m x.
Proof.
apply/matrixP => k j; rewrite !mxE sum_pixels; apply: eq_bigr => c _; apply: eq_bigr => e _.
rewrite /reshape mxE maskedE [in RHS]mxE /= idx_row idx_col -/(sqn R n1 n2).
exact: perm1.
Qed.
Lemma mask_back (v m : C) (u : R) :
  ((u * re v) * re m + (u * im v) * im m) +i* ((u * im v) * re m - (u * re v) * im m) = v * u%:C * conjc m.
Proof. by apply: ceq; rewrite !(reM, imM, reJ, imJ) /=; rng R. Qed.
Lemma gfiE (M : 'I_l -> var) i : gfi w1 w2 masks M i = adj (A i) *m M i.
Proof.
apply/matrixP => k j.
set v := unshape (fft2d w1 w2 BACKWARD (reshape (\col_k0 M i k0 j))) k 0.
have -> : gfi w1 w2 masks M i k j = v / s%:C * conjc (masks i k 0).
  rewrite mxE -/v rcV mul1r; exact: mask_back.
rewrite [in RHS]mxE sum_pixels /v /unshape mxE /fft2d mxE !mulr_suml.
apply: eq_bigr => c _; rewrite !mulr_suml; apply: eq_bigr => e _.
rewrite /reshape !mxE /= idx_row idx_col -/(sqn R n1 n2) !cjM.
rewrite !(rmorphX, rcV, cjR) /= [(_ %% n1 * c)%N]mulnC [(_ %/ n1 * e)%N]mulnC.
exact: perm2.
Qed.

(** Row by row inner products, and weighted rows. *)
Definition rd (M N : var) (k : 'I_n) : R := \sum_j (re (M k j) * re (N k j) + im (M k j) * im (N k j)).
Definition wt (d : 'cV[R]_n) (M : var) : var := \matrix_(k, j) ((d k 0)%:C * M k j).
Lemma rdC M N k : rd M N k = rd N M k.
Proof. by apply: eq_bigr => j _; rng R. Qed.
Lemma rdDl M N P k : rd (M + N) P k = rd M P k + rd N P k.
Proof. by rewrite -big_split; apply: eq_bigr => j _ /=; rewrite !mxE !(reD, imD); rng R. Qed.
Lemma rdZl a M N k : rd (rscale a M) N k = a * rd M N k.
Proof.
rewrite mulr_sumr; apply: eq_bigr => j _ /=; rewrite !mxE !(reM, imM) /= !(mul0r, subr0, addr0).
by rng R.
Qed.
Lemma rd_line M N t k : rd (M + rscale t N) (M + rscale t N) k = rd M M k + 2%:R * t * rd N M k + t ^+ 2 * rd N N k.
Proof.
rewrite rdDl rdZl (rdC M (M + _)) (rdC N (M + _)) !rdDl !rdZl (rdC M N).
by rng R.
Qed.
Lemma rd_gram M N k : rd M N k = re ((N *m adj M) k k).
Proof. by rewrite mxE re_sum; apply: eq_bigr => j _; rewrite mxE reM reJ imJ; rng R. Qed.
Lemma rd_unitary M N (O : 'M[C]_r) k : unitary (adj O) -> rd (M *m O) (N *m O) k = rd M N k.
Proof. by rewrite /unitary adjK => H; rewrite !rd_gram adjM mulmxA -(mulmxA N) H mulmx1. Qed.
Lemma wt_inner d M N : cinner (wt d M) N = \sum_k d k 0 * rd M N k.
Proof.
rewrite -cdotE; apply: eq_bigr => k _; rewrite mulr_sumr; apply: eq_bigr => j _.
by rewrite mxE !(reM, imM) /= !(mul0r, subr0, addr0); rng R.
Qed.
Lemma wtD d e M : wt (d + e) M = wt d M + wt e M.
Proof. by apply/matrixP => k j; rewrite !mxE rcD mulrDl. Qed.
Lemma wtZ a d M : wt (a *: d) M = rscale a (wt d M).
Proof. by apply/matrixP => k j; rewrite !mxE rcM mulrA. Qed.
Lemma wtDr d M N : wt d (M + N) = wt d M + wt d N.
Proof. by apply/matrixP => k j; rewrite !mxE mulrDr. Qed.
Lemma wtZr a d M : wt d (rscale a M) = rscale a (wt d M).
Proof. by apply/matrixP => k j; rewrite !mxE mulrCA. Qed.
Lemma wtM d M (O : 'M[C]_r) : wt d M *m O = wt d (M *m O).
Proof. by apply/matrixP => k j; rewrite !mxE mulr_sumr; apply: eq_bigr => a _; rewrite mxE mulrA. Qed.
Lemma diag_timesE d (M : 'I_l -> var) i : diag_times d M i = wt (d i) (M i).
Proof. by apply/matrixP => k j; rewrite !mxE; apply: ceq; rewrite !(reM, imM) /=; rng R. Qed.
Definition q (x : var) i : 'cV[R]_n := \col_k (rd (A i *m x) (A i *m x) k - b i k 0).
Definition pr (x y : var) i : 'cV[R]_n := \col_k rd (A i *m x) (A i *m y) k.
Lemma cD_E (x : var) i : cD_of b (sample x) i = q x i.
Proof. by apply/colP => k; rewrite !mxE sampleE. Qed.
Lemma prC (x : var) y i : pr x y i = pr y x i.
Proof. by apply/matrixP => k j; rewrite !mxE rdC. Qed.
Lemma mulA_line i (x eta : var) (t : R) : A i *m (x + rscale t eta) = A i *m x + rscale t (A i *m eta).
Proof. by rewrite mulmxDr kmulZr. Qed.
Lemma q_line (x eta : var) t i : q (x + rscale t eta) i = q x i + (2%:R * t) *: pr eta x i + t ^+ 2 *: pr eta eta i.
Proof. by apply/matrixP => k j; rewrite !mxE mulA_line rd_line addrAC; congr (_ + _); rewrite addrAC. Qed.
Lemma qk_line (x eta : var) t i k :
  q (x + rscale t eta) i k 0 = q x i k 0 + 2%:R * t * pr eta x i k 0 + t ^+ 2 * pr eta eta i k 0.
Proof. by rewrite q_line; move: (q x i) (pr eta x i) (pr eta eta i) => a1 a2 a3; rewrite !mxE. Qed.
Lemma pr_line (x eta xi : var) t i : pr xi (x + rscale t eta) i = pr xi x i + t *: pr xi eta i.
Proof. by apply/matrixP => k j; rewrite !mxE mulA_line rdC rdDl rdZl !(rdC _ (A i *m xi)). Qed.
(** The gradient and the Hessian without the regulariser. *)
Definition cc : R := 4%:R / dot_m b b.
Lemma egradE (x : var) : egrad w1 w2 masks b kappa x =
  rscale cc (\sum_i adj (A i) *m wt (q x i) (A i *m x)) + rscale (2%:R * kappa) x.
Proof.
have E : push_back w1 w2 masks (diag_times (cD_of b (sample x)) (sample x)) = \sum_i adj (A i) *m wt (q x i) (A i *m x).
  by apply: eq_bigr => i _; rewrite gfiE diag_timesE cD_E sampleE.
rewrite /egrad E; case: eqP => /= [->|_]; last by rewrite addrC.
by rewrite /rscale mulr0 scale0r addr0.
Qed.
Lemma ehessE (x eta : var) : ehess w1 w2 masks b kappa x eta =
  rscale cc (\sum_i adj (A i) *m (wt (2%:R *: pr eta x i) (A i *m x) + wt (q x i) (A i *m eta))) + rscale (2%:R * kappa) eta.
Proof.
rewrite /ehess addrC; congr (rscale _ _ + _); apply: eq_bigr => i _; rewrite gfiE !diag_timesE cD_E !sampleE.
congr (_ *m (wt _ _ + _)); apply/matrixP => k j; rewrite !mxE !sampleE; congr (_ * _).
by apply: eq_bigr => a _; rewrite !reJ !imJ mulrNN.
Qed.
Lemma costE (x : var) : cost w1 w2 masks b kappa x = (\sum_i \sum_k q x i k 0 ^+ 2) / dot_m b b + kappa * cinner x x.
Proof.
rewrite /cost; have -> : dot_m (cD_of b (sample x)) (cD_of b (sample x)) = \sum_i \sum_k q x i k 0 ^+ 2.
  by apply: eq_bigr => i _; apply: eq_bigr => k _; rewrite cD_E expr2.
by case: eqP => [->|_]; rewrite ?mul0r ?addr0 ?cdotE.
Qed.
Lemma dotE : dot_m b b = energy b.
Proof. by apply: eq_bigr => i _; apply: eq_bigr => k _; rewrite expr2. Qed.
Lemma cost_misfit (x : var) : cost w1 w2 masks b kappa x = misfit w1 w2 masks b kappa (gram x).
Proof.
rewrite costE dotE /misfit; congr (_ / _ + _ * _); last by rewrite /cinner /gram mxtrace_mulC.
apply: eq_bigr => i _; apply: eq_bigr => k _; rewrite mxE rd_gram adjM /intensity /gram.
by rewrite !mulmxA.
Qed.
Lemma inner_push (c : 'I_l -> 'cV[R]_n) (M : 'I_l -> var) (y : var) :
  cinner (\sum_i adj (A i) *m wt (c i) (M i)) y = \sum_i \sum_k c i k 0 * rd (M i) (A i *m y) k.
Proof.
elim/big_ind2: _ => [|u a v e <- <-|i _]; [exact: cinner0l|exact: cinnerDl|].
by rewrite cinner_mull adjK wt_inner.
Qed.
Lemma grad_inner (x eta : var) : cinner (egrad w1 w2 masks b kappa x) eta =
  cc * (\sum_i \sum_k q x i k 0 * pr eta x i k 0) + 2%:R * kappa * cinner x eta.
Proof.
rewrite egradE cinnerDl !cinnerZl inner_push; congr (_ * _ + _).
by apply: eq_bigr => i _; apply: eq_bigr => k _; rewrite [pr _ _ _ _ _]mxE rdC.
Qed.
Lemma sum2D (F G : 'I_l -> 'I_n -> R) : \sum_i \sum_k (F i k + G i k) = \sum_i \sum_k F i k + \sum_i \sum_k G i k.
Proof. by rewrite -big_split; apply: eq_bigr => i _; rewrite big_split. Qed.
Lemma sum2Z (a : R) (F : 'I_l -> 'I_n -> R) : \sum_i \sum_k (a * F i k) = a * \sum_i \sum_k F i k.
Proof. by rewrite mulr_sumr; apply: eq_bigr => i _; rewrite mulr_sumr. Qed.
Lemma hess_inner (x eta xi : var) : cinner (ehess w1 w2 masks b kappa x eta) xi =
  cc * (2%:R * (\sum_i \sum_k pr eta x i k 0 * pr xi x i k 0) + \sum_i \sum_k q x i k 0 * pr eta xi i k 0)
  + 2%:R * kappa * cinner eta xi.
Proof.
rewrite ehessE cinnerDl !cinnerZl; congr (_ * _ + _).
rewrite (eq_bigr (fun i => adj (A i) *m wt (2%:R *: pr eta x i) (A i *m x) + adj (A i) *m wt (q x i) (A i *m eta)));
  last by move=> i _; rewrite mulmxDr.
rewrite big_split /= cinnerDl !inner_push -sum2Z; congr (_ + _); apply: eq_bigr => i _; apply: eq_bigr => k _.
  by rewrite !mxE mulrA (rdC (A i *m xi)).
by rewrite !mxE.
Qed.
Lemma hess_sym (x eta xi : var) : cinner (ehess w1 w2 masks b kappa x eta) xi = cinner eta (ehess w1 w2 masks b kappa x xi).
Proof.
move: (hess_inner x); move: (ehess w1 w2 masks b kappa x) => h H.
rewrite [RHS]cinnerC !H (cinnerC xi eta).
have -> : \sum_i \sum_k pr xi x i k 0 * pr eta x i k 0 = \sum_i \sum_k pr eta x i k 0 * pr xi x i k 0.
  by apply: eq_bigr => i _; apply: eq_bigr => k _; exact: mulrC.
have -> : \sum_i \sum_k q x i k 0 * pr xi eta i k 0 = \sum_i \sum_k q x i k 0 * pr eta xi i k 0.
  by apply: eq_bigr => i _; apply: eq_bigr => k _; rewrite (prC xi eta).
reflexivity.
Qed.
Lemma four : 4%:R = 2%:R * 2%:R :> R.
Proof. by rewrite -natrM. Qed.
Lemma cost_line (x eta : var) : exists c3 c4 : R, forall t, cost w1 w2 masks b kappa (x + rscale t eta) =
  cost w1 w2 masks b kappa x + t * cinner (egrad w1 w2 masks b kappa x) eta
  + t ^+ 2 / 2%:R * cinner (ehess w1 w2 masks b kappa x eta) eta + t ^+ 3 * c3 + t ^+ 4 * c4.
Proof.
pose S (u v : 'I_l -> 'cV[R]_n) := \sum_i \sum_k u i k 0 * v i k 0.
exists (cc * S (pr eta x) (pr eta eta)), (S (pr eta eta) (pr eta eta) / dot_m b b) => t.
move: costE (grad_inner x eta) (hess_inner x eta eta); move: (cost w1 w2 masks b kappa) => f Hf.
move: (egrad w1 w2 masks b kappa x) (ehess w1 w2 masks b kappa x eta) => g h -> ->; rewrite !Hf.
have -> : \sum_i \sum_k q (x + rscale t eta) i k 0 ^+ 2 = S (q x) (q x) + 4%:R * t * S (q x) (pr eta x)
  + (4%:R * t ^+ 2 * S (pr eta x) (pr eta x) + 2%:R * t ^+ 2 * S (q x) (pr eta eta)) + 4%:R * t ^+ 3 * S (pr eta x) (pr eta eta)
  + t ^+ 4 * S (pr eta eta) (pr eta eta).
  rewrite /S -!sum2Z -!sum2D; apply: eq_bigr => i _; apply: eq_bigr => k _.
  by rewrite qk_line four !exprS !expr0; move: (q x i k 0) (pr eta x i k 0) (pr eta eta i k 0) => a1 a2 a3; rng R.
have -> : \sum_i \sum_k q x i k 0 ^+ 2 = S (q x) (q x) by apply: eq_bigr => i _; apply: eq_bigr => k _; rewrite expr2.
rewrite cinnerDl !cinnerDr !cinnerZl !cinnerZr (cinnerC eta x) /cc -!/(S _ _).
move: (S (q x) (q x)) (S (q x) (pr eta x)) (S (pr eta x) (pr eta x)) (S (q x) (pr eta eta)) (S (pr eta x) (pr eta eta))
  (S (pr eta eta) (pr eta eta)) (cinner x x) (cinner x eta) (cinner eta eta) ((dot_m b b)^-1) => s1 s2 s3 s4 s5 s6 c1 c2 c3 d.
rewrite four !exprS !expr0; toR R; field; exact (@two_neq0 R).
Qed.
Lemma rscaleD m p (a : R) (M N : 'M[C]_(m, p)) : rscale a (M + N) = rscale a M + rscale a N.
Proof. exact: scalerDr. Qed.
Lemma rscaleA m p (a c : R) (M : 'M[C]_(m, p)) : rscale a (rscale c M) = rscale (a * c) M.
Proof. by rewrite /rscale scalerA rcM. Qed.
Lemma rscale_mulr m p s' (a : R) (M : 'M[C]_(m, p)) (N : 'M[C]_(p, s')) : M *m rscale a N = rscale a (M *m N).
Proof. by rewrite /rscale kmulZr. Qed.
Lemma rscale_sum m p (a : R) (F : 'I_l -> 'M[C]_(m, p)) : rscale a (\sum_i F i) = \sum_i rscale a (F i).
Proof. by rewrite /rscale scaler_sumr. Qed.
Lemma grad_line (x eta : var) : exists G2 G3 : var, forall t, egrad w1 w2 masks b kappa (x + rscale t eta) =
  egrad w1 w2 masks b kappa x + rscale t (ehess w1 w2 masks b kappa x eta) + rscale (t ^+ 2) G2 + rscale (t ^+ 3) G3.
Proof.
pose G2 := \sum_i adj (A i) *m (wt (pr eta eta i) (A i *m x) + wt (2%:R *: pr eta x i) (A i *m eta)).
pose G3 := \sum_i adj (A i) *m wt (pr eta eta i) (A i *m eta).
exists (rscale cc G2), (rscale cc G3) => t.
move: egradE (ehessE x eta); move: (egrad w1 w2 masks b kappa) (ehess w1 w2 masks b kappa x eta) => g h Hg ->; rewrite !Hg.
have -> : \sum_i adj (A i) *m wt (q (x + rscale t eta) i) (A i *m (x + rscale t eta)) =
  \sum_i adj (A i) *m wt (q x i) (A i *m x)
  + rscale t (\sum_i adj (A i) *m (wt (2%:R *: pr eta x i) (A i *m x) + wt (q x i) (A i *m eta)))
  + rscale (t ^+ 2) G2 + rscale (t ^+ 3) G3.
  rewrite !rscale_sum -!big_split; apply: eq_bigr => i _ /=.
  rewrite mulA_line q_line !wtD !wtDr !wtZr !wtZ -!rscale_mulr -!mulmxDr; congr (_ *m _).
  move: (wt (q x i) (A i *m x)) (wt (q x i) (A i *m eta)) (wt (pr eta x i) (A i *m x)) (wt (pr eta x i) (A i *m eta))
    (wt (pr eta eta i) (A i *m x)) (wt (pr eta eta i) (A i *m eta)) => a1 a2 a3 a4 a5 a6.
  rewrite !rscaleD !rscaleA; apply/matrixP => k j; rewrite !mxE !(rcM, rcX) !exprS !expr0.
  have -> : (2%:R : R)%:C = 1 + 1 by rewrite -[2%:R]/(1 + 1) rcD.
  by krng R.
rewrite !rscaleD !rscaleA; apply/matrixP => k j; rewrite !mxE !(rcM, rcX) !exprS !expr0.
by krng R.
Qed.
(** Unitary matrices. *)
Lemma q_unitary (x : var) O i : unitary (adj O) -> q (x *m O) i = q x i.
Proof. by move=> H; apply/matrixP => k j; rewrite !mxE mulmxA rd_unitary. Qed.
Lemma pr_unitary (x : var) y O i : unitary (adj O) -> pr (x *m O) (y *m O) i = pr x y i.
Proof. by move=> H; apply/matrixP => k j; rewrite !mxE !mulmxA rd_unitary. Qed.
Lemma rscale_mull m p s' (a : R) (M : 'M[C]_(m, p)) (N : 'M[C]_(p, s')) : rscale a M *m N = rscale a (M *m N).
Proof. by rewrite /rscale kmulZl. Qed.
Lemma egrad_unitary (x : var) (O : 'M[C]_r) : unitary (adj O) -> egrad w1 w2 masks b kappa (x *m O) = egrad w1 w2 masks b kappa x *m O.
Proof.
move=> H; move: egradE; move: (@egrad R n1 n2 l r w1 w2 masks b kappa) => g Hg; rewrite !Hg mulmxDl !rscale_mull; congr (rscale _ _ + _); rewrite mulmx_suml; apply: eq_bigr => i _.
by rewrite q_unitary // -mulmxA wtM mulmxA.
Qed.
Lemma ehess_unitary (x eta : var) (O : 'M[C]_r) : unitary (adj O) ->
  ehess w1 w2 masks b kappa (x *m O) (eta *m O) = ehess w1 w2 masks b kappa x eta *m O.
Proof.
move=> H; move: ehessE; move: (@ehess R n1 n2 l r w1 w2 masks b kappa) => g Hg; rewrite !Hg mulmxDl !rscale_mull; congr (rscale _ _ + _); rewrite mulmx_suml; apply: eq_bigr => i _.
by rewrite q_unitary // pr_unitary // -mulmxA mulmxDl !wtM !mulmxA.
Qed.
Lemma egrad_invariant (x : var) : invariant_at x (egrad w1 w2 masks b kappa x).
Proof.
move=> _ [W [HW ->]]; rewrite grad_inner.
have -> : cinner x (x *m W) = 0.
  rewrite cinnerC cinner_mull cinnerC; apply: herm_skew => //.
  by rewrite /hermitian adjM adjK.
rewrite mulr0 addr0 big1 ?mulr0 // => i _; rewrite big1 // => k _.
suff -> : pr (x *m W) x i k 0 = 0 by rewrite mulr0.
rewrite mxE rd_gram.
set B := A i *m x *m adj (A i *m (x *m W)).
have E : adj B = - B.
  by rewrite /B !adjM !adjK !mulmxA; have -> : adj W = - W := HW; rewrite !(mulmxN, mulNmx) opprK.
have : re (B k k) = - re (B k k) by have := f_equal (fun M : 'M[C]_n => re (M k k)) E; rewrite /= !mxE reJ reN.
by move/eqP; rewrite -addr_eq0 -mulr2n mulrn_eq0 /= => /eqP.
Qed.
Lemma cost_ge0 (x : var) : 0 <= kappa -> 0 <= cost w1 w2 masks b kappa x.
Proof.
move=> H; rewrite costE dotE addr_ge0 ?mulr_ge0 ?cinner_ge0 // ?invr_ge0;
  by apply: sumr_ge0 => i _; apply: sumr_ge0 => k _; apply: sqr_ge0.
Qed.
Lemma cost_eq0 (x : var) : kappa = 0 -> 0 < energy b -> cost w1 w2 masks b kappa x = 0 <->
  forall i k, intensity w1 w2 (masks i) (gram x) k = b i k 0.
Proof.
move=> Hk Hb; rewrite cost_misfit /misfit Hk mul0r addr0; split=> [|H].
  move=> /eqP; rewrite mulf_eq0 invr_eq0 (gt_eqF Hb) orbF psumr_eq0.
    move=> /allP H i k; have := H i (mem_index_enum i); rewrite /= psumr_eq0; last by move=> j _; apply: sqr_ge0.
    by move=> /allP /(_ k (mem_index_enum k)) /=; rewrite sqrf_eq0 subr_eq0 => /eqP.
  by move=> i _; apply: sumr_ge0 => k _; apply: sqr_ge0.
by rewrite big1 ?mul0r // => i _; rewrite big1 // => k _; rewrite H subrr expr0n.
Qed.
End problem.
End phase.
