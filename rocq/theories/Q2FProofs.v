(** Proofs about metric, projection, gradient and Hessian of FixedRankQ2F. *)
From mathcomp Require Import all_ssreflect all_algebra.
Require Import Ring Field.
From Verif Require Import MxTac StiefelModel StiefelSpec StiefelProofs StiefelPolar SPDSpec SPDProofs SymFRSpec SymFRProofs.
From Verif Require Import Q2FModel Q2FSpec.
Import Order.TTheory GRing.Theory Num.Theory.
Set Implicit Arguments.
Unset Strict Implicit.
Local Open Scope ring_scope.

Section two.
Variable R : rcfType.
Add Field q2f_field : (rcf_field R).
Variables r a b : nat.
Local Notation vec := (pair_ R r a b).
Implicit Types x eta xi : vec.

Lemma hess_comb m n (a1 a2 a3 a4 a5 a6 : 'M[R]_(m, n)) (h : R) : h + h = 1 ->
  a1 + a2 - (h *: a3 + h *: a4) + (a5 - a6 - h *: a4) = (a1 - h *: a3) + (a2 - a4 - (a6 - a5)).
Proof.
move=> E; have -> : a2 - a4 = a2 - (h *: a4 + h *: a4) by rewrite -scalerDl E scale1r.
apply/matrixP => i j; rewrite !mxE; rng R.
Qed.
Lemma pair_eq eta xi : fst_ eta = fst_ xi -> snd_ eta = snd_ xi -> eta = xi.
Proof. by case: eta xi => [w z] [w' z'] /= -> ->. Qed.
Lemma liftD x eta xi : lift x (addp eta xi) = lift x eta + lift x xi.
Proof. by rewrite /lift /= mulmxDl trD mulmxDr addrACA. Qed.
Lemma liftZ x t eta : lift x (scalep t eta) = t *: lift x eta.
Proof. by rewrite /lift /= mulZl trZ mulZr scalerDr. Qed.
Lemma liftB x eta xi : lift x (subp eta xi) = lift x eta - lift x xi.
Proof. by rewrite liftD liftZ scaleN1r. Qed.
Lemma lift0 x : lift x (zerop R r a b) = 0.
Proof. by rewrite /lift /= mul0mx trmx0 mulmx0 addr0. Qed.
Lemma subp_fst eta xi : fst_ (subp eta xi) = fst_ eta - fst_ xi.
Proof. by rewrite /= scaleN1r. Qed.
Lemma subp_snd eta xi : snd_ (subp eta xi) = snd_ eta - snd_ xi.
Proof. by rewrite /= scaleN1r. Qed.

(** The inner product of lifts, in terms of the factors. *)
Lemma lift_inner x (A : 'M[R]_(r + a, r + b)) xi : inner A (lift x xi) =
  inner (A *m snd_ x) (fst_ xi) + inner (A^T *m fst_ x) (snd_ xi).
Proof.
rewrite /lift innerDr; congr (_ + _); first by rewrite inner_mulr.
by rewrite inner_mulr -[in LHS]inner_tr trM trmxK.
Qed.

Lemma metricE x eta xi : metric x eta xi = inner (lift x eta) (lift x xi).
Proof.
rewrite lift_inner /metric !dotE /gemm0 !scale1r add0r /lift !mulmxDl trD !mulmxDl !trM !trmxK !innerDl.
set G := fst_ x; set H := snd_ x; set eG := fst_ eta; set eH := snd_ eta; set tG := fst_ xi; set tH := snd_ xi.
have -> : inner (G^T *m G) (tH^T *m eH) = inner (eH *m G^T *m G) tH.
  by rewrite -[in RHS]mulmxA [in RHS]inner_mull -[in RHS]inner_tr !trM !trmxK.
have -> : inner (H^T *m H) (eG^T *m tG) = inner (eG *m H^T *m H) tG by rewrite -[in RHS]mulmxA [in RHS]inner_mull.
have -> : inner (H^T *m eH) (tG^T *m G) = inner (G *m eH^T *m H) tG.
  by rewrite -[in RHS]mulmxA [in RHS]inner_mull -[in RHS]inner_tr !trM !trmxK.
have -> : inner (tH^T *m H) (G^T *m eG) = inner (H *m eG^T *m G) tH.
  by rewrite -[in RHS]mulmxA [in RHS]inner_mull -[in RHS]inner_tr !trM !trmxK innerC.
move: (inner _ _) (inner _ _) (inner _ _) (inner _ _) => u v w z; rng R.
Qed.

(** Solving with the Cholesky factor. *)
Lemma chol_solveE (C L : 'M[R]_r) q (B : 'M[R]_(r, q)) : is_chol C L -> chol_solve L B = invmx C *m B.
Proof.
move=> H; have HL := chol_unit H; have HLT : L^T \in unitmx by rewrite unitmx_tr.
have HC : L *m L^T \in unitmx by rewrite unitmx_mul HL.
have E : (L *m L^T) *m chol_solve L B = B by rewrite /chol_solve -mulmxA mulKVmx // mulKVmx.
by rewrite (chol_product H) -{2}E mulKmx.
Qed.

Section point.
Variable CHOL : 'M[R]_r -> 'M[R]_r.
Hypothesis HC : chol_ok CHOL.
Variable x : vec.
Hypothesis Hx : is_point x.
Local Notation G := (fst_ x).
Local Notation H := (snd_ x).
Local Notation CG := (G^T *m G).
Local Notation CH := (H^T *m H).
Local Notation CGi := (invmx (G^T *m G)).
Local Notation CHi := (invmx (H^T *m H)).
Let HG : full_rank G := Hx.1.
Let HH : full_rank H := Hx.2.
Lemma solveG q (B : 'M[R]_(r, q)) : chol_solve (LG_of CHOL x) B = CGi *m B.
Proof. by apply: chol_solveE; apply: HC; exact: posdef_gram. Qed.
Lemma solveH q (B : 'M[R]_(r, q)) : chol_solve (LH_of CHOL x) B = CHi *m B.
Proof. by apply: chol_solveE; apply: HC; exact: posdef_gram. Qed.

(** The components of a vector along the ranges of G and H. *)
Definition kG eta := CGi *m G^T *m fst_ eta.
Definition kH eta := CHi *m H^T *m snd_ eta.
Lemma kG_G (W : 'M[R]_r) Z : kG (Pair (G *m W) Z) = W.
Proof. by rewrite /kG /= mulmxA (Cixx0 HG) mul1mx. Qed.
Lemma kH_H (W : 'M[R]_r) Z : kH (Pair Z (H *m W)) = W.
Proof. by rewrite /kH /= mulmxA (Cixx0 HH) mul1mx. Qed.
Lemma horP eta : horizontal x eta <-> kG eta = (kH eta)^T.
Proof.
split=> [[K [Z1 [Z2 [E1 E2 E3 E4]]]]|E].
  rewrite /kG /kH E3 E4 !mulmxDr !mulmxA (Cixx0 HG) (Cixx0 HH) !mul1mx -!mulmxA E1 E2 !mulmx0 !addr0.
  by rewrite trmxK.
exists (kG eta), (fst_ eta - G *m kG eta), (snd_ eta - H *m kH eta); split.
- by rewrite mulmxBr /kG !mulmxA (xxCi0 HG) mul1mx subrr.
- by rewrite mulmxBr /kH !mulmxA (xxCi0 HH) mul1mx subrr.
- by rewrite addrC subrK.
by rewrite E trmxK addrC subrK.
Qed.
Lemma lift_vertical v : vertical x v -> lift x v = 0.
Proof. by move=> [W ->]; rewrite /lift /= trN trM trmxK mulmxN mulmxA subrr. Qed.
Lemma lift_kernel v : lift x v = 0 -> vertical x v.
Proof.
rewrite /lift => E; exists (kG v).
have EG : fst_ v = - (G *m (kH v)^T).
  have := congr1 (fun A => A *m H *m CHi) E; rewrite !mulmxDl !mul0mx (xxCi HH) => /eqP.
  rewrite addr_eq0 => /eqP ->; congr (- _).
  by rewrite /kH !trM trmxK (Ci_sym H) !mulmxA.
have EH : snd_ v = - (H *m (kG v)^T).
  have := congr1 (fun A => (CGi *m G^T *m A)^T) E; rewrite mulmxDr mulmx0 trmx0 trD.
  rewrite [CGi *m G^T *m (G *m _)]mulmxA (Cixx0 HG) mul1mx trmxK => /eqP.
  rewrite addrC addr_eq0 => /eqP ->; congr (- _).
  by rewrite /kG mulmxA trM trmxK.
apply: pair_eq => //=; rewrite EG /kG EG mulmxN !mulmxA [CGi *m G^T *m G](Cixx0 HG) mul1mx.
by rewrite mulmxN.
Qed.
Lemma vertical_lift v : vertical x v <-> lift x v = 0.
Proof. by split; [exact: lift_vertical|exact: lift_kernel]. Qed.
Lemma vh_zero v : vertical x v -> horizontal x v -> v = zerop R r a b.
Proof.
move=> [W E] /horP; rewrite E kG_G -mulmxN kH_H trN trmxK => EW.
have W0 : W = 0.
  have : W + W = 0 by rewrite {1}EW addNr.
  by rewrite -mulr2n -scaler_nat => /eqP; rewrite scaler_eq0 pnatr_eq0 /= => /eqP.
by apply: pair_eq; rewrite /= W0 ?(trmx0, oppr0, mulmx0).
Qed.
Lemma horB eta xi : horizontal x eta -> horizontal x xi -> horizontal x (subp eta xi).
Proof.
move=> /horP E1 /horP E2; apply/horP; rewrite /kG /kH subp_fst subp_snd !mulmxBr trD trN.
by rewrite -/(kG eta) -/(kG xi) -/(kH eta) -/(kH xi) E1 E2.
Qed.
Lemma hor_unique eta xi : horizontal x eta -> horizontal x xi -> lift x eta = lift x xi -> eta = xi.
Proof.
move=> E1 E2 E; have V : vertical x (subp eta xi) by apply: lift_kernel; rewrite liftB E subrr.
have Z := vh_zero V (horB E1 E2); apply: pair_eq.
  by have := congr1 (@fst_ _ _ _ _) Z; rewrite subp_fst => /subr0_eq.
by have := congr1 (@snd_ _ _ _ _) Z; rewrite subp_snd => /subr0_eq.
Qed.

Local Notation Lam eta := (half R *: ((kH eta)^T - kG eta)).
Lemma projectionE eta : projection CHOL x eta = Pair (fst_ eta + G *m Lam eta) (snd_ eta - H *m (Lam eta)^T).
Proof.
rewrite /projection /gemm0 /gemm !solveG !solveH !scale1r !mulmxA -/(kG eta) -/(kH eta).
by congr Pair; rewrite addrC // scaleN1r.
Qed.
Lemma proj_hor eta : horizontal x (projection CHOL x eta).
Proof.
apply/horP; rewrite projectionE /kG /kH /= !mulmxDr mulmxN !mulmxA (Cixx0 HG) (Cixx0 HH) !mul1mx.
rewrite -/(kG eta) -/(kH eta) trD trN trmxK.
set A := kG eta; set B := (kH eta)^T; move: A B => A B.
apply/matrixP => i j; rewrite !mxE; move: (A i j) (B i j) (half2 R) => u v Eh.
have -> : u = (half R + half R) * u by rewrite Eh mul1r.
have -> : v = (half R + half R) * v by rewrite Eh mul1r.
move: (half R) Eh => h Eh.
have -> : h * ((h + h) * v - (h + h) * u) = h * v - h * u by rewrite Eh !mul1r mulrBr.
rng R.
Qed.
Lemma proj_ver eta : vertical x (subp eta (projection CHOL x eta)).
Proof.
exists (- Lam eta); apply: pair_eq; rewrite ?subp_fst ?subp_snd projectionE /=.
  by rewrite opprD addrA subrr sub0r mulmxN.
by rewrite opprD addrA subrr sub0r opprK trN mulmxN opprK.
Qed.
Lemma proj_lift eta : lift x (projection CHOL x eta) = lift x eta.
Proof. by have := lift_vertical (proj_ver eta); rewrite liftB => /subr0_eq. Qed.
Lemma proj_unique eta h : horizontal x h -> vertical x (subp eta h) -> h = projection CHOL x eta.
Proof.
move=> Hh Hv; apply: hor_unique => //; first exact: proj_hor.
by rewrite proj_lift; have := lift_vertical Hv; rewrite liftB => /subr0_eq.
Qed.
Lemma proj_same h : horizontal x h -> projection CHOL x h = h.
Proof.
by move=> Hh; apply: hor_unique => //; [exact: proj_hor|exact: proj_lift].
Qed.

(** The metric with one horizontal argument. *)
Local Notation PG := (G *m CGi *m G^T).
Local Notation PH := (H *m CHi *m H^T).
Lemma metric_hor z xi : horizontal x z -> inner (lift x z) (lift x xi) =
  inner ((fst_ z + PG *m fst_ z) *m CH) (fst_ xi) + inner ((snd_ z + PH *m snd_ z) *m CG) (snd_ xi).
Proof.
move=> /horP E; rewrite lift_inner /lift !mulmxDl trD !mulmxDl !trM !trmxK.
have -> : G *m (snd_ z)^T *m H = PG *m fst_ z *m CH.
  have -> : PG *m fst_ z = G *m kG z by rewrite /kG !mulmxA.
  by rewrite E /kH !trM trmxK (Ci_sym H) !mulmxA (Cixx HH).
have -> : H *m (fst_ z)^T *m G = PH *m snd_ z *m CG.
  have -> : PH *m snd_ z = H *m kH z by rewrite /kH !mulmxA.
  have -> : kH z = (kG z)^T by rewrite E trmxK.
  by rewrite /kG !trM trmxK (Ci_sym G) !mulmxA (Cixx HG).
by rewrite !mulmxA; congr (_ + _); rewrite addrC.
Qed.
Lemma half_proj m (P : 'M[R]_m) (A : 'M[R]_(m, r)) : P *m P = P ->
  (A - half R *: (P *m A)) + P *m (A - half R *: (P *m A)) = A.
Proof.
move=> PP; rewrite mulmxBr mulZr mulmxA PP; have Eh := half2 R.
set B := P *m A; move: B => B; apply/matrixP => i j; rewrite !mxE; move: (A i j) (B i j) => u v.
have -> : u - half R * v + (v - half R * v) = u + v - (half R + half R) * v by rng R.
by rewrite Eh mul1r addrK.
Qed.
Lemma gradientE egf : gradient CHOL x egf =
  Pair ((fst_ egf *m CHi) - half R *: (PG *m (fst_ egf *m CHi))) ((snd_ egf *m CGi) - half R *: (PH *m (snd_ egf *m CGi))).
Proof.
rewrite /gradient !solveG !solveH !trM !trmxK (Ci_sym H) (Ci_sym G).
by congr Pair; rewrite !mulZl !mulmxA.
Qed.
Lemma invP egf : invariant_at x egf <-> G^T *m fst_ egf = (H^T *m snd_ egf)^T.
Proof.
have E W : pairing egf (Pair (G *m W) (- (H *m W^T))) = inner (G^T *m fst_ egf - (H^T *m snd_ egf)^T) W.
  rewrite /pairing /= innerNr innerBl; congr (_ - _); first by rewrite inner_mull trmxK.
  by rewrite -[in RHS]inner_tr trmxK inner_mull trmxK.
split=> [Hi|E2 v [W ->]]; last by rewrite E E2 subrr inner0l.
by apply: subr0_eq; apply: inner_eq0; rewrite -E; apply: Hi; eexists.
Qed.
Lemma k_half (u : 'M[R]_(r + a, r)) : CGi *m G^T *m (u - half R *: (PG *m u)) = half R *: (CGi *m G^T *m u).
Proof.
rewrite mulmxBr mulZr !mulmxA (Cixx0 HG) mul1mx -{1}[CGi *m G^T *m u]scale1r -(half2 R) scalerDl addrK //.
Qed.
Lemma k_half' (u : 'M[R]_(r + b, r)) : CHi *m H^T *m (u - half R *: (PH *m u)) = half R *: (CHi *m H^T *m u).
Proof.
rewrite mulmxBr mulZr !mulmxA (Cixx0 HH) mul1mx -{1}[CHi *m H^T *m u]scale1r -(half2 R) scalerDl addrK //.
Qed.
Lemma grad_hor egf : invariant_at x egf -> horizontal x (gradient CHOL x egf).
Proof.
move=> /invP E; apply/horP; rewrite gradientE /kG /kH /= k_half k_half' trZ; congr (_ *: _).
rewrite !trM !trmxK (Ci_sym H) (Ci_sym G) !mulmxA.
by rewrite -[CGi *m G^T *m _]mulmxA E trM trmxK mulmxA.
Qed.
Lemma grad_rep egf xi : invariant_at x egf -> inner (lift x (gradient CHOL x egf)) (lift x xi) = pairing egf xi.
Proof.
move=> Hi; rewrite metric_hor; last exact: grad_hor.
rewrite gradientE /= !half_proj ?(PP HG) ?(PP HH) //.
by rewrite -!mulmxA (CiC HG) (CiC HH) !mulmx1.
Qed.
Lemma grad_unique egf h : invariant_at x egf -> horizontal x h ->
  (forall xi, horizontal x xi -> inner (lift x h) (lift x xi) = pairing egf xi) -> h = gradient CHOL x egf.
Proof.
move=> Hi Hh E; apply: hor_unique => //; first exact: grad_hor.
apply: subr0_eq; rewrite -liftB; apply: inner_eq0; rewrite {1}liftB innerBl E ?grad_rep ?subrr //.
by apply: horB => //; exact: grad_hor.
Qed.
Lemma egrad_inv E : invariant_at x (egrad_of x E).
Proof. by apply/invP; rewrite /= !trM !trmxK mulmxA. Qed.
Lemma egrad_pair E xi : pairing (egrad_of x E) xi = inner E (lift x xi).
Proof. by rewrite lift_inner. Qed.
Lemma grad_normal E : normal_at x (E - lift x (gradient CHOL x (egrad_of x E))).
Proof. by move=> th; rewrite innerBl grad_rep ?egrad_pair ?subrr //; exact: egrad_inv. Qed.

(** The Hessian. *)
Definition QG := 1%:M - PG.
Definition QH := 1%:M - PH.
Lemma QGG : QG *m G = 0.
Proof. by rewrite /QG /QH mulmxBl mul1mx (Px HG) subrr. Qed.
Lemma QHH : QH *m H = 0.
Proof. by rewrite /QG /QH mulmxBl mul1mx (Px HH) subrr. Qed.
Lemma QG_sym : QG^T = QG.
Proof. by rewrite /QG /QH trD trN trmx1 (P_sym G). Qed.
Lemma QH_sym : QH^T = QH.
Proof. by rewrite /QG /QH trD trN trmx1 (P_sym H). Qed.
Lemma GQG : G^T *m QG = 0.
Proof. by rewrite -[LHS]trmxK trM trmxK QG_sym QGG trmx0. Qed.
Lemma HQH : H^T *m QH = 0.
Proof. by rewrite -[LHS]trmxK trM trmxK QH_sym QHH trmx0. Qed.
Local Notation dgrad eta E D := (egrad_diff x eta E D).
Lemma hess_in E D eta : hessian CHOL x (egrad_of x E) eta (dgrad eta E D) =
  projection CHOL x (addp (gradient CHOL x (egrad_of x D))
    (Pair (QG *m E *m QH *m snd_ eta *m CHi) (QH *m E^T *m QG *m fst_ eta *m CGi))).
Proof.
rewrite /hessian gradientE /QG /QH; congr projection; rewrite !solveG !solveH /= !trM !trmxK (Ci_sym G) (Ci_sym H).
congr Pair.
  rewrite !(mulmxBl, mulmxBr, mulmxDl, mulmxDr, mul1mx, mulmx1, mulZl, mulZr, mulmxA, scalerDr).
  exact: hess_comb (half2 R).
rewrite !(mulmxBl, mulmxBr, mulmxDl, mulmxDr, mul1mx, mulmx1, mulZl, mulZr, mulmxA, scalerDr).
exact: hess_comb (half2 R).
Qed.
Lemma hess_hor egf eta exix : horizontal x (hessian CHOL x egf eta exix).
Proof. exact: proj_hor. Qed.
Lemma hess_form E D eta xi :
  inner (lift x (hessian CHOL x (egrad_of x E) eta (dgrad eta E D))) (lift x xi) =
  inner D (lift x xi) + inner E (QG *m (fst_ xi *m (snd_ eta)^T + fst_ eta *m (snd_ xi)^T) *m QH).
Proof.
rewrite hess_in proj_lift liftD innerDl grad_rep ?egrad_pair; last exact: egrad_inv.
congr (_ + _); rewrite lift_inner /lift; set v := Pair _ _.
have E1 : (fst_ v *m H^T + G *m (snd_ v)^T) *m H = QG *m E *m QH *m snd_ eta.
  rewrite mulmxDl /v /= !trM !trmxK QG_sym QH_sym -!mulmxA QHH !mulmx0 addr0 (CiC HH) mulmx1.
  by rewrite !mulmxA.
have E2 : (fst_ v *m H^T + G *m (snd_ v)^T)^T *m G = QH *m E^T *m QG *m fst_ eta.
  rewrite trD mulmxDl /v /= !trM !trmxK QG_sym QH_sym -!mulmxA QGG !mulmx0 add0r (CiC HG) mulmx1.
  by rewrite !mulmxA.
rewrite E1 E2 mulmxDr mulmxDl innerDr; congr (_ + _).
  by rewrite -!mulmxA inner_mull QG_sym inner_mulr trM QH_sym -mulmxA.
rewrite -!mulmxA inner_mull QH_sym inner_mulr trM QG_sym -[in LHS]inner_tr trmxK !trM !trmxK QG_sym QH_sym.
by rewrite !mulmxA.
Qed.
Lemma normal_zero A : normal_at x A -> A *m H = 0 /\ A^T *m G = 0.
Proof.
move=> HA; have := HA (Pair (A *m H) (A^T *m G)); rewrite lift_inner /= => /eqP.
by rewrite paddr_eq0 ?inner_ge0 // => /andP [/eqP /inner_eq0 -> /eqP /inner_eq0 ->].
Qed.
Lemma normal_QQ A : normal_at x A -> QG *m A *m QH = A.
Proof.
move=> /normal_zero [E1 E2]; rewrite /QG /QH mulmxBl mul1mx -!mulmxA.
have -> : G^T *m A = 0 by rewrite -[LHS]trmxK trM trmxK E2 trmx0.
by rewrite !mulmx0 subr0 mulmxBr mulmx1 !mulmxA E1 !mul0mx subr0.
Qed.
Lemma QQ_lift th : QG *m lift x th *m QH = 0.
Proof. by rewrite /lift mulmxDr mulmxDl -!mulmxA HQH [QG *m (G *m _)]mulmxA QGG mul0mx !mulmx0 addr0. Qed.
Lemma hess_normal E D eta xi zeta (A := fst_ xi *m (snd_ eta)^T + fst_ eta *m (snd_ xi)^T + lift x zeta) :
  normal_at x A ->
  inner (lift x (hessian CHOL x (egrad_of x E) eta (dgrad eta E D))) (lift x xi) = inner D (lift x xi) + inner E A.
Proof.
move=> HA; rewrite hess_form; congr (_ + inner E _); rewrite -[RHS](normal_QQ HA) /A.
by move: (fst_ xi *m _ + _) => B; rewrite [in RHS]mulmxDr [in RHS]mulmxDl QQ_lift addr0.
Qed.
Lemma normal_exists (X : 'M[R]_(r + a, r + b)) : exists zeta, normal_at x (X + lift x zeta).
Proof.
exists (Pair (- (QG *m X *m H *m CHi)) (- (X^T *m G *m CGi))).
have -> : X + lift x (Pair (- (QG *m X *m H *m CHi)) (- (X^T *m G *m CGi))) = QG *m X *m QH.
  rewrite /lift /= trN !trM trmxK (Ci_sym G) /QH mulmxBr mulmx1 mulNmx mulmxN !mulmxA.
  rewrite [in LHS]addrCA [RHS]addrC; congr (_ + _).
  by rewrite /QG mulmxBl mul1mx ?mulmxA.
move=> th; rewrite lift_inner !trM QG_sym QH_sym -!mulmxA QHH QGG !mulmx0 !inner0l addr0 //.
Qed.
Lemma hess_self E D1 D2 eta xi : inner D1 (lift x xi) = inner D2 (lift x eta) ->
  inner (lift x (hessian CHOL x (egrad_of x E) eta (dgrad eta E D1))) (lift x xi) =
  inner (lift x eta) (lift x (hessian CHOL x (egrad_of x E) xi (dgrad xi E D2))).
Proof.
move=> Hs; apply: etrans (hess_form E D1 eta xi) _; apply: etrans (innerC _ _).
apply: etrans (esym (hess_form E D2 xi eta)); by rewrite Hs [fst_ xi *m _ + _]addrC.
Qed.
End point.
End two.
