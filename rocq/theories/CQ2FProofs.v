(** Proofs about metric, projection, gradient and Hessian of CFixedRankQ2F. *)
From mathcomp Require Import all_ssreflect all_algebra.
From mathcomp.real_closed Require Import complex.
Require Import Ring Field.
From Verif Require Import MxTac StiefelModel CStieSpec CStieModel CMx CStieProofs CFrSpec CQ2FModel CQ2FSpec CFr.
Import Order.TTheory GRing.Theory Num.Theory.
Set Implicit Arguments.
Unset Strict Implicit.
Local Open Scope ring_scope.
Local Open Scope complex_scope.

Section two.
Variable R : rcfType.
Local Notation C := R[i].
Add Field cq2f_field : (rcf_field R).
Add Ring cq2f_ring : (kring R).
Variables r a b : nat.
Local Notation vec := (cpair R r a b).
Implicit Types x eta xi : vec.

Lemma hess_comb m n (a1 a2 a3 a4 a5 a6 : 'M[C]_(m, n)) (h : C) : h + h = 1 ->
  a1 + a2 - (h *: a3 + h *: a4) + (a5 - a6 - h *: a4) = (a1 - h *: a3) + (a2 - a4 - (a6 - a5)).
Proof.
move=> E; have -> : a2 - a4 = a2 - (h *: a4 + h *: a4) by rewrite -scalerDl E scale1r.
apply/matrixP => i j; rewrite !mxE; krng R.
Qed.
Lemma pair_eq eta xi : cfst eta = cfst xi -> csnd eta = csnd xi -> eta = xi.
Proof. by case: eta xi => [w z] [w' z'] /= -> ->. Qed.
Lemma liftD x eta xi : lift x (addp eta xi) = lift x eta + lift x xi.
Proof. by rewrite /lift /= mulmxDl adjD mulmxDr addrACA. Qed.
Lemma liftZ x t eta : lift x (scalep t eta) = t%:C *: lift x eta.
Proof. by rewrite /lift /= kmulZl adjR kmulZr scalerDr. Qed.
Lemma liftB x eta xi : lift x (subp eta xi) = lift x eta - lift x xi.
Proof. by rewrite liftD liftZ rcN scaleN1r. Qed.
Lemma lift0 x : lift x (zerop R r a b) = 0.
Proof. by rewrite /lift /= mul0mx adj0 mulmx0 addr0. Qed.
Lemma subp_fst eta xi : cfst (subp eta xi) = cfst eta - cfst xi.
Proof. by rewrite /= rcN scaleN1r. Qed.
Lemma subp_snd eta xi : csnd (subp eta xi) = csnd eta - csnd xi.
Proof. by rewrite /= rcN scaleN1r. Qed.

(** The inner product of lifts, in terms of the factors. *)
Lemma lift_inner x (A : 'M[C]_(r + a, r + b)) xi : cinner A (lift x xi) =
  cinner (A *m csnd x) (cfst xi) + cinner (adj A *m cfst x) (csnd xi).
Proof.
rewrite /lift cinnerDr; congr (_ + _); first by rewrite cinner_mulr.
by rewrite cinner_mulr -[in LHS]cinner_adj adjM adjK.
Qed.

Lemma metricE x eta xi : metric x eta xi = cinner (lift x eta) (lift x xi).
Proof.
rewrite lift_inner /metric !cdotE /cgemm0 !scale1r add0r /lift !mulmxDl adjD !mulmxDl !adjM !adjK !cinnerDl.
set G := cfst x; set H := csnd x; set eG := cfst eta; set eH := csnd eta; set tG := cfst xi; set tH := csnd xi.
have -> : cinner (adj G *m G) (adj tH *m eH) = cinner (eH *m adj G *m G) tH.
  by rewrite -[in RHS]mulmxA [in RHS]cinner_mull -[in RHS]cinner_adj !adjM !adjK.
have -> : cinner (adj H *m H) (adj eG *m tG) = cinner (eG *m adj H *m H) tG by rewrite -[in RHS]mulmxA [in RHS]cinner_mull.
have -> : cinner (adj H *m eH) (adj tG *m G) = cinner (G *m adj eH *m H) tG.
  by rewrite -[in RHS]mulmxA [in RHS]cinner_mull -[in RHS]cinner_adj !adjM !adjK.
have -> : cinner (adj tH *m H) (adj G *m eG) = cinner (H *m adj eG *m G) tH.
  by rewrite -[in RHS]mulmxA [in RHS]cinner_mull -[in RHS]cinner_adj !adjM !adjK cinnerC.
move: (cinner _ _) (cinner _ _) (cinner _ _) (cinner _ _) => u v w z; rng R.
Qed.

Section point.
Variable CHOL : 'M[C]_r -> 'M[C]_r.
Hypothesis HC : cchol_ok CHOL.
Variable x : vec.
Hypothesis Hx : is_point x.
Local Notation G := (cfst x).
Local Notation H := (csnd x).
Local Notation CG := (adj G *m G).
Local Notation CH := (adj H *m H).
Local Notation CGi := (invmx (adj G *m G)).
Local Notation CHi := (invmx (adj H *m H)).
Let HG : cfull_rank G := Hx.1.
Let HH : cfull_rank H := Hx.2.
Lemma solveG q (B : 'M[C]_(r, q)) : cchol_solve (LG_of CHOL x) B = CGi *m B.
Proof. by apply: cchol_solveE; apply: HC; exact: cposdef_gram. Qed.
Lemma solveH q (B : 'M[C]_(r, q)) : cchol_solve (LH_of CHOL x) B = CHi *m B.
Proof. by apply: cchol_solveE; apply: HC; exact: cposdef_gram. Qed.

(** The components of a vector along the ranges of G and H. *)
Definition kG eta := CGi *m adj G *m cfst eta.
Definition kH eta := CHi *m adj H *m csnd eta.
Lemma kG_G (W : 'M[C]_r) Z : kG (CPair (G *m W) Z) = W.
Proof. by rewrite /kG /= mulmxA (Cixx0 HG) mul1mx. Qed.
Lemma kH_H (W : 'M[C]_r) Z : kH (CPair Z (H *m W)) = W.
Proof. by rewrite /kH /= mulmxA (Cixx0 HH) mul1mx. Qed.
Lemma horP eta : horizontal x eta <-> kG eta = (adj (kH eta)).
Proof.
split=> [[K [Z1 [Z2 [E1 E2 E3 E4]]]]|E].
  rewrite /kG /kH E3 E4 !mulmxDr !mulmxA (Cixx0 HG) (Cixx0 HH) !mul1mx -!mulmxA E1 E2 !mulmx0 !addr0.
  by rewrite adjK.
exists (kG eta), (cfst eta - G *m kG eta), (csnd eta - H *m kH eta); split.
- by rewrite mulmxBr /kG !mulmxA (xxCi0 HG) mul1mx subrr.
- by rewrite mulmxBr /kH !mulmxA (xxCi0 HH) mul1mx subrr.
- by rewrite addrC subrK.
by rewrite E adjK addrC subrK.
Qed.
Lemma lift_vertical v : vertical x v -> lift x v = 0.
Proof. by move=> [W ->]; rewrite /lift /= adjN adjM adjK mulmxN mulmxA subrr. Qed.
Lemma lift_kernel v : lift x v = 0 -> vertical x v.
Proof.
rewrite /lift => E; exists (kG v).
have EG : cfst v = - (G *m (adj (kH v))).
  have := congr1 (fun A => A *m H *m CHi) E; rewrite !mulmxDl !mul0mx (xxCi HH) => /eqP.
  rewrite addr_eq0 => /eqP ->; congr (- _).
  by rewrite /kH !adjM adjK (Ci_sym HH) !mulmxA.
have EH : csnd v = - (H *m (adj (kG v))).
  have := congr1 (fun A => (adj (CGi *m adj G *m A))) E; rewrite mulmxDr mulmx0 adj0 adjD.
  rewrite [CGi *m adj G *m (G *m _)]mulmxA (Cixx0 HG) mul1mx adjK => /eqP.
  rewrite addrC addr_eq0 => /eqP ->; congr (- _).
  by rewrite /kG mulmxA adjM adjK.
apply: pair_eq => //=; rewrite EG /kG EG mulmxN !mulmxA [CGi *m adj G *m G](Cixx0 HG) mul1mx.
by rewrite mulmxN.
Qed.
Lemma vertical_lift v : vertical x v <-> lift x v = 0.
Proof. by split; [exact: lift_vertical|exact: lift_kernel]. Qed.
Lemma vh_zero v : vertical x v -> horizontal x v -> v = zerop R r a b.
Proof.
move=> [W E] /horP; rewrite E kG_G -mulmxN kH_H adjN adjK => EW.
have W0 : W = 0.
  have : W + W = 0 by rewrite {1}EW addNr.
  by rewrite -mulr2n -scaler_nat => /eqP; rewrite scaler_eq0 pnatr_eq0 /= => /eqP.
by apply: pair_eq; rewrite /= W0 ?(adj0, oppr0, mulmx0).
Qed.
Lemma horB eta xi : horizontal x eta -> horizontal x xi -> horizontal x (subp eta xi).
Proof.
move=> /horP E1 /horP E2; apply/horP; rewrite /kG /kH subp_fst subp_snd !mulmxBr adjD adjN.
by rewrite -/(kG eta) -/(kG xi) -/(kH eta) -/(kH xi) E1 E2.
Qed.
Lemma hor_unique eta xi : horizontal x eta -> horizontal x xi -> lift x eta = lift x xi -> eta = xi.
Proof.
move=> E1 E2 E; have V : vertical x (subp eta xi) by apply: lift_kernel; rewrite liftB E subrr.
have Z := vh_zero V (horB E1 E2); apply: pair_eq.
  by have := congr1 (@cfst _ _ _ _) Z; rewrite subp_fst => /subr0_eq.
by have := congr1 (@csnd _ _ _ _) Z; rewrite subp_snd => /subr0_eq.
Qed.

Local Notation Lam eta := ((half R)%:C *: ((adj (kH eta)) - kG eta)).
Lemma projectionE eta : projection CHOL x eta = CPair (cfst eta + G *m Lam eta) (csnd eta - H *m (adj (Lam eta))).
Proof.
rewrite /projection /cgemm0 /cgemm !solveG !solveH !scale1r !mulmxA -/(kG eta) -/(kH eta).
by congr CPair; rewrite addrC // scaleN1r.
Qed.
Lemma proj_hor eta : horizontal x (projection CHOL x eta).
Proof.
apply/horP; rewrite projectionE /kG /kH /= !mulmxDr mulmxN !mulmxA (Cixx0 HG) (Cixx0 HH) !mul1mx.
rewrite -/(kG eta) -/(kH eta) adjD adjN adjK.
set A := kG eta; set B := (adj (kH eta)); move: A B => A B.
apply/matrixP => i j; rewrite !mxE; move: (A i j) (B i j) (chalf2 R) => u v Eh.
have -> : u = ((half R)%:C + (half R)%:C) * u by rewrite Eh mul1r.
have -> : v = ((half R)%:C + (half R)%:C) * v by rewrite Eh mul1r.
move: ((half R)%:C) Eh => h Eh.
have -> : h * ((h + h) * v - (h + h) * u) = h * v - h * u by rewrite Eh !mul1r mulrBr.
krng R.
Qed.
Lemma proj_ver eta : vertical x (subp eta (projection CHOL x eta)).
Proof.
exists (- Lam eta); apply: pair_eq; rewrite ?subp_fst ?subp_snd projectionE /=.
  by rewrite opprD addrA subrr sub0r mulmxN.
by rewrite opprD addrA subrr sub0r opprK adjN mulmxN opprK.
Qed.
Lemma proj_lift eta : lift x (projection CHOL x eta) = lift x eta.
Proof. by have := lift_vertical (proj_ver eta); rewrite liftB => /subr0_eq. Qed.
Lemma proj_unique eta h : horizontal x h -> vertical x (subp eta h) -> h = projection CHOL x eta.
Proof.
move=> Hh Hv; apply: hor_unique => //; first exact: proj_hor.
by rewrite proj_lift; have := lift_vertical Hv; rewrite liftB => /subr0_eq.
Qed.
Lemma proj_same h : horizontal x h -> projection CHOL x h = h.
Proof.
by move=> Hh; apply: hor_unique => //; [exact: proj_hor|exact: proj_lift].
Qed.

(** The metric with one horizontal argument. *)
Local Notation PG := (G *m CGi *m adj G).
Local Notation PH := (H *m CHi *m adj H).
Lemma metric_hor z xi : horizontal x z -> cinner (lift x z) (lift x xi) =
  cinner ((cfst z + PG *m cfst z) *m CH) (cfst xi) + cinner ((csnd z + PH *m csnd z) *m CG) (csnd xi).
Proof.
move=> /horP E; rewrite lift_inner /lift !mulmxDl adjD !mulmxDl !adjM !adjK.
have -> : G *m (adj (csnd z)) *m H = PG *m cfst z *m CH.
  have -> : PG *m cfst z = G *m kG z by rewrite /kG !mulmxA.
  by rewrite E /kH !adjM adjK (Ci_sym HH) !mulmxA (Cixx HH).
have -> : H *m (adj (cfst z)) *m G = PH *m csnd z *m CG.
  have -> : PH *m csnd z = H *m kH z by rewrite /kH !mulmxA.
  have -> : kH z = (adj (kG z)) by rewrite E adjK.
  by rewrite /kG !adjM adjK (Ci_sym HG) !mulmxA (Cixx HG).
by rewrite !mulmxA; congr (_ + _); rewrite addrC.
Qed.
Lemma half_proj m (P : 'M[C]_m) (A : 'M[C]_(m, r)) : P *m P = P ->
  (A - (half R)%:C *: (P *m A)) + P *m (A - (half R)%:C *: (P *m A)) = A.
Proof.
move=> PP; rewrite mulmxBr kmulZr mulmxA PP; have Eh := chalf2 R.
set B := P *m A; move: B => B; apply/matrixP => i j; rewrite !mxE; move: (A i j) (B i j) => u v.
have -> : u - (half R)%:C * v + (v - (half R)%:C * v) = u + v - ((half R)%:C + (half R)%:C) * v by krng R.
by rewrite Eh mul1r addrK.
Qed.
Lemma gradientE egf : gradient CHOL x egf =
  CPair ((cfst egf *m CHi) - (half R)%:C *: (PG *m (cfst egf *m CHi))) ((csnd egf *m CGi) - (half R)%:C *: (PH *m (csnd egf *m CGi))).
Proof.
rewrite /gradient !solveG !solveH !adjM !adjK (Ci_sym HH) (Ci_sym HG).
by congr CPair; rewrite !kmulZl !mulmxA.
Qed.
Lemma invP egf : invariant_at x egf <-> adj G *m cfst egf = (adj (adj H *m csnd egf)).
Proof.
have E W : pairing egf (CPair (G *m W) (- (H *m adj W))) = cinner (adj G *m cfst egf - (adj (adj H *m csnd egf))) W.
  rewrite /pairing /= cinnerNr cinnerBl; congr (_ - _); first by rewrite cinner_mull adjK.
  by rewrite -[in RHS]cinner_adj adjK cinner_mull adjK.
split=> [Hi|E2 v [W ->]]; last by rewrite E E2 subrr cinner0l.
by apply: subr0_eq; apply: cinner_eq0; rewrite -E; apply: Hi; eexists.
Qed.
Lemma k_half (u : 'M[C]_(r + a, r)) : CGi *m adj G *m (u - (half R)%:C *: (PG *m u)) = (half R)%:C *: (CGi *m adj G *m u).
Proof.
rewrite mulmxBr kmulZr !mulmxA (Cixx0 HG) mul1mx -{1}[CGi *m adj G *m u]scale1r -(chalf2 R) scalerDl addrK //.
Qed.
Lemma k_half' (u : 'M[C]_(r + b, r)) : CHi *m adj H *m (u - (half R)%:C *: (PH *m u)) = (half R)%:C *: (CHi *m adj H *m u).
Proof.
rewrite mulmxBr kmulZr !mulmxA (Cixx0 HH) mul1mx -{1}[CHi *m adj H *m u]scale1r -(chalf2 R) scalerDl addrK //.
Qed.
Lemma grad_hor egf : invariant_at x egf -> horizontal x (gradient CHOL x egf).
Proof.
move=> /invP E; apply/horP; rewrite gradientE /kG /kH /= k_half k_half' adjR; congr (_ *: _).
rewrite !adjM !adjK (Ci_sym HH) (Ci_sym HG) !mulmxA.
by rewrite -[CGi *m adj G *m _]mulmxA E adjM adjK mulmxA.
Qed.
Lemma grad_rep egf xi : invariant_at x egf -> cinner (lift x (gradient CHOL x egf)) (lift x xi) = pairing egf xi.
Proof.
move=> Hi; rewrite metric_hor; last exact: grad_hor.
rewrite gradientE /= !half_proj ?(PP HG) ?(PP HH) //.
by rewrite -!mulmxA (CiC HG) (CiC HH) !mulmx1.
Qed.
Lemma grad_unique egf h : invariant_at x egf -> horizontal x h ->
  (forall xi, horizontal x xi -> cinner (lift x h) (lift x xi) = pairing egf xi) -> h = gradient CHOL x egf.
Proof.
move=> Hi Hh E; apply: hor_unique => //; first exact: grad_hor.
apply: subr0_eq; rewrite -liftB; apply: cinner_eq0; rewrite {1}liftB cinnerBl E ?grad_rep ?subrr //.
by apply: horB => //; exact: grad_hor.
Qed.
Lemma egrad_inv E : invariant_at x (egrad_of x E).
Proof. by apply/invP; rewrite /= !adjM !adjK mulmxA. Qed.
Lemma egrad_pair E xi : pairing (egrad_of x E) xi = cinner E (lift x xi).
Proof. by rewrite lift_inner. Qed.
Lemma grad_normal E : normal_at x (E - lift x (gradient CHOL x (egrad_of x E))).
Proof. by move=> th; rewrite cinnerBl grad_rep ?egrad_pair ?subrr //; exact: egrad_inv. Qed.

(** The Hessian. *)
Definition QG := 1%:M - PG.
Definition QH := 1%:M - PH.
Lemma QGG : QG *m G = 0.
Proof. by rewrite /QG /QH mulmxBl mul1mx (Px HG) subrr. Qed.
Lemma QHH : QH *m H = 0.
Proof. by rewrite /QG /QH mulmxBl mul1mx (Px HH) subrr. Qed.
Lemma QG_sym : adj QG = QG.
Proof. by rewrite /QG /QH adjD adjN adj1 (P_sym HG). Qed.
Lemma QH_sym : adj QH = QH.
Proof. by rewrite /QG /QH adjD adjN adj1 (P_sym HH). Qed.
Lemma GQG : adj G *m QG = 0.
Proof. by rewrite -[LHS]adjK adjM adjK QG_sym QGG adj0. Qed.
Lemma HQH : adj H *m QH = 0.
Proof. by rewrite -[LHS]adjK adjM adjK QH_sym QHH adj0. Qed.
Local Notation dgrad eta E D := (egrad_diff x eta E D).
Lemma hess_in E D eta : hessian CHOL x (egrad_of x E) eta (dgrad eta E D) =
  projection CHOL x (addp (gradient CHOL x (egrad_of x D))
    (CPair (QG *m E *m QH *m csnd eta *m CHi) (QH *m adj E *m QG *m cfst eta *m CGi))).
Proof.
rewrite /hessian gradientE /QG /QH; congr projection; rewrite !solveG !solveH /= !adjM !adjK (Ci_sym HG) (Ci_sym HH).
congr CPair.
  rewrite !(mulmxBl, mulmxBr, mulmxDl, mulmxDr, mul1mx, mulmx1, kmulZl, kmulZr, mulmxA, scalerDr).
  exact: hess_comb (chalf2 R).
rewrite !(mulmxBl, mulmxBr, mulmxDl, mulmxDr, mul1mx, mulmx1, kmulZl, kmulZr, mulmxA, scalerDr).
exact: hess_comb (chalf2 R).
Qed.
Lemma hess_hor egf eta exix : horizontal x (hessian CHOL x egf eta exix).
Proof. exact: proj_hor. Qed.
Lemma hess_form E D eta xi :
  cinner (lift x (hessian CHOL x (egrad_of x E) eta (dgrad eta E D))) (lift x xi) =
  cinner D (lift x xi) + cinner E (QG *m (cfst xi *m (adj (csnd eta)) + cfst eta *m (adj (csnd xi))) *m QH).
Proof.
rewrite hess_in proj_lift liftD cinnerDl grad_rep ?egrad_pair; last exact: egrad_inv.
congr (_ + _); rewrite lift_inner /lift; set v := CPair _ _.
have E1 : (cfst v *m adj H + G *m (adj (csnd v))) *m H = QG *m E *m QH *m csnd eta.
  rewrite mulmxDl /v /= !adjM !adjK QG_sym QH_sym -!mulmxA QHH !mulmx0 addr0 (CiC HH) mulmx1.
  by rewrite !mulmxA.
have E2 : (adj (cfst v *m adj H + G *m (adj (csnd v)))) *m G = QH *m adj E *m QG *m cfst eta.
  rewrite adjD mulmxDl /v /= !adjM !adjK QG_sym QH_sym -!mulmxA QGG !mulmx0 add0r (CiC HG) mulmx1.
  by rewrite !mulmxA.
rewrite E1 E2 mulmxDr mulmxDl cinnerDr; congr (_ + _).
  by rewrite -!mulmxA cinner_mull QG_sym cinner_mulr adjM QH_sym -mulmxA.
rewrite -!mulmxA cinner_mull QH_sym cinner_mulr adjM QG_sym -[in LHS]cinner_adj adjK !adjM !adjK QG_sym QH_sym.
by rewrite !mulmxA.
Qed.
Lemma normal_zero A : normal_at x A -> A *m H = 0 /\ adj A *m G = 0.
Proof.
move=> HA; have := HA (CPair (A *m H) (adj A *m G)); rewrite lift_inner /= => /eqP.
by rewrite paddr_eq0 ?cinner_ge0 // => /andP [/eqP /cinner_eq0 -> /eqP /cinner_eq0 ->].
Qed.
Lemma normal_QQ A : normal_at x A -> QG *m A *m QH = A.
Proof.
move=> /normal_zero [E1 E2]; rewrite /QG /QH mulmxBl mul1mx -!mulmxA.
have -> : adj G *m A = 0 by rewrite -[LHS]adjK adjM adjK E2 adj0.
by rewrite !mulmx0 subr0 mulmxBr mulmx1 !mulmxA E1 !mul0mx subr0.
Qed.
Lemma QQ_lift th : QG *m lift x th *m QH = 0.
Proof. by rewrite /lift mulmxDr mulmxDl -!mulmxA HQH [QG *m (G *m _)]mulmxA QGG mul0mx !mulmx0 addr0. Qed.
Lemma hess_normal E D eta xi zeta (A := cfst xi *m (adj (csnd eta)) + cfst eta *m (adj (csnd xi)) + lift x zeta) :
  normal_at x A ->
  cinner (lift x (hessian CHOL x (egrad_of x E) eta (dgrad eta E D))) (lift x xi) = cinner D (lift x xi) + cinner E A.
Proof.
move=> HA; rewrite hess_form; congr (_ + cinner E _); rewrite -[RHS](normal_QQ HA) /A.
by move: (cfst xi *m _ + _) => B; rewrite [in RHS]mulmxDr [in RHS]mulmxDl QQ_lift addr0.
Qed.
Lemma normal_exists (X : 'M[C]_(r + a, r + b)) : exists zeta, normal_at x (X + lift x zeta).
Proof.
exists (CPair (- (QG *m X *m H *m CHi)) (- (adj X *m G *m CGi))).
have -> : X + lift x (CPair (- (QG *m X *m H *m CHi)) (- (adj X *m G *m CGi))) = QG *m X *m QH.
  rewrite /lift /= adjN !adjM adjK (Ci_sym HG) /QH mulmxBr mulmx1 mulNmx mulmxN !mulmxA.
  rewrite [in LHS]addrCA [RHS]addrC; congr (_ + _).
  by rewrite /QG mulmxBl mul1mx ?mulmxA.
move=> th; rewrite lift_inner !adjM QG_sym QH_sym -!mulmxA QHH QGG !mulmx0 !cinner0l addr0 //.
Qed.
Lemma hess_self E D1 D2 eta xi : cinner D1 (lift x xi) = cinner D2 (lift x eta) ->
  cinner (lift x (hessian CHOL x (egrad_of x E) eta (dgrad eta E D1))) (lift x xi) =
  cinner (lift x eta) (lift x (hessian CHOL x (egrad_of x E) xi (dgrad xi E D2))).
Proof.
move=> Hs; apply: etrans (hess_form E D1 eta xi) _; apply: etrans (cinnerC _ _).
apply: etrans (esym (hess_form E D2 xi eta)); by rewrite Hs [cfst xi *m _ + _]addrC.
Qed.
End point.
End two.
