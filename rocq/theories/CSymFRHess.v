(** Proofs about gradients and Hessians of CSymFixedRankQ. *)
From mathcomp Require Import all_ssreflect all_algebra.
From mathcomp.real_closed Require Import complex.
Require Import Ring Field.
From Verif Require StiefelProofs.
From Verif Require Import MxTac StiefelModel CStieSpec CStieModel CMx CStieProofs CStiePolar CFrSpec CFr CSymFRModel CSymFRSpec CSymFRProofs.
Import Order.TTheory GRing.Theory Num.Theory.
Set Implicit Arguments.
Unset Strict Implicit.
Local Open Scope ring_scope.
Local Open Scope complex_scope.

Section hess.
Variable R : rcfType.
Local Notation C := R[i].
Local Notation re := (@complex.Re R).
Add Field csfrh_field : (rcf_field R).
Add Ring csfrh_ring : (kring R).
Variables p k : nat.
Local Notation ext := 'M[C]_(p + k, p).
Implicit Types eta xi g e h : ext.
Variable x : ext.
Hypothesis Hx : cfull_rank x.
Local Notation G := (adj x *m x).
Local Notation Gi := (invmx (adj x *m x)).
Local Notation P := (x *m Gi *m adj x).

(** The metric EUC with a horizontal vector. *)
Lemma g_euc_hor h xi : horizontal x xi -> g_of CSF_EUC x h xi = 2%:R * cinner (h *m G) (xi + P *m xi).
Proof.
move=> /(horP Hx) HS; rewrite /g_of mxtraceD reD; congr (_ * _).
have -> : re (\tr (adj x *m x *m adj h *m xi)) = cinner (h *m G) xi by rewrite /cinner adjM C_sym.
rewrite cinnerDr addrC; congr (_ + _).
have -> : re (\tr (adj x *m h *m adj x *m xi)) = cinner (adj x *m h) (adj xi *m x).
  by rewrite -[in RHS]cinner_adj /cinner; kmxz; rewrite -mxtrace_mulC !mulmxA.
have -> : adj xi *m x = Gi *m adj x *m xi *m G.
  by rewrite -HS; kmxz; rewrite Ci_sym // Cixx.
rewrite cinnerC cinner_mulr C_sym cinnerC -mulmxA cinner_mull adjK.
by rewrite -!mulmxA.
Qed.
Lemma gradient_eucE g : gradient CSF_EUC x g *m G = (half R)%:C *: (g - (half R)%:C *: (P *m g)).
Proof.
rewrite /gradient /cgemm /cgemm0 !scale1r; kmxz; rewrite !scaleNr.
by rewrite !Cixx // addrC scalerBr scalerA.
Qed.
Lemma grad_rep s g xi : horizontal x xi -> g_of s x (gradient s x g) xi = cinner g xi.
Proof.
case: s => Hxi.
- rewrite g_euc_hor // gradient_eucE cinnerZl half_inverse // mulrA [_ * half R]mulrC StiefelProofs.half2' mul1r //.
by rewrite g_hgzE // /gradient /cgemm0 !scale1r -mulmxA CiC // mulmx1.
Qed.
Lemma grad_hor s g : invariant_at x g -> horizontal x (gradient s x g).
Proof.
move=> /inv_sym HM; have HM' : adj g *m x = adj x *m g by rewrite -HM adjM adjK.
case: s.
- apply/(horP Hx); rewrite /gradient /cgemm /cgemm0 !scale1r !scaleNr /hermitian; kmxz; rewrite !Cixx0 // !mul1mx ?Ci_sym ?xxCi //.
  by rewrite -!(mulmxA Gi (adj g) x) HM' !mulmxA.
- apply/(horP Hx); rewrite /gradient /cgemm0 !scale1r /hermitian; kmxz; rewrite !Ci_sym //.
  by rewrite -!(mulmxA Gi (adj g) x) HM'; kmxz.
Qed.
Lemma grad_unique s g h : invariant_at x g -> horizontal x h ->
  (forall xi, horizontal x xi -> g_of s x h xi = cinner g xi) -> h = gradient s x g.
Proof.
move=> Hi Hh H; have Hg := grad_hor s Hi.
have Hd : horizontal x (h - gradient s x g) by apply: horB.
apply/eqP; rewrite -subr_eq0; apply/eqP; apply: (g_pos Hx s Hd).2.
by rewrite g_subr // H // grad_rep // subrr.
Qed.

(** ** Hessians *)
Lemma hess_hgzE g eta e : hess_hgz x g eta e *m G = e
  - (half R)%:C *: (g *m Gi *m adj x *m eta + x *m (adj (g *m Gi)) *m eta - eta *m adj x *m (g *m Gi)
   + x *m adj eta *m (g *m Gi) - eta *m (adj (g *m Gi)) *m x + g *m Gi *m adj eta *m x).
Proof.
rewrite /hess_hgz /cgemm /cgemm0 !scale1r -mulmxA CiC // mulmx1; kmxz.
by rewrite !scalerDr !scaleNr !scalerN !opprD !opprK !addrA; apply/matrixP => i j; rewrite !mxE; krng R.
Qed.
Lemma hess_euc_E g eta e : hess_euc x g eta e *m G = (half R)%:C *: (e - (half R)%:C *: (P *m e)
  - (half R)%:C *: (x *m Gi *m adj g *m eta) - (g *m Gi *m adj x *m eta) + P *m (g *m Gi *m adj x *m eta)).
Proof.
rewrite /hess_euc /cgemm /cgemm0 !scale1r kmulZl -mulmxA CiC // mulmx1; kmxz; rewrite Ci_sym //.
congr (_ *: _); apply/matrixP => i j; rewrite !mxE; krng R.
Qed.
Lemma hess_hgz_form g eta xi e : horizontal x xi ->
  g_of CSF_HGZ x (hessian CSF_HGZ x g eta e) xi = cinner e xi -
    half R * (dg_hgz x eta xi (gradient CSF_HGZ x g) + dg_hgz x xi eta (gradient CSF_HGZ x g)
      - dg_hgz x (gradient CSF_HGZ x g) eta xi).
Proof.
move=> Hxi; rewrite /hessian proj_g // g_hgzE // hess_hgzE cinnerBl cinnerZl; congr (_ - _ * _).
rewrite /gradient /cgemm0 scale1r; move: (g *m Gi) => G0; rewrite /dg_hgz !cinnerDl !cinnerNl /cinner; kmxz.
have E1 : re (\tr (adj x *m eta *m adj xi *m G0)) = re (\tr (adj eta *m x *m adj G0 *m xi)).
  by rewrite -re_trace_adj; kmxz; rewrite -mulmxA mxtrace_mulC !mulmxA.
have E2 : re (\tr (adj eta *m x *m adj xi *m G0)) = re (\tr (adj x *m eta *m adj G0 *m xi)).
  by rewrite -re_trace_adj; kmxz; rewrite -mulmxA mxtrace_mulC !mulmxA.
have E3 : re (\tr (adj xi *m x *m adj eta *m G0)) = re (\tr (adj G0 *m eta *m adj x *m xi)) by rewrite -re_trace_adj; kmxz.
have E4 : re (\tr (adj x *m xi *m adj eta *m G0)) = re (\tr (adj eta *m G0 *m adj x *m xi)).
  by rewrite -mulmxA mxtrace_mulC !mulmxA.
rewrite !mxtraceD !reD E1 E2 E3 E4; do 6!move: (re (\tr _)) => ?; rng R.
Qed.
Lemma dg_sym z eta xi : dg_hgz x z eta xi = dg_hgz x z xi eta.
Proof.
rewrite /dg_hgz; have : (adj (adj z *m x + adj x *m z)) = adj z *m x + adj x *m z by kmxz; rewrite addrC.
by move: (_ + _) => S HS; rewrite -re_trace_adj !adjM HS adjK mulmxA mxtrace_mulC mulmxA.
Qed.

(** The metric EUC: second derivative along a curve with normal acceleration. *)
Local Notation Q := (1%:M - P).
Lemma hess_euc_form g eta xi e : horizontal x xi ->
  g_of CSF_EUC x (hessian CSF_EUC x g eta e) xi =
  cinner e xi - cinner (x *m Gi *m adj g *m eta) xi - cinner (Q *m (g *m Gi *m adj x *m eta)) xi.
Proof.
move=> Hxi; rewrite /hessian proj_g // g_euc_hor // hess_euc_E cinnerZl mulrA [_ * half R]mulrC StiefelProofs.half2' mul1r.
set u := x *m Gi *m adj g *m eta; set w := g *m Gi *m adj x *m eta.
have Pu : P *m u = u by rewrite /u !mulmxA Cixx.
have -> : e - (half R)%:C *: (P *m e) - (half R)%:C *: u - w + P *m w = (e - (half R)%:C *: (P *m e)) - ((half R)%:C *: u) - (w - P *m w).
  by apply/matrixP => i j; rewrite !mxE; krng R.
rewrite mulmxBl mul1mx 2!cinnerBl half_inverse //; congr (_ - _ - _).
  by rewrite cinnerZl cinnerDr -(P_inner Hx u xi) Pu -mulr2n -mulr_natl mulrA StiefelProofs.half2' mul1r.
rewrite cinnerDr -(P_inner Hx _ xi) mulmxBr PPm // subrr cinner0l addr0 //.
Qed.
Lemma Qx : Q *m x = 0.
Proof. by rewrite mulmxBl mul1mx Px // subrr. Qed.
Lemma Q_sym : adj Q = Q.
Proof. by rewrite adjD adjN adj1 P_sym. Qed.
Lemma xQ : adj x *m Q = 0.
Proof. by have := congr1 (@adj R _ _) Qx; rewrite adjM Q_sym adj0. Qed.
Lemma normal_zero A : hermitian A -> normal_at x A -> A *m x = 0.
Proof.
move=> HA H; have := H (A *m x); rewrite /lift cinnerDr.
have -> : cinner A (x *m (adj (A *m x))) = cinner A (A *m x *m adj x).
  by rewrite -cinner_adj HA; kmxz.
have -> : cinner A (A *m x *m adj x) = cinner (A *m x) (A *m x) by rewrite [RHS]cinner_mulr.
by move/eqP; rewrite -mulr2n mulrn_eq0 /= => /eqP/cinner_eq0.
Qed.
Lemma normalE eta xi zeta (A := eta *m adj xi + xi *m adj eta + x *m adj zeta + zeta *m adj x) :
  normal_at x A -> A = Q *m (eta *m adj xi + xi *m adj eta) *m Q.
Proof.
move=> HN.
have HA : hermitian A.
  rewrite /hermitian /A !adjD !adjM !adjK [xi *m _ + _]addrC -!addrA.
  by congr (_ + (_ + _)); rewrite addrC.
have Ax := normal_zero HA HN.
have xA : adj x *m A = 0 by have := congr1 (@adj R _ _) Ax; rewrite adjM HA adj0.
have AQ : A *m Q = A by rewrite mulmxBr mulmx1 !mulmxA Ax !mul0mx subr0.
have QA : Q *m A = A by rewrite mulmxBl mul1mx -[P *m A]mulmxA xA mulmx0 subr0.
rewrite -{1}QA -{1}AQ mulmxA /A -addrA [Q *m (_ + _)]mulmxDr [LHS]mulmxDl.
rewrite [Q *m (x *m _ + _)]mulmxDr [Q *m (x *m _)]mulmxA Qx mul0mx add0r.
by rewrite -[Q *m (zeta *m adj x) *m Q]mulmxA -[zeta *m adj x *m Q]mulmxA xQ !mulmx0 addr0.
Qed.
Lemma normal_exists eta xi : exists zeta, normal_at x (eta *m adj xi + xi *m adj eta + x *m adj zeta + zeta *m adj x).
Proof.
set N := eta *m adj xi + xi *m adj eta; exists (- (N *m x - (half R)%:C *: (P *m (N *m x))) *m Gi).
have HN : adj N = N by rewrite /N; kmxz; rewrite addrC.
clearbody N.
have E : N + x *m (adj (- (N *m x - (half R)%:C *: (P *m (N *m x))) *m Gi)) + - (N *m x - (half R)%:C *: (P *m (N *m x))) *m Gi *m adj x
    = Q *m N *m Q.
  kmxz; rewrite HN Ci_sym // ?scalerN ?opprD ?opprK.
  set u := x *m Gi *m adj x *m N *m x *m Gi *m adj x; set v := N *m x *m Gi *m adj x; set w := x *m Gi *m adj x *m N.
  clearbody u v w.
  apply/matrixP => i j; rewrite !mxE; have := chalf2 R; move: (half R)%:C => h Hh.
  have : (h + h - 1) * u i j = 0 by rewrite Hh subrr mul0r.
  by move=> E0; rewrite -[RHS]addr0 -E0; krng R.
move=> th; rewrite E /lift cinnerDr.
have -> : cinner (Q *m N *m Q) (th *m adj x) = 0 by rewrite -cinner_mulr -mulmxA Qx !mulmx0 cinner0l.
have -> : cinner (Q *m N *m Q) (x *m adj th) = 0.
  by rewrite cinnerC cinner_mull !mulmxA xQ !mul0mx cinner0r.
by rewrite addr0.
Qed.
Lemma hess_euc_normal G0 H eta xi zeta (A := eta *m adj xi + xi *m adj eta + x *m adj zeta + zeta *m adj x) :
  hermitian G0 -> hermitian H -> horizontal x xi -> normal_at x A ->
  g_of CSF_EUC x (hessian CSF_EUC x ((2%:R)%:C *: (G0 *m x)) eta ((2%:R)%:C *: (H *m x + G0 *m eta))) xi =
  cinner H (lift x xi) + cinner G0 A.
Proof.
move=> HG HH Hxi HN; rewrite hess_euc_form // /A (normalE HN).
have E1 : cinner H (lift x xi) = 2%:R * cinner (H *m x) xi.
  rewrite /lift cinnerDr -[cinner H (x *m adj xi)]cinner_adj HH adjM adjK.
  by rewrite -cinner_mulr mulr_natl mulr2n.
have E2 : cinner G0 (Q *m (eta *m adj xi + xi *m adj eta) *m Q) = 2%:R * cinner (Q *m G0 *m Q *m eta) xi.
  have -> : cinner G0 (Q *m (eta *m adj xi + xi *m adj eta) *m Q) = cinner (Q *m G0 *m Q) (eta *m adj xi + xi *m adj eta).
    by rewrite [RHS]cinner_mulr cinner_mull Q_sym mulmxA.
  have HQ : (adj (Q *m G0 *m Q)) = Q *m G0 *m Q by rewrite adjM Q_sym adjM Q_sym HG mulmxA.
  rewrite cinnerDr -[cinner _ (eta *m adj xi)]cinner_adj HQ adjM adjK.
  by rewrite -cinner_mulr mulr_natl mulr2n.
rewrite E1 E2.
have -> : Q *m G0 *m Q *m eta = G0 *m eta - x *m Gi *m adj x *m G0 *m eta - Q *m (G0 *m x *m Gi *m adj x *m eta).
  rewrite mulmxBr mulmx1 !mulmxBl !mul1mx !mulmxA.
  by apply/matrixP => i j; rewrite !mxE; krng R.
rewrite !adjR !adjM HG.
rewrite -?scalemxAr -?scalemxAl -?scalemxAr -?scalemxAl -?scalemxAr ?cinnerZl cinnerDl !cinnerBl !mulmxA.
by rewrite mulrDr !mulrBr !addrA.
Qed.
Lemma hess_sym_euc G0 (Hop : 'M[C]_(p + k) -> 'M[C]_(p + k)) eta xi :
  hermitian G0 -> (forall B, hermitian B -> hermitian (Hop B)) ->
  (forall A B, hermitian A -> hermitian B -> cinner (Hop A) B = cinner A (Hop B)) ->
  horizontal x eta -> horizontal x xi ->
  let E th := (2%:R)%:C *: (Hop (lift x th) *m x + G0 *m th) in
  g_of CSF_EUC x (hessian CSF_EUC x ((2%:R)%:C *: (G0 *m x)) eta (E eta)) xi =
  g_of CSF_EUC x eta (hessian CSF_EUC x ((2%:R)%:C *: (G0 *m x)) xi (E xi)).
Proof.
move=> HG H1 H2 He Hxi E.
have Hl th : hermitian (lift x th) by rewrite /hermitian /lift; kmxz; rewrite addrC.
have [z Hz] := normal_exists eta xi.
have Hz' : normal_at x (xi *m adj eta + eta *m adj xi + x *m adj z + z *m adj x).
  by rewrite [xi *m _ + _]addrC.
have E1 := hess_euc_normal HG (H1 _ (Hl eta)) Hxi Hz.
have E2 := hess_euc_normal HG (H1 _ (Hl xi)) He Hz'.
rewrite [RHS]g_sym; apply: (eq_trans E1); symmetry; apply: (eq_trans E2); clear E1 E2.
congr (_ + _); first by rewrite cinnerC H2.
by rewrite [xi *m _ + _]addrC.
Qed.
Lemma hess_sym g eta xi e f : horizontal x eta -> horizontal x xi -> cinner e xi = cinner f eta ->
  g_of CSF_HGZ x (hessian CSF_HGZ x g eta e) xi = g_of CSF_HGZ x eta (hessian CSF_HGZ x g xi f).
Proof.
move=> He Hxi E; rewrite [RHS]g_sym; apply: (eq_trans (hess_hgz_form _ _ _ Hxi)); symmetry.
apply: (eq_trans (hess_hgz_form _ _ _ He)); rewrite E; congr (_ - _ * _).
by rewrite [dg_hgz x xi eta _ + _]addrC; congr (_ - _); exact: dg_sym.
Qed.
(** The derivative of the metric HGZ, exactly. *)
Lemma dg_hgzE z t eta xi : g_of CSF_HGZ (x + t%:C *: z) eta xi =
  g_of CSF_HGZ x eta xi + t * dg_hgz x z eta xi + t ^+ 2 * g_of CSF_HGZ z eta xi.
Proof.
rewrite /g_of /dg_hgz; kmxz.
rewrite !mxtraceD !mxtraceZ !reD !reM !reC !imC !imM !imC !mul0r !subr0.
do 4!move: (re (\tr _)) => ?; rng R.
Qed.
End hess.
