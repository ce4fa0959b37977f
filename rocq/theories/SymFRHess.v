(** Proofs about gradients and Hessians of SymFixedRankQ. *)
From mathcomp Require Import all_ssreflect all_algebra.
Require Import Ring Field.
From Verif Require Import MxTac StiefelModel StiefelSpec StiefelProofs StiefelPolar SPDSpec SPDProofs SymFRModel SymFRSpec SymFRProofs.
Import Order.TTheory GRing.Theory Num.Theory.
Set Implicit Arguments.
Unset Strict Implicit.
Local Open Scope ring_scope.

Section hess.
Variable R : rcfType.
Add Field sfrh_field : (rcf_field R).
Variables p k : nat.
Local Notation ext := 'M[R]_(p + k, p).
Implicit Types eta xi g e h : ext.
Variable SYL : 'M[R]_p -> 'M[R]_p -> 'M[R]_p -> 'M[R]_p.
Variable x : ext.
Hypothesis Hx : full_rank x.
Local Notation C := (x^T *m x).
Local Notation Ci := (invmx (x^T *m x)).
Local Notation P := (x *m Ci *m x^T).
Local Notation syl := (syl_for x SYL).

(** The metric EUC with a horizontal vector. *)
Lemma g_euc_hor h xi : horizontal SF_EUC x xi -> g_of SF_EUC x h xi = 2%:R * inner (h *m C) (xi + P *m xi).
Proof.
move=> /(horP Hx) HS; rewrite /g_of mxtraceD; congr (_ * _).
have -> : \tr (x^T *m x *m h^T *m xi) = inner (h *m C) xi by rewrite /inner trM C_sym.
rewrite innerDr addrC; congr (_ + _).
have -> : \tr (x^T *m h *m x^T *m xi) = inner (x^T *m h) (xi^T *m x).
  by rewrite -[in RHS]inner_tr /inner; mxz; rewrite -mxtrace_mulC !mulmxA.
have -> : xi^T *m x = Ci *m x^T *m xi *m C.
  by rewrite -HS; mxz; rewrite Ci_sym // Cixx.
rewrite innerC inner_mulr C_sym innerC -mulmxA inner_mull trmxK.
by rewrite -!mulmxA.
Qed.
Lemma gradient_eucE g : gradient SYL SF_EUC x g *m C = half R *: (g - half R *: (P *m g)).
Proof.
rewrite /gradient /gemm /gemm0 !scale1r; mxz; rewrite !scaleNr.
by rewrite !Cixx // addrC scalerBr scalerA.
Qed.
Lemma grad_rep s g xi : syl s g -> horizontal s x xi -> g_of s x (gradient SYL s x g) xi = inner g xi.
Proof.
case: s => Hs Hxi.
- rewrite g_euc_hor // gradient_eucE innerZl half_inverse // mulrA [_ * half R]mulrC half2' mul1r //.
- by rewrite g_hgzE // /gradient /gemm0 !scale1r -mulmxA CiC // mulmx1.
by rewrite /gradient proj_g.
Qed.
Lemma grad_hor s g : syl s g -> (s <> SF_QEUC -> invariant_at x g) -> horizontal s x (gradient SYL s x g).
Proof.
case: s => Hs Hi; last by apply: proj_hor.
- apply/(horP Hx); have /inv_sym HM := Hi (fun H => ltac:(discriminate)).
  have HM' : g^T *m x = x^T *m g by rewrite -HM trM trmxK.
  rewrite /gradient /gemm /gemm0 !scale1r /symmetric; mxz; rewrite !Cixx0 // !mul1mx ?Ci_sym ?xxCi //.
  by rewrite -!(mulmxA Ci g^T x) HM' !mulmxA.
- apply/(horP Hx); have /inv_sym HM := Hi (fun H => ltac:(discriminate)).
  have HM' : g^T *m x = x^T *m g by rewrite -HM trM trmxK.
  rewrite /gradient /gemm0 !scale1r /symmetric; mxz; rewrite !Ci_sym //.
  by rewrite -!(mulmxA Ci g^T x) HM'; mxz.
Qed.
Lemma grad_unique s g h : syl s g -> (s <> SF_QEUC -> invariant_at x g) -> horizontal s x h ->
  (forall xi, horizontal s x xi -> g_of s x h xi = inner g xi) -> h = gradient SYL s x g.
Proof.
move=> Hs Hi Hh H; have Hg := grad_hor Hs Hi.
have Hd : horizontal s x (h - gradient SYL s x g) by apply: horB.
apply/eqP; rewrite -subr_eq0; apply/eqP; apply: (g_pos Hx Hd).2.
by rewrite g_subr // H // grad_rep // subrr.
Qed.

(** ** Hessians *)
Lemma hess_hgzE g eta e : hess_hgz x g eta e *m C = e
  - half R *: (g *m Ci *m x^T *m eta + x *m (g *m Ci)^T *m eta - eta *m x^T *m (g *m Ci)
   + x *m eta^T *m (g *m Ci) - eta *m (g *m Ci)^T *m x + g *m Ci *m eta^T *m x).
Proof.
rewrite /hess_hgz /gemm /gemm0 !scale1r -mulmxA CiC // mulmx1; mxz.
by rewrite !scalerDr !scaleNr !scalerN !opprD !opprK !addrA; apply/matrixP => i j; rewrite !mxE; rng R.
Qed.
Lemma hess_euc_E g eta e : hess_euc x g eta e *m C = half R *: (e - half R *: (P *m e)
  - half R *: (x *m Ci *m g^T *m eta) - (g *m Ci *m x^T *m eta) + P *m (g *m Ci *m x^T *m eta)).
Proof.
rewrite /hess_euc /gemm /gemm0 !scale1r -mulmxA CiC // mulmx1; mxz; rewrite Ci_sym //.
congr (_ *: _); apply/matrixP => i j; rewrite !mxE; rng R.
Qed.
Lemma hess_hgz_form g eta xi e : horizontal SF_HGZ x xi ->
  g_of SF_HGZ x (hessian SYL SF_HGZ x g eta e) xi = inner e xi -
    half R * (dg_hgz x eta xi (gradient SYL SF_HGZ x g) + dg_hgz x xi eta (gradient SYL SF_HGZ x g)
      - dg_hgz x (gradient SYL SF_HGZ x g) eta xi).
Proof.
move=> Hxi; rewrite /hessian (proj_g Hx) // g_hgzE // hess_hgzE innerBl innerZl; congr (_ - _ * _).
rewrite /gradient /gemm0 scale1r; move: (g *m Ci) => G; rewrite /dg_hgz !innerDl !innerNl /inner; mxz.
have E1 : \tr (x^T *m eta *m xi^T *m G) = \tr (eta^T *m x *m G^T *m xi).
  by rewrite -mxtrace_tr; mxz; rewrite -mulmxA mxtrace_mulC !mulmxA.
have E2 : \tr (eta^T *m x *m xi^T *m G) = \tr (x^T *m eta *m G^T *m xi).
  by rewrite -mxtrace_tr; mxz; rewrite -mulmxA mxtrace_mulC !mulmxA.
have E3 : \tr (xi^T *m x *m eta^T *m G) = \tr (G^T *m eta *m x^T *m xi) by rewrite -mxtrace_tr; mxz.
have E4 : \tr (x^T *m xi *m eta^T *m G) = \tr (eta^T *m G *m x^T *m xi).
  by rewrite -mulmxA mxtrace_mulC !mulmxA.
rewrite !mxtraceD E1 E2 E3 E4; do 6!move: (\tr _) => ?; rng R.
Qed.
Lemma dg_sym z eta xi : dg_hgz x z eta xi = dg_hgz x z xi eta.
Proof.
rewrite /dg_hgz; have : (z^T *m x + x^T *m z)^T = z^T *m x + x^T *m z by mxz; rewrite addrC.
by move: (_ + _) => S HS; rewrite -mxtrace_tr !trM HS trmxK mulmxA mxtrace_mulC mulmxA.
Qed.

(** The metric EUC: second derivative along a curve with normal acceleration. *)
Local Notation Q := (1%:M - P).
Lemma hess_euc_form g eta xi e : horizontal SF_EUC x xi ->
  g_of SF_EUC x (hessian SYL SF_EUC x g eta e) xi =
  inner e xi - inner (x *m Ci *m g^T *m eta) xi - inner (Q *m (g *m Ci *m x^T *m eta)) xi.
Proof.
move=> Hxi; rewrite /hessian (proj_g Hx) // g_euc_hor // hess_euc_E innerZl mulrA [_ * half R]mulrC half2' mul1r.
set u := x *m Ci *m g^T *m eta; set w := g *m Ci *m x^T *m eta.
have Pu : P *m u = u by rewrite /u !mulmxA Cixx.
have -> : e - half R *: (P *m e) - half R *: u - w + P *m w = (e - half R *: (P *m e)) - (half R *: u) - (w - P *m w).
  by apply/matrixP => i j; rewrite !mxE; rng R.
rewrite mulmxBl mul1mx 2!innerBl half_inverse //; congr (_ - _ - _).
  by rewrite innerZl innerDr -[inner u (P *m xi)]P_inner Pu -mulr2n -mulr_natl mulrA half2' mul1r.
rewrite innerDr -[inner _ (P *m xi)]P_inner mulmxBr PPm // subrr inner0l addr0 //.
Qed.
Lemma Qx : Q *m x = 0.
Proof. by rewrite mulmxBl mul1mx Px // subrr. Qed.
Lemma Q_sym : Q^T = Q.
Proof. by rewrite trD trN trmx1 P_sym. Qed.
Lemma xQ : x^T *m Q = 0.
Proof. by have := congr1 trmx Qx; rewrite trM Q_sym trmx0. Qed.
Lemma normal_zero A : symmetric A -> normal_at x A -> A *m x = 0.
Proof.
move=> HA H; have := H (A *m x); rewrite /lift innerDr.
have -> : inner A (x *m (A *m x)^T) = inner A (A *m x *m x^T).
  by rewrite -inner_tr HA; mxz.
have -> : inner A (A *m x *m x^T) = inner (A *m x) (A *m x) by rewrite [RHS]inner_mulr.
by move/eqP; rewrite -mulr2n mulrn_eq0 /= => /eqP/inner_eq0.
Qed.
Lemma normalE eta xi zeta (A := eta *m xi^T + xi *m eta^T + x *m zeta^T + zeta *m x^T) :
  normal_at x A -> A = Q *m (eta *m xi^T + xi *m eta^T) *m Q.
Proof.
move=> HN.
have HA : symmetric A.
  rewrite /symmetric /A !trD !trM !trmxK [xi *m _ + _]addrC -!addrA.
  by congr (_ + (_ + _)); rewrite addrC.
have Ax := normal_zero HA HN.
have xA : x^T *m A = 0 by have := congr1 trmx Ax; rewrite trM HA trmx0.
have AQ : A *m Q = A by rewrite mulmxBr mulmx1 !mulmxA Ax !mul0mx subr0.
have QA : Q *m A = A by rewrite mulmxBl mul1mx -[P *m A]mulmxA xA mulmx0 subr0.
rewrite -{1}QA -{1}AQ mulmxA /A -addrA [Q *m (_ + _)]mulmxDr [LHS]mulmxDl.
rewrite [Q *m (x *m _ + _)]mulmxDr [Q *m (x *m _)]mulmxA Qx mul0mx add0r.
by rewrite -[Q *m (zeta *m x^T) *m Q]mulmxA -[zeta *m x^T *m Q]mulmxA xQ !mulmx0 addr0.
Qed.
Lemma normal_exists eta xi : exists zeta, normal_at x (eta *m xi^T + xi *m eta^T + x *m zeta^T + zeta *m x^T).
Proof.
set N := eta *m xi^T + xi *m eta^T; exists (- (N *m x - half R *: (P *m (N *m x))) *m Ci).
have HN : N^T = N by rewrite /N; mxz; rewrite addrC.
clearbody N.
have E : N + x *m (- (N *m x - half R *: (P *m (N *m x))) *m Ci)^T + - (N *m x - half R *: (P *m (N *m x))) *m Ci *m x^T
    = Q *m N *m Q.
  mxz; rewrite HN Ci_sym // ?scalerN ?opprD ?opprK.
  set u := x *m Ci *m x^T *m N *m x *m Ci *m x^T; set v := N *m x *m Ci *m x^T; set w := x *m Ci *m x^T *m N.
  clearbody u v w.
  apply/matrixP => i j; rewrite !mxE; have := half2 R; move: (half R) => h Hh.
  have : (h + h - 1) * u i j = 0 by rewrite Hh subrr mul0r.
  by move=> E0; rewrite -[RHS]addr0 -E0; rng R.
move=> th; rewrite E /lift innerDr.
have -> : inner (Q *m N *m Q) (th *m x^T) = 0 by rewrite -inner_mulr -mulmxA Qx !mulmx0 inner0l.
have -> : inner (Q *m N *m Q) (x *m th^T) = 0.
  by rewrite innerC inner_mull !mulmxA xQ !mul0mx inner0r.
by rewrite addr0.
Qed.
Lemma hess_euc_normal G H eta xi zeta (A := eta *m xi^T + xi *m eta^T + x *m zeta^T + zeta *m x^T) :
  symmetric G -> symmetric H -> horizontal SF_EUC x xi -> normal_at x A ->
  g_of SF_EUC x (hessian SYL SF_EUC x (2%:R *: (G *m x)) eta (2%:R *: (H *m x + G *m eta))) xi =
  inner H (lift x xi) + inner G A.
Proof.
move=> HG HH Hxi HN; rewrite hess_euc_form // /A (normalE HN).
have E1 : inner H (lift x xi) = 2%:R * inner (H *m x) xi.
  rewrite /lift innerDr -[inner H (x *m xi^T)]inner_tr HH trM trmxK.
  by rewrite -inner_mulr mulr_natl mulr2n.
have E2 : inner G (Q *m (eta *m xi^T + xi *m eta^T) *m Q) = 2%:R * inner (Q *m G *m Q *m eta) xi.
  have -> : inner G (Q *m (eta *m xi^T + xi *m eta^T) *m Q) = inner (Q *m G *m Q) (eta *m xi^T + xi *m eta^T).
    by rewrite [RHS]inner_mulr inner_mull Q_sym mulmxA.
  have HQ : (Q *m G *m Q)^T = Q *m G *m Q by rewrite trM Q_sym trM Q_sym HG mulmxA.
  rewrite innerDr -[inner _ (eta *m xi^T)]inner_tr HQ trM trmxK.
  by rewrite -inner_mulr mulr_natl mulr2n.
rewrite E1 E2.
have -> : Q *m G *m Q *m eta = G *m eta - x *m Ci *m x^T *m G *m eta - Q *m (G *m x *m Ci *m x^T *m eta).
  rewrite mulmxBr mulmx1 !mulmxBl !mul1mx !mulmxA.
  by apply/matrixP => i j; rewrite !mxE; rng R.
rewrite !trZ !trM HG.
rewrite -?scalemxAr -?scalemxAl -?scalemxAr -?scalemxAl -?scalemxAr ?innerZl innerDl !innerBl !mulmxA.
by rewrite mulrDr !mulrBr !addrA.
Qed.
Lemma hess_sym_euc G (Hop : 'M[R]_(p + k) -> 'M[R]_(p + k)) eta xi :
  symmetric G -> (forall B, symmetric B -> symmetric (Hop B)) ->
  (forall A B, symmetric A -> symmetric B -> inner (Hop A) B = inner A (Hop B)) ->
  horizontal SF_EUC x eta -> horizontal SF_EUC x xi ->
  let E th := 2%:R *: (Hop (lift x th) *m x + G *m th) in
  g_of SF_EUC x (hessian SYL SF_EUC x (2%:R *: (G *m x)) eta (E eta)) xi =
  g_of SF_EUC x eta (hessian SYL SF_EUC x (2%:R *: (G *m x)) xi (E xi)).
Proof.
move=> HG H1 H2 He Hxi E.
have Hl th : symmetric (lift x th) by rewrite /symmetric /lift; mxz; rewrite addrC.
have [z Hz] := normal_exists eta xi.
have Hz' : normal_at x (xi *m eta^T + eta *m xi^T + x *m z^T + z *m x^T).
  by rewrite [xi *m _ + _]addrC.
have E1 := hess_euc_normal HG (H1 _ (Hl eta)) Hxi Hz.
have E2 := hess_euc_normal HG (H1 _ (Hl xi)) He Hz'.
rewrite [RHS]g_sym; apply: (eq_trans E1); symmetry; apply: (eq_trans E2); clear E1 E2.
congr (_ + _); first by rewrite innerC H2.
by rewrite [xi *m _ + _]addrC.
Qed.
Lemma hess_sym s g eta xi e f : s <> SF_EUC -> syl s e -> syl s f ->
  horizontal s x eta -> horizontal s x xi -> inner e xi = inner f eta ->
  g_of s x (hessian SYL s x g eta e) xi = g_of s x eta (hessian SYL s x g xi f).
Proof.
case: s => [H|_|_] Hse Hsf He Hxi E; first by case: H.
  rewrite [RHS]g_sym; apply: (eq_trans (hess_hgz_form _ _ _ Hxi)); symmetry.
  apply: (eq_trans (hess_hgz_form _ _ _ He)); rewrite E; congr (_ - _ * _).
  by rewrite [dg_hgz x xi eta _ + _]addrC; congr (_ - _); exact: dg_sym.
rewrite [RHS]g_sym; apply: (eq_trans (proj_g Hx Hse Hxi)); symmetry.
by apply: (eq_trans (proj_g Hx Hsf He)); symmetry; exact: E.
Qed.
(** The derivative of the metric HGZ, exactly. *)
Lemma dg_hgzE z t eta xi : g_of SF_HGZ (x + t *: z) eta xi =
  g_of SF_HGZ x eta xi + t * dg_hgz x z eta xi + t ^+ 2 * g_of SF_HGZ z eta xi.
Proof.
rewrite /g_of /dg_hgz; mxz.
rewrite !mxtraceD !mxtraceZ !mxtraceD !mxtraceZ.
do 4!move: (\tr _) => ?; rng R.
Qed.
End hess.
