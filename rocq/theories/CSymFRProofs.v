(** Proofs about metric, projection, gradient and Hessian of CSymFixedRankQ. *)
From mathcomp Require Import all_ssreflect all_algebra.
From mathcomp.real_closed Require Import complex.
Require Import Ring Field.
From Verif Require StiefelProofs.
From Verif Require Import MxTac StiefelModel CStieSpec CStieModel CMx CStieProofs CStiePolar CFrSpec CFr CSymFRModel CSymFRSpec.
Import Order.TTheory GRing.Theory Num.Theory.
Set Implicit Arguments.
Unset Strict Implicit.
Local Open Scope ring_scope.
Local Open Scope complex_scope.

Section gramian.
Variable R : rcfType.
Local Notation C := R[i].
Local Notation re := (@complex.Re R).
Add Field csfr_field : (rcf_field R).
Add Ring csfr_ring : (kring R).
Variables p k : nat.
Local Notation ext := 'M[C]_(p + k, p).
Implicit Types x eta xi g e : ext.

Lemma skewZ n (a : R) (W : 'M[C]_n) : skew_hermitian W -> skew_hermitian (a%:C *: W).
Proof. by rewrite /skew_hermitian adjR => ->; rewrite scalerN. Qed.
Lemma verticalN x v : vertical x v -> vertical x (- v).
Proof. by move=> [W [H ->]]; exists (- W); rewrite mulmxN; split=> //; exact: skewN. Qed.
Lemma verticalD x v w : vertical x v -> vertical x w -> vertical x (v + w).
Proof. by move=> [W [H ->]] [Z [I ->]]; exists (W + Z); rewrite mulmxDr; split=> //; exact: skewD. Qed.
(** A matrix is Hermitian if it is orthogonal to the skew-Hermitian matrices. *)
Lemma sym_of_skew n (S : 'M[C]_n) : (forall W, skew_hermitian W -> cinner W S = 0) -> hermitian S.
Proof.
move=> H; have HW : skew_hermitian (S - adj S) by rewrite /skew_hermitian adjB adjK opprB.
have H1 := H _ HW; have H2 : cinner (S - adj S) (adj S) = 0.
  by rewrite -cinner_adj adjK HW cinnerNl H1 oppr0.
have : cinner (S - adj S) (S - adj S) = 0 by rewrite cinnerBr H1 H2 subr0.
by move/cinner_eq0/eqP; rewrite subr_eq0 => /eqP.
Qed.
Lemma re_trace_adj n (A : 'M[C]_n) : re (\tr (adj A)) = re (\tr A).
Proof. by rewrite adj_trace reJ. Qed.

Section at_point.
Variable x : ext.
Hypothesis Hx : cfull_rank x.
Local Notation G := (adj x *m x).
Local Notation Gi := (invmx (adj x *m x)).
Let GS := C_sym x.
Let GU := C_unit Hx.

Lemma metricE s eta xi : metric s x eta xi = g_of s x eta xi.
Proof.
case: s; rewrite /metric /g_of ?cdotE /cgemm0 ?scale1r /cinner ?adjM ?adjK ?mulmxA ?mxtraceD ?reD //.
Qed.
Lemma g_euc_lift eta xi : g_of CSF_EUC x eta xi = cinner (lift x eta) (lift x xi).
Proof.
rewrite /g_of /lift /cinner; kmxz; rewrite !mxtraceD !reD.
have E1 : re (\tr (x *m adj eta *m xi *m adj x)) = re (\tr (adj x *m x *m adj eta *m xi)) by rewrite mxtrace_mulC !mulmxA.
have E2 : re (\tr (x *m adj eta *m x *m adj xi)) = re (\tr (adj x *m eta *m adj x *m xi)).
  by rewrite -re_trace_adj; kmxz; rewrite -mulmxA mxtrace_mulC mulmxA mxtrace_mulC !mulmxA.
have E3 : re (\tr (eta *m adj x *m xi *m adj x)) = re (\tr (adj x *m eta *m adj x *m xi)) by rewrite mxtrace_mulC !mulmxA.
have E4 : re (\tr (eta *m adj x *m x *m adj xi)) = re (\tr (adj x *m x *m adj eta *m xi)).
  by rewrite -re_trace_adj; kmxz; rewrite -!mulmxA mxtrace_mulC !mulmxA.
by rewrite E1 E2 E3 E4; rng R.
Qed.
Lemma lift_vertical v : vertical x v -> lift x v = 0.
Proof. by move=> [W [H ->]]; rewrite /lift; kmxz; rewrite H; kmxz; rewrite subrr. Qed.
Lemma lift_kernel v : lift x v = 0 -> vertical x v.
Proof.
move=> H; have [W E] : exists W, v = x *m W.
  exists (- (adj v *m x *m Gi)); have := congr1 (fun A => A *m x *m Gi) H; rewrite /lift; kmxz; rewrite xxCi // => /eqP.
  by rewrite addr_eq0 => /eqP.
exists W; split=> //.
have := congr1 (fun A => Gi *m adj x *m A *m x *m Gi) H; rewrite /lift {1 2}E; kmxz.
rewrite !Cixx0 // !mul1mx !xxCi // => /eqP.
by rewrite addrC addr_eq0 => /eqP.
Qed.
Lemma g_hgzE eta xi : g_of CSF_HGZ x eta xi = cinner (eta *m G) xi.
Proof. by rewrite /g_of /cinner adjM C_sym. Qed.
Lemma g_sym s eta xi : g_of s x eta xi = g_of s x xi eta.
Proof.
case: s; first by rewrite !g_euc_lift cinnerC.
by rewrite !g_hgzE cinnerC cinner_mulr C_sym.
Qed.
Lemma horP eta : horizontal x eta <-> hermitian (Gi *m adj x *m eta).
Proof.
have E W : g_of CSF_HGZ x (x *m W) eta = cinner (G *m W *m G) (Gi *m adj x *m eta).
  rewrite g_hgzE -[x *m W *m _]mulmxA -[G *m W *m _]mulmxA [LHS]cinner_mull [RHS]cinner_mull C_sym.
  by rewrite -[Gi *m adj x *m eta]mulmxA [G *m (Gi *m _)]mulmxA CCi // mul1mx.
split=> [H|H v [W [HW ->]]].
  apply: sym_of_skew => W HW.
  have HW' : skew_hermitian (Gi *m W *m Gi) by rewrite /skew_hermitian; kmxz; rewrite Ci_sym // HW; kmxz.
  have := H (x *m (Gi *m W *m Gi)); rewrite E !mulmxA CCi // mul1mx Cixx //.
  by apply; exists (Gi *m W *m Gi); rewrite !mulmxA.
rewrite E cinnerC; apply: herm_skew => //; rewrite /skew_hermitian; kmxz.
by rewrite HW; kmxz.
Qed.
Lemma inv_sym g : invariant_at x g <-> hermitian (adj x *m g).
Proof.
have E W : cinner g (x *m W) = cinner W (adj x *m g) by rewrite cinnerC cinner_mull.
split=> [H|H v [W [HW ->]]]; last by rewrite E cinnerC; exact: herm_skew.
by apply: sym_of_skew => W HW; rewrite -E; apply: H; exists W.
Qed.
(** Vertical and horizontal only if zero. *)
Lemma g_hgz0 v : g_of CSF_HGZ x v v = 0 -> v = 0.
Proof.
rewrite g_hgzE => E; have HC := cposdef_gram Hx; apply: adj_inj; rewrite adj0.
apply: (cpd_inner HC); rewrite -[in RHS]E -cinner_adj adjK cinnerC adjM adjK C_sym //.
Qed.
Lemma vh_zero v : vertical x v -> horizontal x v -> v = 0.
Proof. by move=> Hv Hh; apply: g_hgz0; exact: Hh. Qed.

(** Orthogonal projection on the range of x. *)
Local Notation P := (x *m Gi *m adj x).
Lemma P_inner (a b : ext) : cinner (P *m a) b = cinner a (P *m b).
Proof. by rewrite cinner_mull P_sym. Qed.
Lemma PPm (a : ext) : P *m (P *m a) = P *m a.
Proof. by rewrite [P *m (P *m a)]mulmxA PP. Qed.
Lemma half_inverse (a xi : ext) : cinner (a - (half R)%:C *: (P *m a)) (xi + P *m xi) = cinner a xi.
Proof.
rewrite cinnerBl cinnerZl !cinnerDr -[cinner a (P *m xi)]P_inner [cinner (P *m a) (P *m xi)]P_inner PPm -P_inner.
have := StiefelProofs.half2 R; move: (half R) (cinner _ xi) (cinner (P *m a) xi) => h u v Hh.
have -> : u + v - h * (v + v) = u + v * (1 - (h + h)) by rng R.
by rewrite Hh subrr mulr0 addr0.
Qed.

Lemma projectionE eta : projection x eta =
  eta - x *m ((half R)%:C *: (Gi *m adj x *m eta - adj (Gi *m adj x *m eta))).
Proof. by rewrite /projection /cgemm /cgemm0 !scale1r scaleN1r mulmxA addrC. Qed.
Lemma skew_part n (A : 'M[C]_n) : skew_hermitian ((half R)%:C *: (A - adj A)).
Proof. by apply: skewZ; rewrite /skew_hermitian adjB adjK opprB. Qed.
Lemma sym_part n (A : 'M[C]_n) : A - (half R)%:C *: (A - adj A) = (half R)%:C *: (A + adj A).
Proof.
apply/matrixP => i j; rewrite !mxE; have := chalf2 R; move: (half R)%:C (A i j) (conjc _) => h u v Hh.
have -> : u - h * (u - v) = h * (u + v) + u * (1 - (h + h)) by krng R.
by rewrite Hh subrr mulr0 addr0.
Qed.
Lemma proj_hor eta : horizontal x (projection x eta).
Proof.
apply/horP; rewrite projectionE mulmxBr [_ *m (x *m _)]mulmxA -[Gi *m adj x *m x]mulmxA CiC // mul1mx sym_part.
by apply: hermitianR; rewrite /hermitian adjD adjK addrC.
Qed.
Lemma proj_ver eta : vertical x (eta - projection x eta).
Proof.
rewrite projectionE opprB addrC subrK; eexists; split; last by [].
exact: skew_part.
Qed.
Lemma horB a b : horizontal x a -> horizontal x b -> horizontal x (a - b).
Proof. by move=> /horP Ha /horP Hb; apply/horP; rewrite mulmxBr /hermitian adjB Ha Hb. Qed.
Lemma split_unique eta h : horizontal x h -> vertical x (eta - h) -> h = projection x eta.
Proof.
move=> Hh Hv; apply/eqP; rewrite -subr_eq0; apply/eqP; apply: vh_zero.
  have -> : h - projection x eta = (eta - projection x eta) + - (eta - h).
    by move: (projection _ _) => q; apply/matrixP => i j; rewrite !mxE; krng R.
  by apply: verticalD; [exact: proj_ver | exact: verticalN].
by apply: horB => //; exact: proj_hor.
Qed.
Lemma proj_id eta : horizontal x eta -> projection x eta = eta.
Proof.
move=> Hh; symmetry; apply: split_unique => //; rewrite subrr; exists 0; rewrite mulmx0; split=> //.
by rewrite /skew_hermitian adj0 oppr0.
Qed.
Lemma liftB a b : lift x (a - b) = lift x a - lift x b.
Proof. by rewrite /lift; kmxz; rewrite opprD addrACA. Qed.
Lemma proj_lift eta : lift x (projection x eta) = lift x eta.
Proof. by have := lift_vertical (proj_ver eta); rewrite liftB => /eqP; rewrite subr_eq0 => /eqP. Qed.
Lemma g_subr s a b c : g_of s x (a - b) c = g_of s x a c - g_of s x b c.
Proof.
case: s; first by rewrite !g_euc_lift liftB cinnerBl.
by rewrite !g_hgzE mulmxBl cinnerBl.
Qed.
(** The metric of a vertical and a horizontal vector. *)
Lemma g_vh s v h : vertical x v -> horizontal x h -> g_of s x v h = 0.
Proof.
case: s => Hv Hh; first by rewrite g_euc_lift (lift_vertical Hv) cinner0l.
exact: Hh.
Qed.
Lemma proj_g s eta h : horizontal x h -> g_of s x (projection x eta) h = g_of s x eta h.
Proof.
move=> Hh; apply/eqP; rewrite eq_sym -subr_eq0 -g_subr; apply/eqP.
by apply: g_vh => //; exact: proj_ver.
Qed.
Lemma g_pos s eta : horizontal x eta -> 0 <= g_of s x eta eta /\ (g_of s x eta eta = 0 -> eta = 0).
Proof.
case: s => Hh.
- rewrite g_euc_lift; split; first exact: cinner_ge0.
  by move/cinner_eq0/lift_kernel => Hv; exact: (vh_zero Hv Hh).
split; last exact: g_hgz0.
rewrite g_hgzE -cinner_adj cinnerC adjM C_sym.
apply: cpsd_inner; apply: cposdef_psd; exact: cposdef_gram.
Qed.
End at_point.
End gramian.
