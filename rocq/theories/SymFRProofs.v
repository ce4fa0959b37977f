(** Proofs about metric, projection, gradient and Hessian of SymFixedRankQ. *)
From mathcomp Require Import all_ssreflect all_algebra.
Require Import Ring Field.
From Verif Require Import MxTac StiefelModel StiefelSpec StiefelProofs StiefelPolar SPDSpec SPDProofs SymFRModel SymFRSpec.
Import Order.TTheory GRing.Theory Num.Theory.
Set Implicit Arguments.
Unset Strict Implicit.
Local Open Scope ring_scope.

Section gramian.
Variable R : rcfType.
Add Field sfr_field : (rcf_field R).
Variables p k : nat.
Local Notation ext := 'M[R]_(p + k, p).
Implicit Types x eta xi g e : ext.

Lemma trE m n (A B : 'M[R]_(m, n)) : \tr (A^T *m B) = inner A B.
Proof. by []. Qed.
Lemma trC2 n (A B : 'M[R]_n) : \tr (A *m B) = inner A^T B.
Proof. by rewrite /inner trmxK. Qed.
Lemma posdef_gram x : full_rank x -> posdef (x^T *m x).
Proof.
move=> H; split=> [|v Hv]; first by rewrite /symmetric trM trmxK.
rewrite quad lt_def inner_ge0 andbT; apply/eqP => /inner_eq0 /H E.
by rewrite E eqxx in Hv.
Qed.
Lemma skewN n (W : 'M[R]_n) : skew W -> skew (- W).
Proof. by rewrite /skew trN => ->. Qed.
Lemma skewZ n a (W : 'M[R]_n) : skew W -> skew (a *: W).
Proof. by rewrite /skew trZ => ->; rewrite scalerN. Qed.
Lemma verticalN x v : vertical x v -> vertical x (- v).
Proof. by move=> [W [H ->]]; exists (- W); rewrite mulmxN; split=> //; exact: skewN. Qed.
Lemma verticalD x v w : vertical x v -> vertical x w -> vertical x (v + w).
Proof.
move=> [W [H ->]] [Z [I ->]]; exists (W + Z); rewrite mulmxDr; split=> //.
by rewrite /skew trD H I opprD.
Qed.
(** A matrix is symmetric if it is orthogonal to the skew matrices. *)
Lemma sym_of_skew n (S : 'M[R]_n) : (forall W, skew W -> inner W S = 0) -> symmetric S.
Proof.
move=> H; have HW : skew (S - S^T) by rewrite /skew trD trN trmxK opprB.
have H1 := H _ HW; have H2 : inner (S - S^T) S^T = 0.
  by rewrite -inner_tr trmxK HW innerNl H1 oppr0.
have : inner (S - S^T) (S - S^T) = 0 by rewrite innerBr H1 H2 subr0.
by move/inner_eq0/eqP; rewrite subr_eq0 => /eqP.
Qed.

Section at_point.
Variable x : ext.
Hypothesis Hx : full_rank x.
Local Notation C := (x^T *m x).
Local Notation Ci := (invmx (x^T *m x)).
Lemma C_sym : C^T = C.
Proof. by rewrite trM trmxK. Qed.
Lemma C_unit : C \in unitmx.
Proof. exact: posdef_unit (posdef_gram Hx). Qed.
Lemma CCi : C *m Ci = 1%:M.
Proof. exact: mulmxV C_unit. Qed.
Lemma CiC : Ci *m C = 1%:M.
Proof. exact: mulVmx C_unit. Qed.
Lemma Ci_sym : Ci^T = Ci.
Proof. by rewrite trmx_inv C_sym. Qed.
(** The same in the forms that products distributed and associated to the left take. *)
Lemma xxCi m (A : 'M[R]_(m, p)) : A *m x^T *m x *m Ci = A.
Proof. by rewrite -!mulmxA [x^T *m (x *m _)]mulmxA CCi mulmx1. Qed.
Lemma Cixx m (A : 'M[R]_(m, p)) : A *m Ci *m x^T *m x = A.
Proof. by rewrite -!mulmxA CiC mulmx1. Qed.
Lemma xxCi0 : x^T *m x *m Ci = 1%:M.
Proof. exact: CCi. Qed.
Lemma Cixx0 : Ci *m x^T *m x = 1%:M.
Proof. by rewrite -mulmxA CiC. Qed.

Lemma metricE s eta xi : metric s x eta xi = g_of s x eta xi.
Proof.
case: s; rewrite /metric /g_of ?dotE /gemm0 ?scale1r /inner ?trM ?trmxK ?mulmxA ?mxtraceD //.
Qed.
Lemma g_euc_lift eta xi : g_of SF_EUC x eta xi = inner (lift x eta) (lift x xi).
Proof.
rewrite /g_of /lift /inner; mxz; rewrite !mxtraceD.
have E1 : \tr (x *m eta^T *m xi *m x^T) = \tr (x^T *m x *m eta^T *m xi) by rewrite mxtrace_mulC !mulmxA.
have E2 : \tr (x *m eta^T *m x *m xi^T) = \tr (x^T *m eta *m x^T *m xi).
  by rewrite -mxtrace_tr; mxz; rewrite -mulmxA mxtrace_mulC mulmxA mxtrace_mulC !mulmxA.
have E3 : \tr (eta *m x^T *m xi *m x^T) = \tr (x^T *m eta *m x^T *m xi) by rewrite mxtrace_mulC !mulmxA.
have E4 : \tr (eta *m x^T *m x *m xi^T) = \tr (x^T *m x *m eta^T *m xi).
  by rewrite -mxtrace_tr; mxz; rewrite -!mulmxA mxtrace_mulC !mulmxA.
by rewrite E1 E2 E3 E4; rng R.
Qed.
Lemma lift_vertical v : vertical x v -> lift x v = 0.
Proof. by move=> [W [H ->]]; rewrite /lift; mxz; rewrite H; mxz; rewrite subrr. Qed.
Lemma lift_kernel v : lift x v = 0 -> vertical x v.
Proof.
move=> H; have [W E] : exists W, v = x *m W.
  exists (- (v^T *m x *m Ci)); have := congr1 (fun A => A *m x *m Ci) H; rewrite /lift; mxz; rewrite xxCi => /eqP.
  by rewrite addr_eq0 => /eqP.
exists W; split=> //.
have := congr1 (fun A => Ci *m x^T *m A *m x *m Ci) H; rewrite /lift {1 2}E; mxz.
rewrite !Cixx0 !mul1mx !xxCi => /eqP.
by rewrite addrC addr_eq0 => /eqP.
Qed.
Lemma g_hgzE eta xi : g_of SF_HGZ x eta xi = inner (eta *m C) xi.
Proof. by rewrite /g_of /inner trM C_sym. Qed.
Lemma g_sym s eta xi : g_of s x eta xi = g_of s x xi eta.
Proof.
case: s; first by rewrite !g_euc_lift innerC.
  by rewrite !g_hgzE innerC inner_mulr C_sym innerC innerC.
exact: innerC.
Qed.
Lemma hor_hgz eta : (forall v, vertical x v -> g_of SF_HGZ x v eta = 0) <-> symmetric (Ci *m x^T *m eta).
Proof.
have E W : g_of SF_HGZ x (x *m W) eta = inner (C *m W *m C) (Ci *m x^T *m eta).
  rewrite g_hgzE -[x *m W *m _]mulmxA -[C *m W *m _]mulmxA [LHS]inner_mull [RHS]inner_mull C_sym.
  by rewrite -[Ci *m x^T *m eta]mulmxA [C *m (Ci *m _)]mulmxA CCi mul1mx.
split=> [H|H v [W [HW ->]]].
  apply: sym_of_skew => W HW.
  have HW' : skew (Ci *m W *m Ci) by rewrite /skew; mxz; rewrite Ci_sym HW; mxz.
  have := H (x *m (Ci *m W *m Ci)); rewrite E !mulmxA CCi mul1mx Cixx.
  by apply; exists (Ci *m W *m Ci); rewrite !mulmxA.
rewrite E innerC; apply: inner_sym_skew => //; rewrite /skew; mxz.
by rewrite HW; mxz.
Qed.
Lemma hor_qeuc eta : (forall v, vertical x v -> g_of SF_QEUC x v eta = 0) <-> symmetric (x^T *m eta).
Proof.
have E W : g_of SF_QEUC x (x *m W) eta = inner W (x^T *m eta) by rewrite -inner_mull.
split=> [H|H v [W [HW ->]]].
  by apply: sym_of_skew => W HW; rewrite -E; apply: H; exists W.
by rewrite E innerC; apply: inner_sym_skew.
Qed.
Lemma inv_sym g : invariant_at x g <-> symmetric (x^T *m g).
Proof. by rewrite -hor_qeuc; split=> H v Hv; [rewrite /g_of trE|]; rewrite innerC; exact: H. Qed.
(** Vertical and horizontal only if zero. *)
Lemma vh_zero s v : vertical x v -> horizontal s x v -> v = 0.
Proof.
move=> Hv Hh; have := Hh v Hv.
case: Hv => [W [HW Ev]].
have pos : g_of SF_HGZ x v v = 0 \/ g_of SF_QEUC x v v = 0 -> v = 0.
  case=> [|/inner_eq0 //]; rewrite g_hgzE.
  move: (posdef_gram Hx) => HC E.
  have : \tr (v^T^T *m C *m v^T) = 0 by rewrite trmxK mxtrace_mulC -[LHS]/(inner v (v *m C)) innerC.
  by move/(pd_trace HC)/(congr1 trmx); rewrite trmxK trmx0.
by case: s Hh => _ E; apply: pos; auto.
Qed.

(** Orthogonal projection on the range of x. *)
Local Notation P := (x *m Ci *m x^T).
Lemma P_sym : P^T = P.
Proof. by mxz; rewrite Ci_sym. Qed.
Lemma PP : P *m P = P.
Proof. by mxz; rewrite Cixx. Qed.
Lemma Px : P *m x = x.
Proof. by mxz; rewrite Cixx. Qed.
Lemma P_inner (a b : ext) : inner (P *m a) b = inner a (P *m b).
Proof. by rewrite inner_mull P_sym. Qed.
Lemma PPm (a : ext) : P *m (P *m a) = P *m a.
Proof. by rewrite [P *m (P *m a)]mulmxA PP. Qed.
Lemma half_inverse (a xi : ext) : inner (a - half R *: (P *m a)) (xi + P *m xi) = inner a xi.
Proof.
rewrite innerBl innerZl !innerDr -[inner a (P *m xi)]P_inner [inner (P *m a) (P *m xi)]P_inner PPm -P_inner.
have := half2 R; move: (half R) (inner _ xi) (inner (P *m a) xi) => h u v Hh.
have -> : u + v - h * (v + v) = u + v * (1 - (h + h)) by rng R.
by rewrite Hh subrr mulr0 addr0.
Qed.

Lemma projection_eucE eta : projection_euc x eta =
  eta - x *m (half R *: (Ci *m x^T *m eta - (Ci *m x^T *m eta)^T)).
Proof. by rewrite /projection_euc /gemm /gemm0 !scale1r scaleN1r mulmxA addrC. Qed.
Lemma skew_part n (A : 'M[R]_n) : skew (half R *: (A - A^T)).
Proof. by apply: skewZ; rewrite /skew trD trN trmxK opprB. Qed.
Lemma sym_part n (A : 'M[R]_n) : A - half R *: (A - A^T) = half R *: (A + A^T).
Proof.
apply/matrixP => i j; rewrite !mxE; have := half2 R; move: (half R) (A i j) (A j i) => h u v Hh.
have -> : u - h * (u - v) = h * (u + v) + u * (1 - (h + h)) by rng R.
by rewrite Hh subrr mulr0 addr0.
Qed.
Lemma euc_hor eta : symmetric (Ci *m x^T *m projection_euc x eta).
Proof.
rewrite projection_eucE mulmxBr [_ *m (x *m _)]mulmxA -[Ci *m x^T *m x]mulmxA CiC mul1mx sym_part.
by apply: symmetricZ; exact: symC.
Qed.
Lemma euc_ver eta : vertical x (eta - projection_euc x eta).
Proof.
rewrite projection_eucE opprB addrC subrK; eexists; split; last by [].
exact: skew_part.
Qed.
Section syl.
Variable SYL : 'M[R]_p -> 'M[R]_p -> 'M[R]_p -> 'M[R]_p.
Definition syl_ok eta := sylvester_at SYL C C (x^T *m eta - (x^T *m eta)^T).
Lemma projection_qeucE eta : projection_qeuc SYL x eta = eta - x *m SYL C C (x^T *m eta - (x^T *m eta)^T).
Proof. by rewrite /projection_qeuc /gemm /gemm0 !scale1r scaleN1r addrC. Qed.
Lemma syl_skew eta : syl_ok eta -> skew (SYL C C (x^T *m eta - (x^T *m eta)^T)).
Proof.
rewrite /syl_ok /sylvester_at; set K := _ - _; move: (SYL C C K) => X H.
have HK : K^T = - K by rewrite /K trD trN trmxK opprB.
have H' : X^T *m C + C *m X^T = - K.
  by have := congr1 trmx H; rewrite trD [(C *m X)^T]trM [(X *m C)^T]trM C_sym HK.
have : X + X^T = 0.
  apply: (sylvester0 (posdef_gram Hx) (posdef_psd (posdef_gram Hx))).
  rewrite mulmxDr mulmxDl addrACA H [C *m X^T + _]addrC H' subrr.
  by [].
by rewrite addrC => /eqP; rewrite addr_eq0 => /eqP.
Qed.
Lemma qeuc_hor eta : syl_ok eta -> symmetric (x^T *m projection_qeuc SYL x eta).
Proof.
move=> H; have HS := syl_skew H; rewrite projection_qeucE /symmetric.
move: H HS; rewrite /syl_ok /sylvester_at; move: (SYL C C _) => X H HS.
rewrite mulmxBr [x^T *m (x *m X)]mulmxA trD trN [(C *m X)^T]trM C_sym HS mulNmx opprK.
by apply/eqP; rewrite eq_sym subr_eq -addrA [X *m C + _]addrC H [Y in _ == Y]addrC subrK.
Qed.
Lemma qeuc_ver eta : syl_ok eta -> vertical x (eta - projection_qeuc SYL x eta).
Proof.
move=> H; rewrite projection_qeucE opprB addrC subrK; eexists; split; last by [].
exact: syl_skew.
Qed.
Definition syl_for s eta := match s with SF_QEUC => syl_ok eta | _ => True end.
Lemma horP s eta : horizontal s x eta <-> symmetric (match s with SF_QEUC => x^T *m eta | _ => Ci *m x^T *m eta end).
Proof. by case: s; rewrite /horizontal; [exact: hor_hgz | exact: hor_hgz | exact: hor_qeuc]. Qed.
Lemma proj_hor s eta : syl_for s eta -> horizontal s x (projection SYL s x eta).
Proof. by move=> H; apply/horP; case: s H => H; [exact: euc_hor | exact: euc_hor | exact: qeuc_hor]. Qed.
Lemma proj_ver s eta : syl_for s eta -> vertical x (eta - projection SYL s x eta).
Proof. by case: s => H; [exact: euc_ver | exact: euc_ver | exact: qeuc_ver]. Qed.
Lemma horB s a b : horizontal s x a -> horizontal s x b -> horizontal s x (a - b).
Proof.
move=> /horP Ha /horP Hb; apply/horP.
by case: s Ha Hb; rewrite mulmxBr /symmetric trD trN => -> ->.
Qed.
Lemma split_unique s eta h : horizontal s x h -> vertical x (eta - h) -> syl_for s eta -> h = projection SYL s x eta.
Proof.
move=> Hh Hv Hs; apply/eqP; rewrite -subr_eq0; apply/eqP; apply: (@vh_zero s).
  have -> : h - projection SYL s x eta = (eta - projection SYL s x eta) + - (eta - h).
    by move: (projection _ _ _ _) => q; apply/matrixP => i j; rewrite !mxE; rng R.
  by apply: verticalD; [exact: proj_ver | exact: verticalN].
by apply: horB => //; exact: proj_hor.
Qed.
Lemma proj_id s eta : syl_for s eta -> horizontal s x eta -> projection SYL s x eta = eta.
Proof.
move=> Hs Hh; symmetry; apply: split_unique => //; rewrite subrr; exists 0; rewrite mulmx0; split=> //.
by rewrite /skew trmx0 oppr0.
Qed.
Lemma liftB a b : lift x (a - b) = lift x a - lift x b.
Proof. by rewrite /lift; mxz; rewrite opprD addrACA. Qed.
Lemma proj_lift s eta : syl_for s eta -> lift x (projection SYL s x eta) = lift x eta.
Proof.
move=> H; have := lift_vertical (proj_ver H); rewrite liftB => /eqP.
by rewrite subr_eq0 => /eqP.
Qed.
Lemma g_subr s a b c : g_of s x (a - b) c = g_of s x a c - g_of s x b c.
Proof.
case: s; first by rewrite !g_euc_lift liftB innerBl.
  by rewrite !g_hgzE mulmxBl innerBl.
exact: innerBl.
Qed.
(** The metric of a vertical and a horizontal vector. *)
Lemma g_vh s v h : vertical x v -> horizontal s x h -> g_of s x v h = 0.
Proof.
case: s => Hv Hh; first by rewrite g_euc_lift (lift_vertical Hv) inner0l.
  exact: Hh.
exact: Hh.
Qed.
Lemma proj_g s eta h : syl_for s eta -> horizontal s x h -> g_of s x (projection SYL s x eta) h = g_of s x eta h.
Proof.
move=> Hs Hh; apply/eqP; rewrite eq_sym -subr_eq0 -g_subr; apply/eqP.
by apply: g_vh => //; exact: proj_ver.
Qed.
Lemma g_pos s eta : horizontal s x eta -> 0 <= g_of s x eta eta /\ (g_of s x eta eta = 0 -> eta = 0).
Proof.
case: s => Hh.
- rewrite g_euc_lift; split; first exact: inner_ge0.
  by move/inner_eq0/lift_kernel => Hv; exact: (vh_zero Hv Hh).
- rewrite g_hgzE; have HC := posdef_gram Hx.
  have E : inner (eta *m C) eta = \tr (eta^T^T *m C *m eta^T).
    by rewrite trmxK mxtrace_mulC -[RHS]/(inner eta (eta *m C)) innerC.
  split; first by rewrite E; apply: psd_trace; exact: posdef_psd.
  by rewrite E => /(pd_trace HC)/(congr1 trmx); rewrite trmxK trmx0.
by split; [exact: inner_ge0 | exact: inner_eq0].
Qed.
End syl.
End at_point.
End gramian.
