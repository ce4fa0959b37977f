(** The theorems about CSymFixedRankQ in the form of CSymFRProps.v, and what shows that their
    hypotheses can be met. *)
From mathcomp Require Import all_ssreflect all_algebra.
From mathcomp.real_closed Require Import complex.
Require Import Ring Field.
From Verif Require StiefelProofs.
From Verif Require Import MxTac StiefelModel StiefelSpec StiefelIntr CStieSpec CStieModel CMx CStieProofs CStieRetr CStiePolar CStieIntr CFrSpec CFr CDecomp.
From Verif Require Import CSymFRModel CSymFRSpec CSymFRProofs CSymFRHess CSymFRIntr CSymFRRetr.
Import Order.TTheory GRing.Theory Num.Theory.
Set Implicit Arguments.
Unset Strict Implicit.
Local Open Scope ring_scope.
Local Open Scope complex_scope.

Ltac num R := rewrite ?(mulrS, mulr0n, exprS, expr0); rng R.
Section facts.
Variable R : rcfType.
Local Notation C := R[i].
Local Notation re := (@complex.Re R).
Add Field csff_field : (rcf_field R).
Add Ring csff_ring : (kring R).
Variables p k : nat.
Local Notation ext := 'M[C]_(p + k, p).
Implicit Types x y eta xi : ext.

(** ** The hypotheses can be met *)
Lemma some_routines : (p <= k)%N -> exists QR EIG SVD, @routines R p k QR EIG SVD.
Proof.
move=> H; have [|QR HQ] := @qr_function R (p + k) (p + p); first by rewrite leq_add2l.
have [EIG HE] := eig_function R (p + p); have [SVD HS] := svd_function R p.
exists QR, EIG, SVD; split=> //; split=> // S /HE [[E1 E2] E3]; by split.
Qed.
Lemma some_point : cfull_rank (col_mx 1%:M 0 : ext).
Proof. by move=> v; rewrite mul_col_mx mul1mx mul0mx => /eqP; rewrite col_mx_eq0 => /andP [/eqP ->]. Qed.

Lemma fact_metric s x eta xi : metric s x eta xi = g_of s x eta xi /\ g_of s x eta xi = g_of s x xi eta /\
  g_of CSF_EUC x eta xi = cinner (lift x eta) (lift x xi).
Proof. by split; [exact: metricE | split; [exact: g_sym | exact: g_euc_lift]]. Qed.
Lemma fact_projection s x eta : cfull_rank x ->
  let h := projection x eta in
  [/\ horizontal x h, vertical x (eta - h), lift x h = lift x eta,
      forall h', horizontal x h' -> vertical x (eta - h') -> h' = h &
      forall xi, horizontal x xi -> g_of s x h xi = g_of s x eta xi].
Proof.
move=> Hx h; split.
- exact: proj_hor.
- exact: proj_ver.
- exact: proj_lift.
- by move=> h' H1 H2; apply: split_unique.
by move=> xi Hxi; apply: proj_g.
Qed.
Lemma fact_gradient s x egf : cfull_rank x -> invariant_at x egf ->
  let g := gradient s x egf in
  [/\ horizontal x g, forall xi, horizontal x xi -> g_of s x g xi = cinner egf xi &
      forall h, horizontal x h -> (forall xi, horizontal x xi -> g_of s x h xi = cinner egf xi) -> h = g].
Proof.
move=> Hx Hi g; split; first exact: grad_hor.
  by move=> xi Hxi; apply: grad_rep.
by move=> h Hh Hr; apply: grad_unique.
Qed.
Lemma fact_invariant (x : ext) (G : 'M[C]_(p + k)) : hermitian G -> invariant_at x ((2%:R)%:C *: (G *m x)).
Proof. by move=> HG; apply/inv_sym; rewrite /hermitian !(kmulZr, adjR) !adjM adjK HG mulmxA. Qed.
Lemma fact_hess_hor s x egf eta exix : cfull_rank x -> horizontal x (hessian s x egf eta exix).
Proof. by move=> Hx; case: s; exact: proj_hor. Qed.

(** ** Coordinates *)
Implicit Types (Q : 'M[C]_(p + k)) (r : 'M[C]_p).
Lemma fact_coords s x Q r eta xi : cfull_rank x -> is_chhr x Q r -> horizontal x eta -> horizontal x xi ->
  [/\ size (obtain_intr s Q r eta) = intr_dim p k,
      vdot (obtain_intr s Q r eta) (obtain_intr s Q r xi) = g_of s x eta xi &
      obtain_extr s Q r (obtain_intr s Q r eta) = eta].
Proof.
move=> Hx Hr He Hxi; case: s => /=.
- by split; rewrite ?(euc_size Hr) ?(euc_inner Hx Hr) ?(euc_back Hx Hr).
by split; rewrite ?(hgz_size Hr) ?(hgz_inner Hx Hr) ?(hgz_back Hx Hr).
Qed.
Lemma fact_coords_onto s x Q r v : cfull_rank x -> is_chhr x Q r -> size v = intr_dim p k ->
  horizontal x (obtain_extr s Q r v) /\ obtain_intr s Q r (obtain_extr s Q r v) = v.
Proof.
move=> Hx Hr Hv; case: s => /=.
- by split; [exact: (euc_extr_hor Hx Hr) | exact: (euc_forth Hx Hr)].
by split; [exact: (hgz_extr_hor Hx Hr) | exact: (hgz_forth Hx Hr)].
Qed.
Lemma fact_parallel s x y Qx rx Qy ry eta xi : cfull_rank x -> is_chhr x Qx rx ->
  cfull_rank y -> is_chhr y Qy ry -> horizontal x eta -> horizontal x xi ->
  let T th := obtain_extr s Qy ry (transport_coords CSF_PARALLELIZATION s Qx rx Qy ry (obtain_intr s Qx rx th)) in
  [/\ horizontal y (T eta), horizontal y (T xi) & g_of s y (T eta) (T xi) = g_of s x eta xi].
Proof.
move=> Hx Hrx Hy Hry He Hxi T.
have [Hv Hd _] := fact_coords s Hx Hrx He Hxi; have [Hw _ _] := fact_coords s Hx Hrx Hxi He.
have [H1 H2] := fact_coords_onto s Hy Hry Hv; have [H3 H4] := fact_coords_onto s Hy Hry Hw.
rewrite /T /transport_coords; split; [exact: H1 | exact: H3 |].
have [_ E _] := fact_coords s Hy Hry H1 H3; apply: (eq_trans (esym E)).
apply: eq_trans Hd; congr (vdot _ _); [exact: H2 | exact: H4].
Qed.
Lemma fact_project_same s x Qx rx Qy ry eta : cfull_rank x -> is_chhr x Qx rx -> horizontal x eta ->
  transport_coords CSF_PROJECTION s Qx rx Qy ry (obtain_intr s Qx rx eta) = obtain_intr s Qy ry eta.
Proof. by move=> Hx Hr He; have [_ _ E] := fact_coords s Hx Hr He He; rewrite /transport_coords E. Qed.
Lemma fact_diff_coords s x y Qx rx Qy ry eta : cfull_rank x -> is_chhr x Qx rx -> horizontal x eta ->
  diff_retraction_coords s Qx rx Qy ry y (obtain_intr s Qx rx eta) = obtain_intr s Qy ry (diff_retraction y eta).
Proof. by move=> Hx Hr He; have [_ _ E] := fact_coords s Hx Hr He He; rewrite /diff_retraction_coords E. Qed.

(** ** Retraction *)
Lemma hor_scale x (c : R) : cfull_rank x -> horizontal x (c%:C *: x).
Proof.
move=> Hx; apply/(horP Hx); have -> : invmx (adj x *m x) *m adj x *m (c%:C *: x) = c%:C *: 1%:M.
  by rewrite kmulZr Cixx0.
by rewrite /hermitian adjR adj1.
Qed.
Lemma psd_scale m (A : 'M[C]_m) (c : R) : 0 <= c -> cpsd A -> cpsd (c%:C *: A).
Proof.
move=> Hc [HA Hv]; split; first by rewrite /hermitian adjR HA.
by move=> v; rewrite kmulZr kmulZl mxE re_realM mulr_ge0.
Qed.
Lemma rc_eq0 (c : R) : (c%:C == 0) = (c == 0).
Proof. by rewrite eq_complex /= eqxx andbT. Qed.
Section retraction.
Variables (QR : 'M[C]_(p + k, p + p) -> 'M[C]_(p + k, p + p) * 'M[C]_(p + p))
  (EIG : 'M[C]_(p + p) -> 'M[C]_(p + p) * 'rV[R]_(p + p)) (SVD : 'M[C]_p -> 'M[C]_p * 'rV[R]_p * 'M[C]_p).
Hypothesis HR : routines QR EIG SVD.
Hypothesis Hk : (p <= k)%N.
Lemma fact_retraction x eta : cfull_rank x -> exists y, [/\ retraction QR EIG SVD x eta = Some y,
  forall P, cpsd P -> cinner (gram x + lift x eta - gram y) (gram x + lift x eta - gram y) + cinner (P - gram y) (P - gram y)
    <= cinner (gram x + lift x eta - P) (gram x + lift x eta - P),
  forall O, unitary O -> cinner (y - x) (y - x) <= cinner (y *m O - x) (y *m O - x),
  cposdef (adj x *m (gram x + lift x eta) *m x) -> cfull_rank y & cfull_rank (row_mx x eta) -> cfull_rank y].
Proof.
move=> Hx; have [y [E _ H]] := retr_spec HR x eta Hk; exists y; split=> //.
- move=> O; exact: (retr_near_rep HR Hk E).
- exact: (retr_full HR Hk E).
exact: (retr_full_generic HR Hk E).
Qed.
Lemma fact_collapse x : (0 < p)%N -> cfull_rank x -> exists eta, horizontal x eta /\
  exists y, retraction QR EIG SVD x eta = Some y /\ ~ cfull_rank y.
Proof.
move=> Hp Hx; exists (- (half R)%:C *: x); split; first by rewrite -rcN; exact: hor_scale.
exists 0; split; first exact: (retr_collapse HR x Hk).
move=> H; have /eqP := H (const_mx 1) (mul0mx _ _); apply/negP/eqP => /(congr1 (fun A : 'cV[C]_p => A (Ordinal Hp) 0)).
by rewrite !mxE; apply/eqP; rewrite oner_eq0.
Qed.
Lemma gram_scale x (c : R) : gram (c%:C *: x) = (c ^+ 2)%:C *: gram x.
Proof. by rewrite /gram adjR kmulZl kmulZr scalerA expr2 rcM. Qed.
Lemma full_scale x (c : R) : c != 0 -> cfull_rank x -> cfull_rank (c%:C *: x).
Proof. by move=> Hc Hx v; rewrite kmulZl => /eqP; rewrite scaler_eq0 rc_eq0 (negbTE Hc) => /eqP /Hx. Qed.
(** Along multiples of x the retraction is known. *)
Lemma along x c : cfull_rank x -> 0 <= c ->
  retraction QR EIG SVD x ((half R * (c ^+ 2 - 1))%:C *: x) = Some (c%:C *: x).
Proof.
move=> Hx Hc; set eta := _ *: x; have [y [E HP _]] := retr_spec HR x eta Hk.
have Et : gram x + lift x eta = (c ^+ 2)%:C *: gram x.
  have -> : lift x eta = (c ^+ 2 - 1)%:C *: gram x.
    rewrite /eta /lift /gram adjR kmulZl kmulZr -scalerDl -rcD; congr (_%:C *: _).
    by rewrite -mulrDl StiefelProofs.half2 mul1r.
  by rewrite -{1}[gram x]scale1r -scalerDl -[1]/(1%:C) -rcD addrC subrK.
have Eg : gram y = (c ^+ 2)%:C *: gram x.
  by rewrite (retr_exact HR Hk _ E) Et //; apply: psd_scale (psd_gram _); exact: sqr_ge0.
rewrite E; congr Some; case: (altP (c =P 0)) => [Hc0|Hn].
  move: Eg; rewrite Hc0 expr0n /= !scale0r => Hg; apply: adj_inj; rewrite adj0; apply: cinner_eq0.
  by rewrite /cinner adjK -/(gram y) Hg mxtrace0.
apply: (same_gram (full_scale Hn Hx)); first by rewrite Eg gram_scale.
by rewrite adjR kmulZl; apply: psd_scale.
Qed.
Lemma fact_diff x : (0 < p)%N -> cfull_rank x -> exists eta xi y (Y : R -> ext),
  [/\ horizontal x eta, horizontal x xi, retraction QR EIG SVD x eta = Some y,
      forall t, retraction QR EIG SVD x (eta + t%:C *: xi) = Some (Y t) &
      ~ first_order (fun t => gram (Y t)) (fun t => gram y + t%:C *: lift y (diff_retraction y xi))].
Proof.
move=> Hp Hx; pose Y t := odflt 0 (retraction QR EIG SVD x ((4%:R)%:C *: x + t%:C *: x)).
have H4 : 4%:R = half R * (3%:R ^+ 2 - 1) :> R.
  have : half R + half R = 1 := StiefelProofs.half2 R; move: (half R) => h Hh.
  have -> : h * (3%:R ^+ 2 - 1) = 4%:R * (h + h) by num R.
  by rewrite Hh mulr1.
exists ((4%:R)%:C *: x), x, ((3%:R)%:C *: x), Y; split.
- exact: hor_scale.
- by rewrite -[x in horizontal _ x]scale1r; exact: (hor_scale 1).
- by rewrite H4; apply: along => //; rewrite ler0n.
- by move=> t; rewrite /Y; have [y [-> _ _]] := retr_spec HR x ((4%:R)%:C *: x + t%:C *: x) Hk.
have H3 : cfull_rank ((3%:R)%:C *: x) by apply: full_scale => //; rewrite pnatr_eq0.
have -> : lift ((3%:R)%:C *: x) (diff_retraction ((3%:R)%:C *: x) x) = (6%:R)%:C *: gram x.
  have [_ _ H _ _] := fact_projection CSF_HGZ x H3; apply: (eq_trans H).
  rewrite /lift /gram adjR kmulZl kmulZr -scalerDl -rcD; congr (_%:C *: _); by rewrite -natrD.
have EY t : 0 <= t -> gram (Y t) = (9%:R + 2%:R * t)%:C *: gram x.
  move=> Ht; have Hc : 0 <= 9%:R + 2%:R * t by apply: addr_ge0; rewrite ?ler0n // mulr_ge0 ?ler0n.
  have -> : Y t = (Num.sqrt (9%:R + 2%:R * t))%:C *: x.
    rewrite /Y -scalerDl -rcD; have -> : 4%:R + t = half R * (Num.sqrt (9%:R + 2%:R * t) ^+ 2 - 1).
      rewrite sqr_sqrtr //; have : half R + half R = 1 := StiefelProofs.half2 R; move: (half R) => h Hh.
      have -> : h * (9%:R + 2%:R * t - 1) = (4%:R + t) * (h + h) by num R.
      by rewrite Hh mulr1.
    by rewrite along ?sqrtr_ge0.
  by rewrite gram_scale sqr_sqrtr.
set N := cinner (gram x) (gram x); have HN : 0 < N.
  rewrite lt_def cinner_ge0 andbT; apply/eqP => /cinner_eq0 E0.
  have : cinner (adj x) (adj x) = 0 by rewrite /cinner adjK -/(gram x) E0 mxtrace0.
  move/cinner_eq0/(congr1 (@adj R _ _)); rewrite adjK adj0 => Ex.
  have := Hx (const_mx 1); rewrite Ex mul0mx => /(_ erefl) /(congr1 (fun A : 'cV[C]_p => A (Ordinal Hp) 0)).
  by rewrite !mxE => /eqP; rewrite oner_eq0.
move=> /(_ N HN) [b Hb]; pose t := half R * b.
have Hh : 0 < half R.
  have := StiefelProofs.half2 R; have : (0 : R) < 1 by exact: ltr01.
  by move=> H1 E2; move: H1; rewrite -{}E2 -mulr2n pmulrn_lgt0.
have Ht : 0 < t by rewrite /t mulr_gt0.
have Htb : `|t| < b.
  by rewrite gtr0_norm // /t -{2}[b]mul1r -(StiefelProofs.half2 R) mulrDl ltr_addl mulr_gt0.
move=> /(_ t Htb); rewrite EY; last exact: ltW.
have -> : (9%:R + 2%:R * t)%:C *: gram x - (gram ((3%:R)%:C *: x) + t%:C *: ((6%:R)%:C *: gram x)) = (- (4%:R * t))%:C *: gram x.
  rewrite gram_scale scalerA -scalerDl -scalerBl -rcM -rcD -rcN -rcD; congr (_%:C *: _); num R.
rewrite cinnerZl cinnerC cinnerZl -/N mulrA mulrNN => Hle.
have : 16%:R * (N * t ^+ 2) <= N * t ^+ 2.
  by apply: le_trans Hle; rewrite le_eqVlt; apply/orP; left; apply/eqP; num R.
have HP : 0 < N * t ^+ 2 by rewrite mulr_gt0 // exprn_gt0.
by rewrite -{2}[N * _]mul1r ler_pmul2r // lern1.
Qed.
Lemma fact_diff_zero x xi (Y : R -> ext) : cfull_rank x ->
  (forall t, retraction QR EIG SVD x (t%:C *: xi) = Some (Y t)) ->
  csecond_order (fun t => gram (Y t)) (fun t => gram x + t%:C *: lift x (diff_retraction x xi)).
Proof.
move=> Hx HY; have [_ _ -> _ _] := fact_projection CSF_HGZ xi Hx.
exact: (retr_second HR Hk HY).
Qed.
End retraction.
End facts.
