(** The theorems about SymFixedRankQ in the form of SymFRProps.v, and what shows that their
    hypotheses can be met. *)
From mathcomp Require Import all_ssreflect all_algebra.
Require Import Ring Field.
From Verif Require Import MxTac StiefelModel StiefelSpec StiefelProofs StiefelPolar StiefelRetr StiefelIntr SPDSpec SPDProofs.
From Verif Require Import SPDIntr Decomp.
From Verif Require Import SymFRModel SymFRSpec SymFRProofs SymFRHess SymFRIntr SymFRRetr.
Import Order.TTheory GRing.Theory Num.Theory.
Set Implicit Arguments.
Unset Strict Implicit.
Local Open Scope ring_scope.

Ltac num R := rewrite ?(mulrS, mulr0n, exprS, expr0); rng R.
Section facts.
Variable R : rcfType.
Add Field sff_field : (rcf_field R).
Variables p k : nat.
Local Notation ext := 'M[R]_(p + k, p).
Implicit Types x y eta xi : ext.
Local Notation d := (size (weak_pairs p)).

(** ** The hypotheses can be met *)
Lemma some_sylvester n : exists SYL : 'M[R]_n -> 'M[R]_n -> 'M[R]_n -> 'M[R]_n, solves_sylvester SYL.
Proof.
have [SYL H] := sylvester_function R n; exists SYL => A B C HA HB; apply: H; exact: sylvester_exists.
Qed.
Lemma some_routines : (p <= k)%N -> exists QR EIG SVD, @routines R p k QR EIG SVD.
Proof.
move=> H; have [|QR HQ] := @qr_function R (p + k) (p + p); first by rewrite leq_add2l.
have [EIG HE] := eig_function R (p + p); have [SVD HS] := svd_function R p.
exists QR, EIG, SVD; split=> //; split=> // S /HE [[E1 E2] E3]; by split.
Qed.
Lemma some_point : full_rank (col_mx 1%:M 0 : ext).
Proof. by move=> v; rewrite mul_col_mx mul1mx mul0mx => /eqP; rewrite col_mx_eq0 => /andP [/eqP ->]. Qed.
Lemma some_qr : exists QRB, forall A : 'M[R]_(p * p, size (weak_pairs p)), qr_at QRB A.
Proof.
apply: qr_function; rewrite (d_size R).
have H : (p * (p + 1) <= p * p * 2)%N.
  rewrite muln2 -addnn mulnDr muln1 leq_add2l; case: p => // q; exact: leq_pmulr.
by apply: leq_trans (leq_div2r 2 H) _; rewrite mulnK.
Qed.

Section projection.
Variable SYL : 'M[R]_p -> 'M[R]_p -> 'M[R]_p -> 'M[R]_p.
Hypothesis HS : solves_sylvester SYL.
Lemma all_syl x s eta : full_rank x -> syl_for x SYL s eta.
Proof. by move=> Hx; case: s => //=; apply: HS; exact: posdef_gram. Qed.
Lemma fact_metric s x eta xi : metric s x eta xi = g_of s x eta xi /\ g_of s x eta xi = g_of s x xi eta /\
  g_of SF_EUC x eta xi = inner (lift x eta) (lift x xi).
Proof. by split; [exact: metricE | split; [exact: g_sym | exact: g_euc_lift]]. Qed.
Lemma fact_projection s x eta : full_rank x ->
  let h := projection SYL s x eta in
  [/\ horizontal s x h, vertical x (eta - h), lift x h = lift x eta,
      forall h', horizontal s x h' -> vertical x (eta - h') -> h' = h &
      forall xi, horizontal s x xi -> g_of s x h xi = g_of s x eta xi].
Proof.
move=> Hx h; have H := all_syl s eta Hx; split.
- exact: proj_hor.
- exact: proj_ver.
- exact: proj_lift.
- by move=> h' H1 H2; apply: split_unique.
by move=> xi Hxi; apply: proj_g.
Qed.
Lemma fact_gradient s x egf : full_rank x -> s = SF_QEUC \/ invariant_at x egf ->
  let g := gradient SYL s x egf in
  [/\ horizontal s x g, forall xi, horizontal s x xi -> g_of s x g xi = inner egf xi &
      forall h, horizontal s x h -> (forall xi, horizontal s x xi -> g_of s x h xi = inner egf xi) -> h = g].
Proof.
move=> Hx Hi g; have H := all_syl s egf Hx.
have Hi' : s <> SF_QEUC -> invariant_at x egf by case: Hi.
split; first exact: grad_hor.
  by move=> xi Hxi; apply: grad_rep.
by move=> h Hh Hr; apply: grad_unique.
Qed.
Lemma fact_invariant (x : ext) (G : 'M[R]_(p + k)) : symmetric G -> invariant_at x (2%:R *: (G *m x)).
Proof.
move=> HG v [W [HW ->]]; rewrite innerZl; have -> : inner (G *m x) (x *m W) = inner (x^T *m G *m x) W^T^T.
  rewrite trmxK innerC inner_mull; rewrite innerC; congr inner; by rewrite !mulmxA.
rewrite trmxK inner_sym_skew ?mulr0 //.
by rewrite /symmetric trM trM trmxK HG mulmxA.
Qed.
Lemma fact_hess_hor s x egf eta exix : full_rank x -> horizontal s x (hessian SYL s x egf eta exix).
Proof.
move=> Hx; case: s.
- exact: (proj_hor Hx (all_syl SF_EUC _ Hx)).
- exact: (proj_hor Hx (all_syl SF_HGZ _ Hx)).
exact: (proj_hor Hx (all_syl SF_QEUC _ Hx)).
Qed.
Lemma fact_hess_qeuc x egf eta xi exix : full_rank x -> horizontal SF_QEUC x xi ->
  g_of SF_QEUC x (hessian SYL SF_QEUC x egf eta exix) xi = inner exix xi.
Proof. move=> Hx Hxi; apply: (eq_trans (proj_g Hx (all_syl SF_QEUC exix Hx) Hxi)); exact: trE. Qed.
Lemma fact_hess_sym s x egf eta xi e f : full_rank x -> s <> SF_EUC ->
  horizontal s x eta -> horizontal s x xi -> inner e xi = inner f eta ->
  g_of s x (hessian SYL s x egf eta e) xi = g_of s x eta (hessian SYL s x egf xi f).
Proof. by move=> Hx Hs; apply: hess_sym => //; exact: all_syl. Qed.
End projection.

(** ** Coordinates *)
Section coords.
Variable QRB : 'M[R]_(p * p, size (weak_pairs p)) -> 'M[R]_(p * p, size (weak_pairs p)) * 'M[R]_(size (weak_pairs p)).
Hypothesis HB : forall A, qr_at QRB A.
Implicit Types (Q : 'M[R]_(p + k)) (r : 'M[R]_p) (BL : option 'M[R]_(size (weak_pairs p))).
(** The field BL of a point at which some vector was converted to coordinates before. *)
Lemma intr_BL s BL BL' Q r eta xi : (obtain_intr QRB s BL Q r eta).1 = (obtain_intr QRB s BL' Q r eta).1 /\
  (s = SF_QEUC -> (obtain_intr QRB s BL Q r eta).2 = (obtain_intr QRB s BL' Q r xi).2).
Proof. by case: s. Qed.
Lemma fact_coords s x Q r BL eta xi : full_rank x -> is_hhr x Q r -> horizontal s x eta -> horizontal s x xi ->
  let: (v, BL') := obtain_intr QRB s BL Q r eta in let: (w, BL'') := obtain_intr QRB s BL' Q r xi in
  [/\ size v = intr_dim p k, vdot v w = g_of s x eta xi, obtain_extr s BL' Q r v = Some eta,
      obtain_extr s BL'' Q r v = Some eta & obtain_extr s BL'' Q r w = Some xi].
Proof.
move=> Hx Hr He Hxi; case: s He Hxi => He Hxi.
- by split=> /=; rewrite ?(euc_size Hr) ?(euc_inner Hx Hr) ?(euc_back Hx Hr).
- by split=> /=; rewrite ?(hgz_size Hr) ?(hgz_inner Hx Hr) ?(hgz_back Hx Hr).
have := qeuc_back Hx Hr (HB _) He; have := qeuc_back Hx Hr (HB _) Hxi; have := qeuc_inner Hx Hr (HB _) He Hxi.
have := qeuc_size Hr QRB eta; rewrite /obtain_intr !(intr_qeucE Hr) => H1 H2 H3 H4; split.
- exact: H1.
- exact: H2.
- exact: H4.
- exact: H4.
exact: H3.
Qed.
Lemma fact_coords_onto s x Q r BL eta0 v : full_rank x -> is_hhr x Q r -> size v = intr_dim p k ->
  let: (_, BL') := obtain_intr QRB s BL Q r eta0 in
  exists eta, [/\ obtain_extr s BL' Q r v = Some eta, horizontal s x eta & (obtain_intr QRB s BL' Q r eta).1 = v].
Proof.
move=> Hx Hr Hv; case: s.
- by eexists; split; [by [] | exact: (euc_extr_hor Hx Hr) | exact: (euc_forth Hx Hr)].
- by eexists; split; [by [] | exact: (hgz_extr_hor Hx Hr) | exact: (hgz_forth Hx Hr)].
rewrite /obtain_intr (intr_qeucE Hr); have [eta E [Hh Ei]] := qeuc_forth Hx Hr (HB _) Hv; exists eta; split=> //.
by rewrite Ei.
Qed.
Lemma fact_parallel s x y Qx rx Qy ry BL BL0 eta xi eta0 : full_rank x -> is_hhr x Qx rx ->
  full_rank y -> is_hhr y Qy ry -> horizontal s x eta -> horizontal s x xi ->
  let: (v, BLx) := obtain_intr QRB s BL Qx rx eta in let: (w, _) := obtain_intr QRB s BLx Qx rx xi in
  let: (_, BLy) := obtain_intr QRB s BL0 Qy ry eta0 in
  exists v' w' eta' xi',
  [/\ transport_coords QRB SF_PARALLELIZATION s BLx BLy Qx rx Qy ry v = Some v',
      transport_coords QRB SF_PARALLELIZATION s BLx BLy Qx rx Qy ry w = Some w',
      obtain_extr s BLy Qy ry v' = Some eta' /\ obtain_extr s BLy Qy ry w' = Some xi',
      horizontal s y eta' /\ horizontal s y xi' & g_of s y eta' xi' = g_of s x eta xi].
Proof.
move=> Hx Hrx Hy Hry He Hxi.
case E1 : (obtain_intr QRB s BL Qx rx eta) => [v BLx]; case E2 : (obtain_intr QRB s BLx Qx rx xi) => [w BLx'].
case E3 : (obtain_intr QRB s BL0 Qy ry eta0) => [u BLy].
have := fact_coords BL Hx Hrx He Hxi; rewrite E1 E2 => -[Hv Hd _ _ _].
have := fact_coords BLx Hx Hrx Hxi He; rewrite E2.
case: (obtain_intr QRB s BLx' Qx rx eta) => [v5 BL5] [Hw _ _ _ _].
have := fact_coords_onto s BL0 eta0 Hy Hry Hv; rewrite E3 => -[eta' [H1 H2 H3]].
have := fact_coords_onto s BL0 eta0 Hy Hry Hw; rewrite E3 => -[xi' [G1 G2 G3]].
exists v, w, eta', xi'; split=> //.
have := fact_coords BLy Hy Hry H2 G2; move: H3 G3; case E6 : (obtain_intr QRB s BLy Qy ry eta') => [v6 BL6] /= E7.
have [H _] := intr_BL s BLy BL6 Qy ry xi' xi'; rewrite {}H.
by case: (obtain_intr QRB s BL6 Qy ry xi') => [w6 BL7] /= -> [_ <- _ _ _]; rewrite E7.
Qed.
Lemma fact_project_same s x y Qx rx Qy ry BL BLy eta : full_rank x -> is_hhr x Qx rx ->
  horizontal s x eta ->
  let: (v, BLx) := obtain_intr QRB s BL Qx rx eta in
  transport_coords QRB SF_PROJECTION s BLx BLy Qx rx Qy ry v = Some (obtain_intr QRB s BLy Qy ry eta).1.
Proof.
move=> Hx Hr He; have := fact_coords BL Hx Hr He He.
case: (obtain_intr QRB s BL Qx rx eta) => [v BLx]; case: (obtain_intr QRB s BLx Qx rx eta) => [w BL'] [_ _ E _ _].
by rewrite /transport_coords E.
Qed.
Lemma fact_diff_coords SYL s x y Qx rx Qy ry BL BLy eta : full_rank x -> is_hhr x Qx rx ->
  horizontal s x eta ->
  let: (v, BLx) := obtain_intr QRB s BL Qx rx eta in
  diff_retraction_coords QRB SYL s BLx BLy Qx rx Qy ry y v =
    Some (obtain_intr QRB s BLy Qy ry (diff_retraction SYL s y eta)).1.
Proof.
move=> Hx Hr He; have := fact_coords BL Hx Hr He He.
case: (obtain_intr QRB s BL Qx rx eta) => [v BLx]; case: (obtain_intr QRB s BLx Qx rx eta) => [w BL'] [_ _ E _ _].
by rewrite /diff_retraction_coords E.
Qed.
End coords.

(** ** Retraction *)
Lemma hor_scale s x (c : R) : full_rank x -> horizontal s x (c *: x).
Proof.
move=> Hx; apply/(horP Hx); have E : invmx (x^T *m x) *m x^T *m (c *: x) = c%:M.
  by rewrite -scalemxAr Cixx0 // scalemx1.
by case: s; rewrite ?E /symmetric ?tr_scalar_mx // -scalemxAr trZ trM trmxK.
Qed.
Lemma psd_scale m (A : 'M[R]_m) (c : R) : 0 <= c -> psd A -> psd (c *: A).
Proof.
move=> Hc [HA Hv]; split; first by rewrite /symmetric trZ HA.
by move=> v; rewrite -scalemxAr -scalemxAl mxE mulr_ge0.
Qed.
Section retraction.
Variables (QR : 'M[R]_(p + k, p + p) -> 'M[R]_(p + k, p + p) * 'M[R]_(p + p))
  (EIG : 'M[R]_(p + p) -> 'M[R]_(p + p) * 'rV[R]_(p + p)) (SVD : 'M[R]_p -> 'M[R]_p * 'rV[R]_p * 'M[R]_p).
Hypothesis HR : routines QR EIG SVD.
Hypothesis Hk : (p <= k)%N.
Lemma fact_retraction x eta : full_rank x -> exists y, [/\ retraction QR EIG SVD x eta = Some y,
  forall P, psd P -> inner (gram x + lift x eta - gram y) (gram x + lift x eta - gram y) + inner (P - gram y) (P - gram y)
    <= inner (gram x + lift x eta - P) (gram x + lift x eta - P),
  forall O, orthonormal O -> inner (y - x) (y - x) <= inner (y *m O - x) (y *m O - x),
  posdef (x^T *m (gram x + lift x eta) *m x) -> full_rank y & full_rank (row_mx x eta) -> full_rank y].
Proof.
move=> Hx; have [y [E _ H]] := retr_spec HR x eta Hk; exists y; split=> //.
- move=> O; exact: (retr_near_rep HR Hk E).
- exact: (retr_full HR Hk E).
exact: (retr_full_generic HR Hk E).
Qed.
Lemma fact_collapse s x : (0 < p)%N -> full_rank x -> exists eta, horizontal s x eta /\
  exists y, retraction QR EIG SVD x eta = Some y /\ ~ full_rank y.
Proof.
move=> Hp Hx; exists (- half R *: x); split; first exact: hor_scale.
exists 0; split; first exact: (retr_collapse HR x Hk).
move=> H; have /eqP := H (const_mx 1) (mul0mx _ _); apply/negP/eqP => /(congr1 (fun A : 'cV[R]_p => A (Ordinal Hp) 0)).
by rewrite !mxE; apply/eqP; rewrite oner_eq0.
Qed.
(** Along multiples of x the retraction is known. *)
Lemma along x c : full_rank x -> 0 <= c -> 
  retraction QR EIG SVD x (half R * (c ^+ 2 - 1) *: x) = Some (c *: x).
Proof.
move=> Hx Hc; set eta := _ *: x; have [y [E HP _]] := retr_spec HR x eta Hk.
have Et : gram x + lift x eta = c ^+ 2 *: gram x.
  have -> : lift x eta = (c ^+ 2 - 1) *: gram x.
    rewrite /eta /lift /gram trZ -scalemxAl -scalemxAr -scalerDl; congr (_ *: _).
    by rewrite -mulrDl half2 mul1r.
  by rewrite -{1}[gram x]scale1r -scalerDl addrC subrK.
have Eg : gram y = c ^+ 2 *: gram x.
  by rewrite (retr_exact HR Hk _ E) Et //; apply: psd_scale (psd_gram _); exact: sqr_ge0.
rewrite E; congr Some; case: (altP (c =P 0)) => [Hc0|Hn].
  move: Eg; rewrite Hc0 expr0n /= scale0r scale0r => Hg; apply: trmx_inj; rewrite trmx0; apply: inner_eq0.
  by rewrite /inner trmxK -/(gram y) Hg mxtrace0.
have Hcx : full_rank (c *: x).
  by move=> v; rewrite -scalemxAl => /eqP; rewrite scaler_eq0 (negbTE Hn) => /eqP /Hx.
apply: (same_gram Hcx).
  by rewrite Eg /gram trZ -scalemxAl -scalemxAr scalerA expr2.
by rewrite trZ -scalemxAl; apply: psd_scale.
Qed.
Lemma fact_diff SYL s x : (0 < p)%N -> full_rank x -> solves_sylvester SYL -> exists eta xi y (Y : R -> ext),
  [/\ horizontal s x eta, horizontal s x xi, retraction QR EIG SVD x eta = Some y,
      forall t, retraction QR EIG SVD x (eta + t *: xi) = Some (Y t) &
      ~ first_order (fun t => gram (Y t)) (fun t => gram y + t *: lift y (diff_retraction SYL s y xi))].
Proof.
move=> Hp Hx HS; pose Y t := odflt 0 (retraction QR EIG SVD x (4%:R *: x + t *: x)).
have H4 : 4%:R = half R * (3%:R ^+ 2 - 1) :> R.
  have : half R + half R = 1 := half2 R; move: (half R) => h Hh.
  have -> : h * (3%:R ^+ 2 - 1) = 4%:R * (h + h) by num R.
  by rewrite Hh mulr1.
exists (4%:R *: x), x, (3%:R *: x), Y; split.
- exact: hor_scale.
- by rewrite -[x in horizontal s _ x]scale1r; exact: hor_scale.
- by rewrite H4; apply: along => //; rewrite ler0n.
- by move=> t; rewrite /Y; have [y [-> _ _]] := retr_spec HR x (4%:R *: x + t *: x) Hk.
have H3 : full_rank (3%:R *: x).
  by move=> v; rewrite -scalemxAl => /eqP; rewrite scaler_eq0 pnatr_eq0 => /eqP /Hx.
have -> : lift (3%:R *: x) (diff_retraction SYL s (3%:R *: x) x) = 6%:R *: gram x.
  have [_ _ H _ _] := fact_projection HS s x H3; apply: (eq_trans H).
  rewrite /lift /gram trZ -scalemxAl -scalemxAr -scalerDl; congr (_ *: _); by rewrite -natrD.
have EY t : 0 <= t -> gram (Y t) = (9%:R + 2%:R * t) *: gram x.
  move=> Ht; have Hc : 0 <= 9%:R + 2%:R * t by apply: addr_ge0; rewrite ?ler0n // mulr_ge0 ?ler0n.
  have -> : Y t = Num.sqrt (9%:R + 2%:R * t) *: x.
    rewrite /Y -scalerDl; have -> : 4%:R + t = half R * (Num.sqrt (9%:R + 2%:R * t) ^+ 2 - 1).
      rewrite sqr_sqrtr //; have : half R + half R = 1 := half2 R; move: (half R) => h Hh.
      have -> : h * (9%:R + 2%:R * t - 1) = (4%:R + t) * (h + h) by num R.
      by rewrite Hh mulr1.
    by rewrite along ?sqrtr_ge0.
  by rewrite /gram trZ -scalemxAl -scalemxAr scalerA -expr2 sqr_sqrtr.
set N := inner (gram x) (gram x); have HN : 0 < N.
  rewrite lt_def inner_ge0 andbT; apply/eqP => /inner_eq0 E0.
  have : inner x^T x^T = 0 by rewrite /inner trmxK -/(gram x) E0 mxtrace0.
  move/inner_eq0/(congr1 trmx); rewrite trmxK trmx0 => Ex.
  have := Hx (const_mx 1); rewrite Ex mul0mx => /(_ erefl) /(congr1 (fun A : 'cV[R]_p => A (Ordinal Hp) 0)).
  by rewrite !mxE => /eqP; rewrite oner_eq0.
move=> /(_ N HN) [b Hb]; pose t := half R * b.
have Hh : 0 < half R.
  have := half2 R; have : (0 : R) < 1 by exact: ltr01.
  by move=> H1 E2; move: H1; rewrite -{}E2 -mulr2n pmulrn_lgt0.
have Ht : 0 < t by rewrite /t mulr_gt0.
have Htb : `|t| < b.
  by rewrite gtr0_norm // /t -{2}[b]mul1r -(half2 R) mulrDl ltr_addl mulr_gt0.
move=> /(_ t Htb); rewrite EY; last exact: ltW.
have -> : (9%:R + 2%:R * t) *: gram x - (gram (3%:R *: x) + t *: (6%:R *: gram x)) = (- (4%:R * t)) *: gram x.
  rewrite /gram trZ -scalemxAl -scalemxAr !scalerA -scalerDl -scalerBl; congr (_ *: _); num R.
rewrite innerZl innerC innerZl -/N mulrA mulrNN => Hle.
have : 16%:R * (N * t ^+ 2) <= N * t ^+ 2.
  by apply: le_trans Hle; rewrite le_eqVlt; apply/orP; left; apply/eqP; num R.
have HP : 0 < N * t ^+ 2 by rewrite mulr_gt0 // exprn_gt0.
by rewrite -{2}[N * _]mul1r ler_pmul2r // lern1.
Qed.
Lemma fact_diff_zero SYL s x xi (Y : R -> ext) : full_rank x -> solves_sylvester SYL ->
  (forall t, retraction QR EIG SVD x (t *: xi) = Some (Y t)) ->
  second_order (fun t => gram (Y t)) (fun t => gram x + t *: lift x (diff_retraction SYL s x xi)).
Proof.
move=> Hx HS HY; have [_ _ -> _ _] := fact_projection HS s xi Hx.
exact: (retr_second HR Hk HY).
Qed.
End retraction.
End facts.
