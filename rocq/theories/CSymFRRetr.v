(** Proofs about the retraction of CSymFixedRankQ. *)
From mathcomp Require Import all_ssreflect all_algebra.
From mathcomp.real_closed Require Import complex.
Require Import Ring Field.
From Verif Require StiefelProofs.
From Verif Require Import MxTac StiefelModel CStieSpec CStieModel CMx CStieProofs CStieRetr CStiePolar CFrSpec CFr CSymFRModel CSymFRSpec CSymFRProofs.
Import Order.TTheory GRing.Theory Num.Theory.
Set Implicit Arguments.
Unset Strict Implicit.
Local Open Scope ring_scope.
Local Open Scope complex_scope.

(** ** Nearest positive semidefinite matrices *)
Section nearest.
Variable R : rcfType.
Local Notation C := R[i].
Local Notation re := (@complex.Re R).
Local Notation im := (@complex.Im R).
Add Field csfrr_field0 : (rcf_field R).
Add Ring csfrr_ring0 : (kring R).
Local Notation sq z := (re z * re z + im z * im z).
Lemma psdE n (A : 'M[C]_n) : cpsd A <-> CStiePolar.cpsd A.
Proof. by split=> -[H1 H2]; split=> // v; have := H2 v; rewrite quadE. Qed.
Lemma wide_kernel a b (A : 'M[C]_(b, a)) : (a < b)%N -> exists u : 'rV[C]_b, u != 0 /\ u *m A = 0.
Proof.
move=> H; have : kermx A != 0.
  by rewrite kermx_eq0 /row_free neq_ltn (leq_ltn_trans (rank_leq_col A) H).
move/rowV0Pn => [u /sub_kermxP Hu Hn]; by exists u.
Qed.
Lemma quad_diag n (lam : 'rV[R]_n) (u : 'cV[C]_n) : re ((adj u *m rdiag lam *m u) 0 0) = \sum_i lam 0 i * sq (u i 0).
Proof.
rewrite quadE -cdotE /cdot; apply: eq_bigr => i _; rewrite big_ord1 rdiag_mul.
move: (u i 0) => c; rewrite reM imM /=; rng R.
Qed.
(** If the quadratic form of Z vanishes where p linear forms do, at most p eigenvalues are negative,
    and at most p are positive. *)
Lemma inertia p (Z V : 'M[C]_(p + p)) (lam : 'rV[R]_(p + p)) (A : 'M[C]_(p + p, p)) :
  Z = V *m rdiag lam *m adj V -> unitary V -> (forall i j : 'I_(p + p), (i <= j)%N -> lam 0 i <= lam 0 j) ->
  (forall w : 'cV[C]_(p + p), adj w *m A = 0 -> re ((adj w *m Z *m w) 0 0) = 0) ->
  (forall i : 'I_p, 0 <= lam 0 (rshift p i)) /\ (forall i : 'I_p, lam 0 (lshift p i) <= 0).
Proof.
move=> EZ HV Hasc Hq.
have HV' : V *m adj V = 1%:M by apply: mulmx1C.
have key (B : 'M[C]_(p + p, p.-1)) : (0 < p)%N -> exists c : 'rV[C]_(p + p), [/\ c != 0, c *m B = 0 &
    \sum_i lam 0 i * sq (c 0 i) = 0].
  move=> Hp; have [|c [Hc]] := @wide_kernel (p + p.-1) (p + p) (row_mx (adj V *m A) B); first by rewrite ltn_add2l prednK.
  rewrite mul_mx_row => /eqP; rewrite row_mx_eq0 => /andP [/eqP H1 /eqP H2]; exists c; split=> //.
  have := Hq (V *m adj c); rewrite adjM adjK -[c *m adj V *m A]mulmxA => /(_ H1) E; rewrite -[RHS]E.
  rewrite EZ; have -> : c *m adj V *m (V *m rdiag lam *m adj V) *m (V *m adj c) = adj (adj c) *m rdiag lam *m adj c.
    rewrite adjK !mulmxA -[c *m adj V *m V]mulmxA HV mulmx1.
    by rewrite -[c *m rdiag lam *m adj V *m V]mulmxA HV mulmx1.
  rewrite quad_diag; apply: eq_bigr => i _; rewrite mxE; case: (c 0 i) => a b /=; rng R.
have pos (f : 'I_(p + p) -> R) (c : 'rV[C]_(p + p)) : (forall i, c 0 i != 0 -> 0 < f i) -> c != 0 ->
    0 < \sum_i f i * sq (c 0 i).
  move=> Hf Hc; have Hge i : 0 <= f i * sq (c 0 i).
    case: (altP (c 0 i =P 0)) => [->|H]; first by rewrite !mulr0 addr0 mulr0.
    by apply: mulr_ge0; [exact/ltW/Hf | exact: sq2_ge0].
  rewrite lt_def sumr_ge0 // andbT; apply/eqP => /eqP; rewrite psumr_eq0 // => /allP H.
  move/eqP: Hc; apply; apply/matrixP => z i; rewrite ord1 [RHS]mxE; apply/eqP; apply: contraTT isT => Hi.
  have := H i (mem_index_enum _); rewrite mulf_eq0 => /orP [/eqP E|/eqP /sq2_eq0 E].
    by have := Hf i Hi; rewrite E ltxx.
  by rewrite E eqxx in Hi.
split=> i; rewrite leNgt; apply/negP => Hi.
  have Hp : (0 < p)%N by apply: leq_trans (ltn_ord i).
  have [c [Hc HB E]] := key (\matrix_(a, b) (val a == p.+1 + b)%N%:R) Hp.
  have : 0 < \sum_j (- lam 0 j) * sq (c 0 j).
    apply: pos => // j Hj; rewrite oppr_gt0; apply: le_lt_trans Hi; apply: Hasc => /=.
    apply: (@leq_trans p); last exact: leq_addr.
    rewrite leqNgt; apply/negP => Hpj; move/eqP: Hj; apply.
    have Hb : (j - p.+1 < p.-1)%N.
      by rewrite ltn_subLR // addSnnS prednK // -addSn prednK //; exact: ltn_ord.
    have := congr1 (fun M : 'rV_ _ => M 0 (Ordinal Hb)) HB; rewrite !mxE (bigD1 j) //= big1 => [|l Hl].
      by rewrite mxE /= subnKC // eqxx mulr1 addr0.
    rewrite mxE /= subnKC //; have -> : (val l == val j) = false by apply/negbTE.
    by rewrite mulr0.
  by rewrite (eq_bigr (fun j => - (lam 0 j * sq (c 0 j)))) => [|j _]; rewrite ?mulNr // sumrN E oppr0 ltxx.
have Hp : (0 < p)%N by apply: leq_trans (ltn_ord i).
have [c [Hc HB E]] := key (\matrix_(a, b) (val a == b)%:R) Hp.
have : 0 < \sum_j lam 0 j * sq (c 0 j); last by rewrite E ltxx.
apply: pos => // j Hj; apply: (lt_le_trans Hi); apply: Hasc => /=.
rewrite leqNgt; apply/negP => Hji; move/eqP: Hj; apply.
have Hb : (j < p.-1)%N by apply: (leq_trans Hji); rewrite -ltnS prednK.
have := congr1 (fun M : 'rV_ _ => M 0 (Ordinal Hb)) HB; rewrite !mxE (bigD1 j) //= big1 => [|l Hl].
  by rewrite mxE /= eqxx mulr1 addr0.
have E0 : (val l == val j) = false by apply/negbTE.
by rewrite mxE /= E0 mulr0.
Qed.
(** M - Y negative semidefinite and orthogonal to Y: Y is nearer to M than P by their distance. *)
Lemma nearest_psd n (M Y P : 'M[C]_n) : cinner (M - Y) Y = 0 -> cinner (M - Y) P <= 0 ->
  cinner (M - Y) (M - Y) + cinner (P - Y) (P - Y) <= cinner (M - P) (M - P).
Proof.
move=> H1 H2; have -> : M - P = (M - Y) - (P - Y) by rewrite opprB addrA subrK.
move: H1 H2; move: (M - Y) => N H1 H2.
have HD : cinner N (P - Y) <= 0 by rewrite cinnerBr H1 subr0.
move: (P - Y) HD => D HD; rewrite -subr_ge0 [cinner (N - D) _]cinnerBl !cinnerBr [cinner D N]cinnerC.
have -> : cinner N N - cinner N D - (cinner N D - cinner D D) - (cinner N N + cinner D D) = - cinner N D + - cinner N D.
  by move: (cinner N N) (cinner N D) (cinner D D) => u v w; rng R.
by apply: addr_ge0; rewrite oppr_ge0.
Qed.
Lemma psd_trace' m n (A : 'M[C]_m) (D : 'M[C]_(m, n)) : cpsd A -> 0 <= re (\tr (adj D *m A *m D)).
Proof. by move=> /psdE /cpsd_inner H; have := H _ D; rewrite /cinner mulmxA. Qed.
Lemma tr_orth n (P O : 'M[C]_n) : cpsd P -> unitary O -> re (\tr (P *m O)) <= re (\tr P).
Proof.
move=> HP HO; have [HS _] := HP; have := psd_trace' (1%:M - O) HP.
have HO' : O *m adj O = 1%:M by apply: mulmx1C.
have -> : adj (1%:M - O) *m P *m (1%:M - O) = P - P *m O - adj O *m P + adj O *m P *m O.
  rewrite adjD adjN adj1 mulmxBl mul1mx mulmxBr mulmx1 mulmxBl opprB addrA addrAC.
  by apply/matrixP => i j; rewrite !mxE; krng R.
rewrite mxtraceD !raddfB /= [\tr (adj O *m P *m O)]mxtrace_mulC mulmxA HO' mul1mx.
rewrite !(reD, reN).
have -> : re (\tr (adj O *m P)) = re (\tr (P *m O)) by rewrite -re_trace_adj adjM adjK HS.
move: (re (\tr P)) (re (\tr (P *m O))) => a b; have -> : a - b - b + a = 2%:R * (a - b) by rng R.
by rewrite pmulr_rge0 ?ltr0n // subr_ge0.
Qed.
Lemma rdiag_sq n (a : 'rV[R]_n) : (forall i, 0 <= a 0 i) ->
  rdiag (\row_i Num.sqrt (a 0 i)) *m rdiag (\row_i Num.sqrt (a 0 i)) = rdiag a.
Proof.
move=> H; apply/matrixP => i j; rewrite rdiag_mul !rdiag_entry !mxE; case: eqP => [_|_]; rewrite ?mulr1n ?mulr0n ?mulr0 //.
by rewrite -rcM -expr2 sqr_sqrtr.
Qed.
Lemma rdiag_row n1 n2 (l : 'rV[R]_(n1 + n2)) : rdiag l = block_mx (rdiag (lsubmx l)) 0 0 (rdiag (rsubmx l)).
Proof.
rewrite /rdiag -diag_mx_row; congr diag_mx; apply/matrixP => z i; rewrite !mxE.
by case: splitP => j E; rewrite !mxE; congr (_ _ _)%:C; apply: val_inj.
Qed.
Lemma rdiag_opp n (l : 'rV[R]_n) : rdiag (- l) = - rdiag l.
Proof. by apply/matrixP => i j; rewrite !mxE; case: eqP => _; rewrite ?mulr1n ?mulr0n ?oppr0 // rcN. Qed.
Lemma adj_block m1 m2 n1 n2 (A : 'M[C]_(m1, n1)) (B : 'M[C]_(m1, n2)) (D : 'M[C]_(m2, n1)) (E : 'M[C]_(m2, n2)) :
  adj (block_mx A B D E) = block_mx (adj A) (adj D) (adj B) (adj E).
Proof. by rewrite !block_mxEv !adj_col_mx !adj_row_mx -block_mxEh -block_mxEv. Qed.
End nearest.

Section retr.
Variable R : rcfType.
Local Notation C := R[i].
Local Notation re := (@complex.Re R).
Local Notation im := (@complex.Im R).
Add Field csfrr_field : (rcf_field R).
Add Ring csfrr_ring : (kring R).
Variables p k : nat.
Local Notation ext := 'M[C]_(p + k, p).
Variables (QR : 'M[C]_(p + k, p + p) -> 'M[C]_(p + k, p + p) * 'M[C]_(p + p))
  (EIG : 'M[C]_(p + p) -> 'M[C]_(p + p) * 'rV[R]_(p + p)) (SVD : 'M[C]_p -> 'M[C]_p * 'rV[R]_p * 'M[C]_p).
Hypothesis HR : routines QR EIG SVD.
Variable x : ext.
Hypothesis Hx : cfull_rank x.
Local Notation G := (adj x *m x).
Local Notation Gi := (invmx (adj x *m x)).
Local Notation target eta := (gram x + lift x eta).
Implicit Types eta y : ext.

Lemma middleE S (D : ext) : row_mx x D *m middle S *m (adj (row_mx x D)) = target (x *m S + D).
Proof.
rewrite /middle mul_row_block mulmx0 addr0 !mulmx1 adj_row_mx mul_row_col /gram /lift; kmxz.
set a := x *m adj x; set b := x *m S *m adj x; set c := x *m adj S *m adj x; set d := D *m adj x; set e := x *m adj D.
by clearbody a b c d e; apply/matrixP => i j; rewrite !mxE; krng R.
Qed.
Lemma middle_sym (S : 'M[C]_p) : hermitian (middle S).
Proof.
rewrite /hermitian /middle adj_block !adj1 adj0 !adjD adjK adj1; congr block_mx.
by rewrite -!addrA [adj S + S]addrC.
Qed.
(** The result, with the routines applied. *)
Section parts.
Variable eta : ext.
Local Notation S := (Gi *m (adj x *m eta)).
Local Notation Y := (row_mx x (eta - x *m (Gi *m (adj x *m eta)))).
Local Notation q := (QR (row_mx x (eta - x *m (Gi *m (adj x *m eta))))).1.
Local Notation r := (QR (row_mx x (eta - x *m (Gi *m (adj x *m eta))))).2.
Local Notation Z := (r *m middle S *m adj r).
Local Notation V := (EIG Z).1.
Local Notation lam := (EIG Z).2.
Definition y0 : ext := q *m (rsubmx V *m rdiag (\row_i Num.sqrt (rsubmx lam 0 i))).
Definition rot : 'M[C]_p := (adj ((SVD (adj x *m y0)).2)) *m (adj ((SVD (adj x *m y0)).1.1)).
Lemma Z_sym : hermitian Z.
Proof. by rewrite /hermitian !adjM adjK middle_sym mulmxA. Qed.
Lemma targetE : target eta = q *m Z *m adj q.
Proof.
have [/(_ Y) [E _ _ _] _] := HR; have := middleE S (eta - x *m S).
by rewrite [x *m S + _]addrC subrK => <-; rewrite {1 2}E adjM !mulmxA.
Qed.
Lemma q_orth : unitary q.
Proof. by have [/(_ Y) []] := HR. Qed.
Lemma lam_sign : (forall i : 'I_p, 0 <= lam 0 (rshift p i)) /\ (forall i : 'I_p, lam 0 (lshift p i) <= 0).
Proof.
have [_ [/(_ _ Z_sym) [He Hu Ha] _]] := HR.
apply: (inertia (A := lsubmx r) He Hu Ha) => w Hw.
have -> : adj w *m Z *m w = (adj w *m r) *m middle S *m (adj (adj w *m r)) by rewrite adjM adjK !mulmxA.
have -> : adj w *m r = row_mx 0 (adj w *m rsubmx r) by rewrite -{1}(hsubmxK r) mul_mx_row Hw.
by rewrite /middle mul_row_block !mulmx0 !mul0mx !add0r adj_row_mx mul_row_col adj0 mulmx0 mul0mx addr0 mxE.
Qed.
Lemma retr_some : (p <= k)%N -> retraction QR EIG SVD x eta = Some (y0 *m rot).
Proof.
move=> Hk; rewrite /retraction ltnNge leq_add2l Hk /=.
rewrite /cgemm /cgemm0 !scale1r scaleN1r [- _ + _]addrC /y0 /rot.
case E1: (QR _) => [q0 r0] /=; case E2: (EIG _) => [V0 l0] /=.
have [Hl _] := lam_sign; rewrite E1 /= E2 /= in Hl.
have -> : [exists i, rsubmx l0 0 i < 0] = false.
  by apply/negbTE/existsP => [[j]]; rewrite mxE ltNge Hl.
rewrite /y0 !E1 /= !E2 /=.
by rewrite !scale1r; case: (SVD _) => [[U s] Vt] /=; rewrite !scale1r.
Qed.
Lemma rot_orth : rot *m adj rot = 1%:M.
Proof.
rewrite /rot; have [_ [_ /(_ (adj x *m y0)) [_ HU HV _]]] := HR.
move: (SVD _) HU HV => [[U s] Vt] /= HU HV.
rewrite adjM !adjK !mulmxA -[_ *m adj U *m U]mulmxA HU mulmx1.
by case: (unitary_adj HV).
Qed.
Lemma gram_y : gram (y0 *m rot) = gram y0.
Proof. by rewrite /gram; move: rot_orth; move: y0 rot => a b H; rewrite adjM !mulmxA -[a *m b *m _]mulmxA H mulmx1. Qed.
Lemma xy_psd : cpsd (adj x *m (y0 *m rot)).
Proof.
rewrite [adj x *m (_ *m _)]mulmxA /rot; have [_ [_ /(_ (adj x *m y0)) [E HU HV Hs]]] := HR.
move: (SVD _) E HU HV Hs => [[U s] Vt] /= -> HU HV Hs.
rewrite !mulmxA; have -> : U *m rdiag s *m Vt *m adj Vt = U *m rdiag s.
  by have := HV; rewrite /unitary adjK => H; rewrite -mulmxA H mulmx1.
split=> [|v]; first by rewrite /hermitian !adjM adjK adj_rdiag mulmxA.
have -> : adj v *m (U *m rdiag s *m adj U) *m v = (adj (adj U *m v)) *m rdiag s *m (adj U *m v) by rewrite adjM adjK !mulmxA.
by rewrite quad_diag; apply: sumr_ge0 => i _; apply: mulr_ge0 => //; exact: sq2_ge0.
Qed.
(** What the result leaves of the target. *)
Lemma residual : exists W : 'M[C]_(p + k, p), exists l : 'rV[R]_p, [/\ target eta - gram y0 = W *m rdiag l *m adj W,
  forall i, l 0 i <= 0 & adj W *m y0 = 0].
Proof.
have [Hp Hn] := lam_sign; have [_ [/(_ _ Z_sym) [EZ HV _] _]] := HR.
have Hq := q_orth.
exists (q *m lsubmx V), (lsubmx lam); rewrite targetE /y0 /gram.
move: EZ HV Hp Hn; move: (EIG _) => [V0 l0] /= EZ HV Hp Hn; split.
- rewrite {1}EZ; clear EZ; move: (QR _).1 Hq => q0 Hq.
  have -> : V0 *m rdiag l0 *m adj V0 = lsubmx V0 *m rdiag (lsubmx l0) *m (adj (lsubmx V0))
      + rsubmx V0 *m rdiag (rsubmx l0) *m (adj (rsubmx V0)).
    rewrite -{1 2}(hsubmxK V0) (rdiag_row l0) mul_row_block !mulmx0 addr0 add0r.
    by rewrite adj_row_mx mul_row_col.
  have E : rdiag (\row_i Num.sqrt (rsubmx l0 0 i)) *m rdiag (\row_i Num.sqrt (rsubmx l0 0 i)) = rdiag (rsubmx l0).
    by apply: rdiag_sq => i; rewrite mxE.
  rewrite !adjM adj_rdiag mulmxDr mulmxDl !mulmxA.
  rewrite -[_ *m rdiag (\row_i _) *m rdiag (\row_i _)]mulmxA E.
  by rewrite addrK.
- by move=> i; rewrite mxE.
move: (QR _).1 Hq => q0 Hq; rewrite adjM !mulmxA -[_ *m adj q0 *m q0]mulmxA Hq mulmx1.
have : adj V0 *m V0 = 1%:M by [].
rewrite -{1 2}(hsubmxK V0) adj_row_mx mul_col_row (@scalar_mx_block _ p p 1) => /eq_block_mx [_ -> _ _].
by rewrite mul0mx.
Qed.
Lemma residual_le P : cpsd P -> cinner (target eta - gram y0) P <= 0.
Proof.
move=> HP; have [W [l [-> Hl _]]] := residual.
have E : rdiag l = - (rdiag (\row_i Num.sqrt (- l 0 i)) *m rdiag (\row_i Num.sqrt (- l 0 i))).
  have H i : 0 <= (- l) 0 i by rewrite mxE oppr_ge0.
  have -> : \row_i Num.sqrt (- l 0 i) = \row_i Num.sqrt ((- l) 0 i) by apply/matrixP => z i; rewrite !mxE.
  by rewrite (rdiag_sq H) rdiag_opp opprK.
rewrite E mulmxN mulNmx cinnerNl oppr_le0; move: (rdiag (\row_i _)) (adj_rdiag (\row_i Num.sqrt (- l 0 i))) => D HD.
have HD' : adj D = D.
  by apply: HD.
have -> : W *m (D *m D) *m adj W = (W *m D) *m (adj (W *m D)) by rewrite adjM HD' !mulmxA.
have [HPs _] := HP; have := psd_trace' (W *m D) HP.
by move: (W *m D) => F; rewrite /cinner [(adj (F *m _))]adjM adjK mxtrace_mulC mulmxA.
Qed.
Lemma residual_orth : cinner (target eta - gram y0) (gram y0) = 0.
Proof.
have [W [l [-> _ H]]] := residual; rewrite /gram cinner_mulr adjK -[y0 *m adj y0 *m W]mulmxA.
have -> : adj y0 *m W = 0 by have := congr1 (@adj R _ _) H; rewrite adjM adjK adj0.
by rewrite mulmx0 cinner0r.
Qed.
Lemma retr_nearest P : cpsd P ->
  cinner (target eta - gram y0) (target eta - gram y0) + cinner (P - gram y0) (P - gram y0) <= cinner (target eta - P) (target eta - P).
Proof. by move=> H; apply: nearest_psd; [exact: residual_orth | exact: residual_le]. Qed.
End parts.
Lemma retr_spec eta : (p <= k)%N -> exists y, [/\ retraction QR EIG SVD x eta = Some y, cpsd (adj x *m y) &
  forall P, cpsd P -> cinner (target eta - gram y) (target eta - gram y) + cinner (P - gram y) (P - gram y)
    <= cinner (target eta - P) (target eta - P)].
Proof.
move=> Hk; exists (y0 eta *m rot eta); split; first exact: retr_some.
  exact: xy_psd.
by rewrite gram_y; exact: retr_nearest.
Qed.
Lemma psd_gram m (z : 'M[C]_(m, p)) : cpsd (gram z).
Proof.
split=> [|v]; first by rewrite /hermitian /gram adjM adjK.
have -> : adj v *m gram z *m v = (adj (adj z *m v)) *m (adj z *m v) by rewrite /gram adjM adjK !mulmxA.
by have := cinner_ge0 (adj z *m v); rewrite /cinner /mxtrace big_ord1.
Qed.
Lemma retr_exact eta y : (p <= k)%N -> cpsd (target eta) -> retraction QR EIG SVD x eta = Some y -> gram y = target eta.
Proof.
move=> Hk HP Hy; have [y' [E _ H]] := retr_spec eta Hk; move: E; rewrite Hy => [[E]]; rewrite -{}E in H.
have := H _ HP; rewrite subrr cinner0l => Hle; symmetry; apply/eqP; rewrite -subr_eq0; apply/eqP/cinner_eq0.
apply/eqP; rewrite eq_le cinner_ge0 andbT; apply: le_trans Hle; rewrite ler_addl; exact: cinner_ge0.
Qed.
Lemma lift0 : lift x (0 : ext) = 0.
Proof. by rewrite /lift mul0mx adj0 mulmx0 addr0. Qed.
Lemma same_gram y : gram y = gram x -> cpsd (adj x *m y) -> y = x.
Proof.
move=> E HP; have HC := cposdef_gram Hx.
have Ey : y = x *m (Gi *m adj x *m y).
  have HQ : (1%:M - x *m Gi *m adj x) *m x = 0 by rewrite mulmxBl mul1mx Px // subrr.
  have Hz : (1%:M - x *m Gi *m adj x) *m y = 0.
    set N := 1%:M - _; have E1 : (N *m y) *m (adj (N *m y)) = 0.
      have -> : N *m y *m (adj (N *m y)) = N *m gram y *m adj N by rewrite /gram adjM !mulmxA.
      by rewrite E /gram mulmxA HQ !mul0mx.
    have : cinner (adj (N *m y)) (adj (N *m y)) = 0 by rewrite /cinner adjK E1 mxtrace0.
    by move/cinner_eq0/(congr1 (@adj R _ _)); rewrite adjK adj0.
  by move/eqP: Hz; rewrite mulmxBl mul1mx subr_eq0 => /eqP {1}->; rewrite !mulmxA.
have ESS : (adj x *m y) *m (adj x *m y) = G *m G.
  have [HS _] := HP; rewrite -{2}HS adjM adjK.
  have -> : adj x *m y *m (adj y *m x) = adj x *m gram y *m x by rewrite /gram !mulmxA.
  by rewrite E /gram !mulmxA.
have E2 : G = adj x *m y by apply: csqrt_unique HC (iffLR (psdE _) HP) _; rewrite ESS.
by rewrite Ey -mulmxA -E2 CiC // mulmx1.
Qed.
Lemma retr_zero : (p <= k)%N -> retraction QR EIG SVD x 0 = Some x.
Proof.
move=> Hk; have [y [E Hp _]] := retr_spec 0 Hk; rewrite E; congr Some; apply: same_gram => //.
by rewrite (retr_exact Hk _ E) lift0 addr0 //; exact: psd_gram.
Qed.
Lemma lift_scale t eta : lift x (t%:C *: eta) = t%:C *: lift x eta.
Proof. by rewrite /lift adjR kmulZl kmulZr scalerDr. Qed.
Lemma retr_second eta (y : R -> ext) : (p <= k)%N -> (forall t, retraction QR EIG SVD x (t%:C *: eta) = Some (y t)) ->
  csecond_order (fun t => gram (y t)) (fun t => gram x + t%:C *: lift x eta).
Proof.
move=> Hk Hy; exists (cinner (gram eta) (gram eta)) => t.
have [y' [E _ H]] := retr_spec (t%:C *: eta) Hk; move: E; rewrite Hy => [[E]]; rewrite -{}E in H.
have := H _ (psd_gram (x + t%:C *: eta)); rewrite lift_scale.
have E2 : gram x + t%:C *: lift x eta - gram (x + t%:C *: eta) = - ((t ^+ 2)%:C *: gram eta).
  rewrite /gram /lift; kmxz.
  set a := x *m adj x; set b := eta *m adj x; set c := x *m adj eta; set d := eta *m adj eta.
  rewrite -?rcM ?scalerA rcX; clearbody a b c d; move: (t%:C) => u; apply/matrixP => i j; rewrite !mxE; krng R.
rewrite E2 cinnerNl [cinner _ (- _)]cinnerC cinnerNl opprK cinnerZl [cinner (gram eta) _]cinnerC cinnerZl.
set g := cinner (gram eta) (gram eta) => Hle.
have -> : gram (y t) - (gram x + t%:C *: lift x eta) = - (gram x + t%:C *: lift x eta - gram (y t)) by rewrite opprB.
rewrite cinnerNl [cinner _ (- _)]cinnerC cinnerNl opprK.
have -> : g * t ^+ 4 = t ^+ 2 * (t ^+ 2 * g) by rewrite mulrA -exprD mulrC.
by apply: le_trans Hle; rewrite ler_addl; exact: cinner_ge0.
Qed.
Lemma retr_near_rep eta y O : (p <= k)%N -> retraction QR EIG SVD x eta = Some y -> unitary O ->
  cinner (y - x) (y - x) <= cinner (y *m O - x) (y *m O - x).
Proof.
move=> Hk Hy HO; have [y' [E HP _]] := retr_spec eta Hk; move: E; rewrite Hy => [[E]]; rewrite -{}E in HP.
rewrite !cinnerBl !cinnerBr [cinner x (y *m O)]cinnerC [cinner x y]cinnerC.
have -> : cinner (y *m O) (y *m O) = cinner y y by rewrite cinner_mulr -mulmxA (mulmx1C HO) mulmx1.
have H : cinner (y *m O) x <= cinner y x.
  have := tr_orth HP HO; rewrite -[re (\tr (adj x *m y))]/(cinner x y) -mulmxA -[re (\tr (adj x *m (_ *m _)))]/(cinner x (y *m O)).
  by rewrite ![cinner x _]cinnerC.
move: (cinner y y) (cinner x x) (cinner y x) (cinner (y *m O) x) H => a b c d H.
rewrite -subr_ge0; have -> : a - d - (d - b) - (a - c - (c - b)) = 2%:R * (c - d) by rng R.
by rewrite pmulr_rge0 ?ltr0n // subr_ge0.
Qed.
Lemma retr_above eta y : (p <= k)%N -> retraction QR EIG SVD x eta = Some y ->
  forall v : 'cV[C]_(p + k), re ((adj v *m target eta *m v) 0 0) <= re ((adj v *m gram y *m v) 0 0).
Proof.
move=> Hk Hy v; move: (retr_some eta Hk); rewrite Hy => [[->]]; rewrite gram_y.
have Hv : cpsd (v *m adj v).
  split=> [|u]; first by rewrite /hermitian adjM adjK.
  have -> : adj u *m (v *m adj v) *m u = (adj (adj v *m u)) *m (adj v *m u) by rewrite adjM adjK !mulmxA.
  by have := cinner_ge0 (adj v *m u); rewrite /cinner /mxtrace big_ord1.
have := residual_le eta Hv; rewrite cinnerBl subr_le0.
have E A : cinner A (v *m adj v) = re ((adj v *m A *m v) 0 0).
  by rewrite cinnerC /cinner [(adj (v *m _))]adjM adjK -mulmxA mxtrace_mulC /mxtrace big_ord1.
by rewrite !E.
Qed.
Lemma retr_full eta y : (p <= k)%N -> retraction QR EIG SVD x eta = Some y ->
  cposdef (adj x *m target eta *m x) -> cfull_rank y.
Proof.
move=> Hk Hy [_ Hd] u Hu; have [y' [E [HS _] _]] := retr_spec eta Hk; move: E; rewrite Hy => [[E]]; rewrite -{}E in HS.
case: (altP (u =P 0)) => // /Hd; have := retr_above Hk Hy (x *m u).
have -> : (adj (x *m u)) *m target eta *m (x *m u) = adj u *m (adj x *m target eta *m x) *m u by rewrite adjM !mulmxA.
have -> : (adj (x *m u)) *m gram y *m (x *m u) = 0.
  have E : adj y *m x *m u = 0 by have := HS; rewrite /hermitian adjM adjK => ->; rewrite -mulmxA Hu mulmx0.
  by rewrite /gram -!mulmxA [adj y *m (x *m u)]mulmxA E !mulmx0.
by rewrite [(0 : 'M[C]_1) 0 0]mxE => H1 H2; have := lt_le_trans H2 H1; rewrite ltxx.
Qed.
Lemma retr_full_generic eta y : (p <= k)%N -> retraction QR EIG SVD x eta = Some y ->
  cfull_rank (row_mx x eta) -> cfull_rank y.
Proof.
move=> Hk Hy Hf; move: (retr_some eta Hk); rewrite Hy => [[->]].
set S := Gi *m (adj x *m eta); set Y := row_mx x (eta - x *m S).
have HY : cfull_rank Y.
  move=> w; rewrite -(vsubmxK w) mul_row_col mulmxBl => E.
  have : row_mx x eta *m col_mx (usubmx w - S *m dsubmx w) (dsubmx w) = 0.
    rewrite mul_row_col mulmxBr -E !mulmxA.
    by apply/matrixP => i j; rewrite !mxE; krng R.
  move/Hf/eqP; rewrite col_mx_eq0 => /andP [/eqP H1 /eqP H2].
  by move: H1; rewrite H2 mulmx0 subr0 => ->; rewrite col_mx0.
have [/(_ Y) [EY HQ _ _] [HE _]] := HR; have [EZ HV _] := HE _ (Z_sym eta).
have [Hp _] := lam_sign eta.
have Hr : (QR Y).2 \in unitmx by apply: cunit_cols => u Hu; apply: HY; rewrite EY -mulmxA Hu mulmx0.
have Hm : middle S \in unitmx.
  apply: cunit_cols => u; rewrite -(vsubmxK u) /middle mul_block_col mul0mx addr0 !mul1mx => /eqP.
  rewrite col_mx_eq0 => /andP [/eqP H1 /eqP H2].
  by move: H1; rewrite H2 mulmx0 add0r => ->; rewrite col_mx0.
have HZ : (QR Y).2 *m middle S *m (adj ((QR Y).2)) \in unitmx by rewrite !unitmx_mul Hr Hm; case: (adj_unit Hr).
rewrite /y0 -/S -/Y; move: EZ HV Hp HZ; rewrite -/S -/Y; move: (_ *m (adj ((QR Y).2))) => Z.
move: (EIG Z) => [V l] /= EZ HV Hp HZ.
have Hl i : rsubmx l 0 i > 0.
  rewrite mxE lt_def Hp andbT; move: HZ; rewrite EZ !unitmx_mul => /andP [/andP [_ Hd] _].
  move: Hd; rewrite unitmxE det_diag unitfE => /prodf_neq0 /(_ (rshift p i) isT); rewrite mxE.
  by apply: contraNneq => ->.
move=> u; set D := rdiag _; move: (rot_orth eta); set O := rot eta; clearbody O => HO.
rewrite -!mulmxA => E.
have {}E : rsubmx V *m (D *m (O *m u)) = 0.
  by have := congr1 (fun A => (adj ((QR Y).1)) *m A) E; rewrite mulmxA HQ mul1mx mulmx0.
have HVr : (adj (rsubmx V)) *m rsubmx V = 1%:M.
  have : adj V *m V = 1%:M by [].
  by rewrite -{1 2}(hsubmxK V) adj_row_mx mul_col_row (@scalar_mx_block _ p p 1) => /eq_block_mx [].
have {}E : D *m (O *m u) = 0.
  by have := congr1 (fun A => (adj (rsubmx V)) *m A) E; rewrite mulmxA HVr mul1mx mulmx0.
have HD : D \in unitmx.
  rewrite unitmxE det_diag unitfE; apply/prodf_neq0 => i _; rewrite mxE [X in X%:C]mxE.
  by apply/eqP => /(congr1 re) /= /eqP; rewrite sqrtr_eq0 leNgt Hl.
have {}E : O *m u = 0 by rewrite -[O *m u](mulKmx HD) E mulmx0.
by have HO' := mulmx1C HO; rewrite -[u]mul1mx -HO' -mulmxA E mulmx0.
Qed.
(** Half of the point back: the zero matrix. *)
Lemma retr_collapse : (p <= k)%N -> retraction QR EIG SVD x (- (half R)%:C *: x) = Some 0.
Proof.
move=> Hk; have [y [E _ _]] := retr_spec (- (half R)%:C *: x) Hk.
have Et : target (- (half R)%:C *: x) = 0.
  by rewrite /gram /lift adjZ kmulZl kmulZr -scalerDl -rcN cjR -rcD -opprD StiefelProofs.half2 rcN scaleN1r subrr.
have : gram y = 0.
  by rewrite (retr_exact Hk _ E) Et //; split=> [|v]; [rewrite /hermitian adj0 | rewrite mulmx0 mul0mx mxE].
rewrite E => Hg; congr Some; apply: adj_inj; rewrite adj0; apply: cinner_eq0.
by rewrite /cinner adjK -/(gram y) Hg mxtrace0.
Qed.
Lemma retr_narrow eta : (k < p)%N -> retraction QR EIG SVD x eta = None.
Proof. by move=> H; rewrite /retraction ltn_add2l H. Qed.
End retr.
