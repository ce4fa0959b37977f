(** Proofs about the retraction of SymFixedRankQ. *)
From mathcomp Require Import all_ssreflect all_algebra.
Require Import Ring Field.
From Verif Require Import MxTac StiefelModel StiefelSpec StiefelProofs StiefelPolar StiefelRetr StiefelIntr SPDSpec SPDProofs.
From Verif Require Import SymFRModel SymFRSpec SymFRProofs.
Import Order.TTheory GRing.Theory Num.Theory.
Set Implicit Arguments.
Unset Strict Implicit.
Local Open Scope ring_scope.

(** ** Nearest positive semidefinite matrices *)
Section nearest.
Variable R : rcfType.
Add Field sfrr_field0 : (rcf_field R).
Lemma wide_kernel a b (A : 'M[R]_(b, a)) : (a < b)%N -> exists u : 'rV[R]_b, u != 0 /\ u *m A = 0.
Proof.
move=> H; have : kermx A != 0.
  by rewrite kermx_eq0 /row_free neq_ltn (leq_ltn_trans (rank_leq_col A) H).
move/rowV0Pn => [u /sub_kermxP Hu Hn]; by exists u.
Qed.
Lemma quad_diag n (lam : 'rV[R]_n) (u : 'cV[R]_n) : (u^T *m diag_mx lam *m u) 0 0 = \sum_i lam 0 i * u i 0 ^+ 2.
Proof.
rewrite mxE; apply: eq_bigr => i _; rewrite mul_mx_diag !mxE; rng R.
Qed.
(** If the quadratic form of Z vanishes where p linear forms do, at most p eigenvalues are negative,
    and at most p are positive. *)
Lemma inertia p (Z V : 'M[R]_(p + p)) (lam : 'rV[R]_(p + p)) (A : 'M[R]_(p + p, p)) :
  is_eig Z V lam -> (forall i j : 'I_(p + p), (i <= j)%N -> lam 0 i <= lam 0 j) ->
  (forall w : 'cV[R]_(p + p), w^T *m A = 0 -> (w^T *m Z *m w) 0 0 = 0) ->
  (forall i : 'I_p, 0 <= lam 0 (rshift p i)) /\ (forall i : 'I_p, lam 0 (lshift p i) <= 0).
Proof.
move=> [EZ HV] Hasc Hq.
have HV' : V *m V^T = 1%:M by apply: mulmx1C.
have key (B : 'M[R]_(p + p, p.-1)) : (0 < p)%N -> exists c : 'rV[R]_(p + p), [/\ c != 0, c *m B = 0 &
    \sum_i lam 0 i * c 0 i ^+ 2 = 0].
  move=> Hp; have [|c [Hc]] := @wide_kernel (p + p.-1) (p + p) (row_mx (V^T *m A) B); first by rewrite ltn_add2l prednK.
  rewrite mul_mx_row => /eqP; rewrite row_mx_eq0 => /andP [/eqP H1 /eqP H2]; exists c; split=> //.
  have := Hq (V *m c^T); rewrite trM trmxK -mulmxA => /(_ H1) E; rewrite -[RHS]E.
  rewrite EZ !mulmxA -[c *m V^T *m V]mulmxA HV mulmx1 -!mulmxA [V^T *m (V *m _)]mulmxA HV mul1mx mulmxA.
  by have := quad_diag lam c^T; rewrite trmxK => ->; apply: eq_bigr => i _; rewrite mxE.
have pos (f : 'I_(p + p) -> R) (c : 'rV[R]_(p + p)) : (forall i, c 0 i != 0 -> 0 < f i) -> c != 0 ->
    0 < \sum_i f i * c 0 i ^+ 2.
  move=> Hf Hc; have Hge i : 0 <= f i * c 0 i ^+ 2.
    case: (altP (c 0 i =P 0)) => [->|H]; first by rewrite expr0n mulr0.
    by apply: mulr_ge0; [exact/ltW/Hf | exact: sqr_ge0].
  rewrite lt_def sumr_ge0 // andbT; apply/eqP => /eqP; rewrite psumr_eq0 // => /allP H.
  move/eqP: Hc; apply; apply/matrixP => z i; rewrite ord1 mxE; apply/eqP; apply: contraTT isT => Hi.
  have := H i (mem_index_enum _); rewrite mulf_eq0 sqrf_eq0 (negbTE Hi) orbF => /eqP E.
  by have := Hf i Hi; rewrite E ltxx.
split=> i; rewrite leNgt; apply/negP => Hi.
  have Hp : (0 < p)%N by apply: leq_trans (ltn_ord i).
  have [c [Hc HB E]] := key (\matrix_(a, b) (val a == p.+1 + b)%N%:R) Hp.
  have : 0 < \sum_j (- lam 0 j) * c 0 j ^+ 2.
    apply: pos => // j Hj; rewrite oppr_gt0; apply: le_lt_trans Hi; apply: Hasc => /=.
    apply: (@leq_trans p); last exact: leq_addr.
    rewrite leqNgt; apply/negP => Hpj; move/eqP: Hj; apply.
    have Hb : (j - p.+1 < p.-1)%N.
      by rewrite ltn_subLR // addSnnS prednK // -addSn prednK //; exact: ltn_ord.
    have := congr1 (fun M : 'rV_ _ => M 0 (Ordinal Hb)) HB; rewrite !mxE (bigD1 j) //= big1 => [|l Hl].
      by rewrite mxE /= subnKC // eqxx mulr1 addr0.
    rewrite mxE /= subnKC //; have -> : (val l == val j) = false by apply/negbTE.
    by rewrite mulr0.
  by rewrite (eq_bigr (fun j => - (lam 0 j * c 0 j ^+ 2))) => [|j _]; rewrite ?mulNr // sumrN E oppr0 ltxx.
have Hp : (0 < p)%N by apply: leq_trans (ltn_ord i).
have [c [Hc HB E]] := key (\matrix_(a, b) (val a == b)%:R) Hp.
have : 0 < \sum_j lam 0 j * c 0 j ^+ 2; last by rewrite E ltxx.
apply: pos => // j Hj; apply: (lt_le_trans Hi); apply: Hasc => /=.
rewrite leqNgt; apply/negP => Hji; move/eqP: Hj; apply.
have Hb : (j < p.-1)%N by apply: (leq_trans Hji); rewrite -ltnS prednK.
have := congr1 (fun M : 'rV_ _ => M 0 (Ordinal Hb)) HB; rewrite !mxE (bigD1 j) //= big1 => [|l Hl].
  by rewrite mxE /= eqxx mulr1 addr0.
have E0 : (val l == val j) = false by apply/negbTE.
by rewrite mxE /= E0 mulr0.
Qed.
(** M - Y negative semidefinite and orthogonal to Y: Y is nearer to M than P by their distance. *)
Lemma nearest_psd n (M Y P : 'M[R]_n) : inner (M - Y) Y = 0 -> inner (M - Y) P <= 0 ->
  inner (M - Y) (M - Y) + inner (P - Y) (P - Y) <= inner (M - P) (M - P).
Proof.
move=> H1 H2; have -> : M - P = (M - Y) - (P - Y) by rewrite opprB addrA subrK.
move: H1 H2; move: (M - Y) => N H1 H2.
have HD : inner N (P - Y) <= 0 by rewrite innerBr H1 subr0.
move: (P - Y) HD => D HD; rewrite -subr_ge0 [inner (N - D) _]innerBl !innerBr [inner D N]innerC.
have -> : inner N N - inner N D - (inner N D - inner D D) - (inner N N + inner D D) = - inner N D + - inner N D.
  by move: (inner N N) (inner N D) (inner D D) => u v w; rng R.
by apply: addr_ge0; rewrite oppr_ge0.
Qed.
Lemma psd_trace' m n (A : 'M[R]_m) (D : 'M[R]_(m, n)) : psd A -> 0 <= \tr (D^T *m A *m D).
Proof. exact: psd_trace. Qed.
Lemma tr_orth n (P O : 'M[R]_n) : psd P -> orthonormal O -> \tr (P *m O) <= \tr P.
Proof.
move=> HP HO; have [HS _] := HP; have := psd_trace' (1%:M - O) HP.
have HO' : O *m O^T = 1%:M by apply: mulmx1C.
have -> : (1%:M - O)^T *m P *m (1%:M - O) = P - P *m O - O^T *m P + O^T *m P *m O.
  rewrite trD trN trmx1 mulmxBl mul1mx mulmxBr mulmx1 mulmxBl opprB addrA addrAC.
  by apply/matrixP => i j; rewrite !mxE; rng R.
rewrite mxtraceD !raddfB /= [\tr (O^T *m P *m O)]mxtrace_mulC mulmxA HO' mul1mx.
have -> : \tr (O^T *m P) = \tr (P *m O) by rewrite -mxtrace_tr trM trmxK HS.
move: (\tr P) (\tr (P *m O)) => a b; have -> : a - b - b + a = 2%:R * (a - b) by rng R.
by rewrite pmulr_rge0 ?ltr0n // subr_ge0.
Qed.
End nearest.

Section retr.
Variable R : rcfType.
Add Field sfrr_field : (rcf_field R).
Variables p k : nat.
Local Notation ext := 'M[R]_(p + k, p).
Variables (QR : 'M[R]_(p + k, p + p) -> 'M[R]_(p + k, p + p) * 'M[R]_(p + p))
  (EIG : 'M[R]_(p + p) -> 'M[R]_(p + p) * 'rV[R]_(p + p)) (SVD : 'M[R]_p -> 'M[R]_p * 'rV[R]_p * 'M[R]_p).
Hypothesis HR : routines QR EIG SVD.
Variable x : ext.
Hypothesis Hx : full_rank x.
Local Notation C := (x^T *m x).
Local Notation Ci := (invmx (x^T *m x)).
Local Notation target eta := (gram x + lift x eta).
Implicit Types eta y : ext.

Lemma middleE S (D : ext) : row_mx x D *m middle S *m (row_mx x D)^T = target (x *m S + D).
Proof.
rewrite /middle mul_row_block mulmx0 addr0 !mulmx1 tr_row_mx mul_row_col /gram /lift; mxz.
set a := x *m x^T; set b := x *m S *m x^T; set c := x *m S^T *m x^T; set d := D *m x^T; set e := x *m D^T.
by clearbody a b c d e; apply/matrixP => i j; rewrite !mxE; rng R.
Qed.
Lemma middle_sym (S : 'M[R]_p) : symmetric (middle S).
Proof.
rewrite /symmetric /middle tr_block_mx !trmx1 trmx0 !trD trmxK trmx1; congr block_mx.
by rewrite -!addrA [S^T + S]addrC.
Qed.
(** The result, with the routines applied. *)
Section parts.
Variable eta : ext.
Local Notation S := (Ci *m (x^T *m eta)).
Local Notation Y := (row_mx x (eta - x *m (Ci *m (x^T *m eta)))).
Local Notation q := (QR (row_mx x (eta - x *m (Ci *m (x^T *m eta))))).1.
Local Notation r := (QR (row_mx x (eta - x *m (Ci *m (x^T *m eta))))).2.
Local Notation Z := (r *m middle S *m r^T).
Local Notation V := (EIG Z).1.
Local Notation lam := (EIG Z).2.
Definition y0 : ext := q *m (rsubmx V *m diag_mx (\row_i Num.sqrt (rsubmx lam 0 i))).
Definition rot : 'M[R]_p := (SVD (x^T *m y0)).2^T *m (SVD (x^T *m y0)).1.1^T.
Lemma Z_sym : symmetric Z.
Proof. by rewrite /symmetric !trM trmxK middle_sym mulmxA. Qed.
Lemma targetE : target eta = q *m Z *m q^T.
Proof.
have [/(_ Y) [E _ _] _] := HR; have := middleE S (eta - x *m S).
by rewrite [x *m S + _]addrC subrK => <-; rewrite {1 2}E trM !mulmxA.
Qed.
Lemma q_orth : orthonormal q.
Proof. by have [/(_ Y) []] := HR. Qed.
Lemma lam_sign : (forall i : 'I_p, 0 <= lam 0 (rshift p i)) /\ (forall i : 'I_p, lam 0 (lshift p i) <= 0).
Proof.
have [_ [/(_ _ Z_sym) [He Ha] _]] := HR.
apply: (inertia (A := lsubmx r) He Ha) => w Hw.
have -> : w^T *m Z *m w = (w^T *m r) *m middle S *m (w^T *m r)^T by rewrite trM trmxK !mulmxA.
have -> : w^T *m r = row_mx 0 (w^T *m rsubmx r) by rewrite -{1}(hsubmxK r) mul_mx_row Hw.
by rewrite /middle mul_row_block !mulmx0 !mul0mx !add0r tr_row_mx mul_row_col trmx0 mulmx0 mul0mx addr0 mxE.
Qed.
Lemma retr_some : (p <= k)%N -> retraction QR EIG SVD x eta = Some (y0 *m rot).
Proof.
move=> Hk; rewrite /retraction ltnNge leq_add2l Hk /=.
rewrite /gemm /gemm0 !scale1r scaleN1r [- _ + _]addrC /y0 /rot.
case E1: (QR _) => [q0 r0] /=; case E2: (EIG _) => [V0 l0] /=.
have [Hl _] := lam_sign; rewrite E1 /= E2 /= in Hl.
have -> : [exists i, rsubmx l0 0 i < 0] = false.
  by apply/negbTE/existsP => [[i]]; rewrite mxE ltNge Hl.
rewrite /y0 !E1 /= !E2 /=.
by rewrite !scale1r; case: (SVD _) => [[U s] Vt] /=; rewrite !scale1r.
Qed.
Lemma rot_orth : rot *m rot^T = 1%:M.
Proof.
rewrite /rot; have [_ [_ /(_ (x^T *m y0)) [_ HU HV _]]] := HR.
move: (SVD _) HU HV => [[U s] Vt] /= HU HV.
rewrite trM !trmxK !mulmxA -[_ *m U^T *m U]mulmxA HU mulmx1.
by have := orth_tr HV.
Qed.
Lemma gram_y : gram (y0 *m rot) = gram y0.
Proof. by rewrite /gram; move: rot_orth; move: y0 rot => a b H; rewrite trM !mulmxA -[a *m b *m _]mulmxA H mulmx1. Qed.
Lemma xy_psd : psd (x^T *m (y0 *m rot)).
Proof.
rewrite [x^T *m (_ *m _)]mulmxA /rot; have [_ [_ /(_ (x^T *m y0)) [E HU HV Hs]]] := HR.
move: (SVD _) E HU HV Hs => [[U s] Vt] /= -> HU HV Hs.
rewrite !mulmxA; have -> : U *m diag_mx s *m Vt *m Vt^T = U *m diag_mx s.
  by have := HV; rewrite /orthonormal trmxK => H; rewrite -mulmxA H mulmx1.
split=> [|v]; first by rewrite /symmetric !trM trmxK tr_diag_mx mulmxA.
have -> : v^T *m (U *m diag_mx s *m U^T) *m v = (U^T *m v)^T *m diag_mx s *m (U^T *m v) by rewrite trM trmxK !mulmxA.
by rewrite quad_diag; apply: sumr_ge0 => i _; apply: mulr_ge0 => //; exact: sqr_ge0.
Qed.
(** What the result leaves of the target. *)
Lemma residual : exists W : 'M[R]_(p + k, p), exists l : 'rV[R]_p, [/\ target eta - gram y0 = W *m diag_mx l *m W^T,
  forall i, l 0 i <= 0 & W^T *m y0 = 0].
Proof.
have [Hp Hn] := lam_sign; have [_ [/(_ _ Z_sym) [[EZ HV] _] _]] := HR.
have Hq := q_orth.
exists (q *m lsubmx V), (lsubmx lam); rewrite targetE /y0 /gram.
move: EZ HV Hp Hn; move: (EIG _) => [V0 l0] /= EZ HV Hp Hn; split.
- rewrite {1}EZ; clear EZ; move: (QR _).1 Hq => q0 Hq.
  have -> : V0 *m diag_mx l0 *m V0^T = lsubmx V0 *m diag_mx (lsubmx l0) *m (lsubmx V0)^T
      + rsubmx V0 *m diag_mx (rsubmx l0) *m (rsubmx V0)^T.
    rewrite -{1 2}(hsubmxK V0) -{1}(hsubmxK l0) diag_mx_row mul_row_block !mulmx0 addr0 add0r.
    by rewrite tr_row_mx mul_row_col.
  have E : diag_mx (\row_i Num.sqrt (rsubmx l0 0 i)) *m diag_mx (\row_i Num.sqrt (rsubmx l0 0 i)) = diag_mx (rsubmx l0).
    rewrite mulmx_diag; congr diag_mx; apply/matrixP => z i; rewrite ord1 !mxE -expr2 sqr_sqrtr //.
  rewrite !trM tr_diag_mx mulmxDr mulmxDl !mulmxA.
  rewrite -[_ *m diag_mx (\row_i _) *m diag_mx (\row_i _)]mulmxA E.
  by rewrite addrK.
- by move=> i; rewrite mxE.
move: (QR _).1 Hq => q0 Hq; rewrite trM !mulmxA -[_ *m q0^T *m q0]mulmxA Hq mulmx1.
have : V0^T *m V0 = 1%:M by [].
rewrite -{1 2}(hsubmxK V0) tr_row_mx mul_col_row (@scalar_mx_block _ p p 1) => /eq_block_mx [_ -> _ _].
by rewrite mul0mx.
Qed.
Lemma residual_le P : psd P -> inner (target eta - gram y0) P <= 0.
Proof.
move=> HP; have [W [l [-> Hl _]]] := residual.
have E : diag_mx l = - (diag_mx (\row_i Num.sqrt (- l 0 i)) *m diag_mx (\row_i Num.sqrt (- l 0 i))).
  rewrite mulmx_diag -raddfN; congr diag_mx; apply/matrixP => z i; rewrite ord1 !mxE.
  by rewrite -expr2 sqr_sqrtr ?opprK // oppr_ge0.
rewrite E mulmxN mulNmx innerNl oppr_le0; move: (diag_mx (\row_i _)) (tr_diag_mx (\row_i Num.sqrt (- l 0 i))) => D HD.
have HD' : D^T = D.
  by apply: HD.
have -> : W *m (D *m D) *m W^T = (W *m D) *m (W *m D)^T by rewrite trM HD' !mulmxA.
have [HPs _] := HP; have := psd_trace' (W *m D) HP.
by move: (W *m D) => F; rewrite /inner [(F *m _)^T]trM trmxK mxtrace_mulC mulmxA.
Qed.
Lemma residual_orth : inner (target eta - gram y0) (gram y0) = 0.
Proof.
have [W [l [-> _ H]]] := residual; rewrite /gram inner_mulr trmxK -[y0 *m y0^T *m W]mulmxA.
have -> : y0^T *m W = 0 by have := congr1 trmx H; rewrite trM trmxK trmx0.
by rewrite mulmx0 inner0r.
Qed.
Lemma retr_nearest P : psd P ->
  inner (target eta - gram y0) (target eta - gram y0) + inner (P - gram y0) (P - gram y0) <= inner (target eta - P) (target eta - P).
Proof. by move=> H; apply: nearest_psd; [exact: residual_orth | exact: residual_le]. Qed.
End parts.
Lemma retr_spec eta : (p <= k)%N -> exists y, [/\ retraction QR EIG SVD x eta = Some y, psd (x^T *m y) &
  forall P, psd P -> inner (target eta - gram y) (target eta - gram y) + inner (P - gram y) (P - gram y)
    <= inner (target eta - P) (target eta - P)].
Proof.
move=> Hk; exists (y0 eta *m rot eta); split; first exact: retr_some.
  exact: xy_psd.
by rewrite gram_y; exact: retr_nearest.
Qed.
Lemma psd_gram m (z : 'M[R]_(m, p)) : psd (gram z).
Proof.
split=> [|v]; first by rewrite /symmetric /gram trM trmxK.
have -> : v^T *m gram z *m v = (z^T *m v)^T *m (z^T *m v) by rewrite /gram trM trmxK !mulmxA.
by have := inner_ge0 (z^T *m v); rewrite /inner /mxtrace big_ord1.
Qed.
Lemma retr_exact eta y : (p <= k)%N -> psd (target eta) -> retraction QR EIG SVD x eta = Some y -> gram y = target eta.
Proof.
move=> Hk HP Hy; have [y' [E _ H]] := retr_spec eta Hk; move: E; rewrite Hy => [[E]]; rewrite -{}E in H.
have := H _ HP; rewrite subrr inner0l => Hle; symmetry; apply/eqP; rewrite -subr_eq0; apply/eqP/inner_eq0.
apply/eqP; rewrite eq_le inner_ge0 andbT; apply: le_trans Hle; rewrite ler_addl; exact: inner_ge0.
Qed.
Lemma lift0 : lift x (0 : ext) = 0.
Proof. by rewrite /lift mul0mx trmx0 mulmx0 addr0. Qed.
Lemma same_gram y : gram y = gram x -> psd (x^T *m y) -> y = x.
Proof.
move=> E HP; have HC := posdef_gram Hx.
have Ey : y = x *m (Ci *m x^T *m y).
  have HQ : (1%:M - x *m Ci *m x^T) *m x = 0 by rewrite mulmxBl mul1mx Px // subrr.
  have Hz : (1%:M - x *m Ci *m x^T) *m y = 0.
    set N := 1%:M - _; have E1 : (N *m y) *m (N *m y)^T = 0.
      have -> : N *m y *m (N *m y)^T = N *m gram y *m N^T by rewrite /gram trM !mulmxA.
      by rewrite E /gram mulmxA HQ !mul0mx.
    have : inner (N *m y)^T (N *m y)^T = 0 by rewrite /inner trmxK E1 mxtrace0.
    by move/inner_eq0/(congr1 trmx); rewrite trmxK trmx0.
  by move/eqP: Hz; rewrite mulmxBl mul1mx subr_eq0 => /eqP {1}->; rewrite !mulmxA.
have ESS : (x^T *m y) *m (x^T *m y) = C *m C.
  have [HS _] := HP; rewrite -{2}HS trM trmxK.
  have -> : x^T *m y *m (y^T *m x) = x^T *m gram y *m x by rewrite /gram !mulmxA.
  by rewrite E /gram !mulmxA.
have E2 : C = x^T *m y by apply: sqrt_unique => //; rewrite ESS.
by rewrite Ey -mulmxA -E2 CiC // mulmx1.
Qed.
Lemma retr_zero : (p <= k)%N -> retraction QR EIG SVD x 0 = Some x.
Proof.
move=> Hk; have [y [E Hp _]] := retr_spec 0 Hk; rewrite E; congr Some; apply: same_gram => //.
by rewrite (retr_exact Hk _ E) lift0 addr0 //; exact: psd_gram.
Qed.
Lemma lift_scale t eta : lift x (t *: eta) = t *: lift x eta.
Proof. by rewrite /lift trZ -scalemxAl -scalemxAr scalerDr. Qed.
Lemma retr_second eta (y : R -> ext) : (p <= k)%N -> (forall t, retraction QR EIG SVD x (t *: eta) = Some (y t)) ->
  second_order (fun t => gram (y t)) (fun t => gram x + t *: lift x eta).
Proof.
move=> Hk Hy; exists (inner (gram eta) (gram eta)) => t.
have [y' [E _ H]] := retr_spec (t *: eta) Hk; move: E; rewrite Hy => [[E]]; rewrite -{}E in H.
have := H _ (psd_gram (x + t *: eta)); rewrite lift_scale.
have E2 : gram x + t *: lift x eta - gram (x + t *: eta) = - (t ^+ 2 *: gram eta).
  rewrite /gram /lift; mxz.
  set a := x *m x^T; set b := eta *m x^T; set c := x *m eta^T; set d := eta *m eta^T.
  by clearbody a b c d; apply/matrixP => i j; rewrite !mxE; rng R.
rewrite E2 innerNl [inner _ (- _)]innerC innerNl opprK innerZl [inner (gram eta) _]innerC innerZl.
set g := inner (gram eta) (gram eta) => Hle.
have -> : gram (y t) - (gram x + t *: lift x eta) = - (gram x + t *: lift x eta - gram (y t)) by rewrite opprB.
rewrite innerNl [inner _ (- _)]innerC innerNl opprK.
have -> : g * t ^+ 4 = t ^+ 2 * (t ^+ 2 * g) by rewrite mulrA -exprD mulrC.
by apply: le_trans Hle; rewrite ler_addl; exact: inner_ge0.
Qed.
Lemma retr_near_rep eta y O : (p <= k)%N -> retraction QR EIG SVD x eta = Some y -> orthonormal O ->
  inner (y - x) (y - x) <= inner (y *m O - x) (y *m O - x).
Proof.
move=> Hk Hy HO; have [y' [E HP _]] := retr_spec eta Hk; move: E; rewrite Hy => [[E]]; rewrite -{}E in HP.
rewrite !innerBl !innerBr [inner x (y *m O)]innerC [inner x y]innerC.
have -> : inner (y *m O) (y *m O) = inner y y by rewrite inner_mulr -mulmxA (mulmx1C HO) mulmx1.
have H : inner (y *m O) x <= inner y x.
  have := tr_orth HP HO; rewrite -[\tr (x^T *m y)]/(inner x y) -mulmxA -[\tr (x^T *m (_ *m _))]/(inner x (y *m O)).
  by rewrite ![inner x _]innerC.
move: (inner y y) (inner x x) (inner y x) (inner (y *m O) x) H => a b c d H.
rewrite -subr_ge0; have -> : a - d - (d - b) - (a - c - (c - b)) = 2%:R * (c - d) by rng R.
by rewrite pmulr_rge0 ?ltr0n // subr_ge0.
Qed.
Lemma retr_above eta y : (p <= k)%N -> retraction QR EIG SVD x eta = Some y ->
  forall v : 'cV[R]_(p + k), (v^T *m target eta *m v) 0 0 <= (v^T *m gram y *m v) 0 0.
Proof.
move=> Hk Hy v; move: (retr_some eta Hk); rewrite Hy => [[->]]; rewrite gram_y.
have Hv : psd (v *m v^T).
  split=> [|u]; first by rewrite /symmetric trM trmxK.
  have -> : u^T *m (v *m v^T) *m u = (v^T *m u)^T *m (v^T *m u) by rewrite trM trmxK !mulmxA.
  by have := inner_ge0 (v^T *m u); rewrite /inner /mxtrace big_ord1.
have := residual_le eta Hv; rewrite innerBl subr_le0.
have E A : inner A (v *m v^T) = (v^T *m A *m v) 0 0.
  by rewrite innerC /inner [(v *m _)^T]trM trmxK -mulmxA mxtrace_mulC /mxtrace big_ord1.
by rewrite !E.
Qed.
Lemma retr_full eta y : (p <= k)%N -> retraction QR EIG SVD x eta = Some y ->
  posdef (x^T *m target eta *m x) -> full_rank y.
Proof.
move=> Hk Hy [_ Hd] u Hu; have [y' [E [HS _] _]] := retr_spec eta Hk; move: E; rewrite Hy => [[E]]; rewrite -{}E in HS.
case: (altP (u =P 0)) => // /Hd; have := retr_above Hk Hy (x *m u).
have -> : (x *m u)^T *m target eta *m (x *m u) = u^T *m (x^T *m target eta *m x) *m u by rewrite trM !mulmxA.
have -> : (x *m u)^T *m gram y *m (x *m u) = 0.
  have E : y^T *m x *m u = 0 by have := HS; rewrite /symmetric trM trmxK => ->; rewrite -mulmxA Hu mulmx0.
  by rewrite /gram -!mulmxA [y^T *m (x *m u)]mulmxA E !mulmx0.
by rewrite [(0 : 'M[R]_1) 0 0]mxE => H1 H2; have := lt_le_trans H2 H1; rewrite ltxx.
Qed.
Lemma retr_full_generic eta y : (p <= k)%N -> retraction QR EIG SVD x eta = Some y ->
  full_rank (row_mx x eta) -> full_rank y.
Proof.
move=> Hk Hy Hf; move: (retr_some eta Hk); rewrite Hy => [[->]].
set S := Ci *m (x^T *m eta); set Y := row_mx x (eta - x *m S).
have HY : full_rank Y.
  move=> w; rewrite -(vsubmxK w) mul_row_col mulmxBl => E.
  have : row_mx x eta *m col_mx (usubmx w - S *m dsubmx w) (dsubmx w) = 0.
    rewrite mul_row_col mulmxBr -E !mulmxA.
    by apply/matrixP => i j; rewrite !mxE; rng R.
  move/Hf/eqP; rewrite col_mx_eq0 => /andP [/eqP H1 /eqP H2].
  by move: H1; rewrite H2 mulmx0 subr0 => ->; rewrite col_mx0.
have [/(_ Y) [EY HQ _] [HE _]] := HR; have [[EZ HV] _] := HE _ (Z_sym eta).
have [Hp _] := lam_sign eta.
have Hr : (QR Y).2 \in unitmx by apply: unit_cols => u Hu; apply: HY; rewrite EY -mulmxA Hu mulmx0.
have Hm : middle S \in unitmx.
  apply: unit_cols => u; rewrite -(vsubmxK u) /middle mul_block_col mul0mx addr0 !mul1mx => /eqP.
  rewrite col_mx_eq0 => /andP [/eqP H1 /eqP H2].
  by move: H1; rewrite H2 mulmx0 add0r => ->; rewrite col_mx0.
have HZ : (QR Y).2 *m middle S *m (QR Y).2^T \in unitmx by rewrite !unitmx_mul unitmx_tr Hr Hm.
rewrite /y0 -/S -/Y; move: EZ HV Hp HZ; rewrite -/S -/Y; move: (_ *m (QR Y).2^T) => Z.
move: (EIG Z) => [V l] /= EZ HV Hp HZ.
have Hl i : rsubmx l 0 i > 0.
  rewrite mxE lt_def Hp andbT; move: HZ; rewrite EZ !unitmx_mul => /andP [/andP [_ Hd] _].
  by move: Hd; rewrite unitmxE det_diag unitfE => /prodf_neq0; apply.
move=> u; set D := diag_mx _; move: (rot_orth eta); set O := rot eta; clearbody O => HO.
rewrite -!mulmxA => E.
have {}E : rsubmx V *m (D *m (O *m u)) = 0.
  by have := congr1 (fun A => (QR Y).1^T *m A) E; rewrite mulmxA HQ mul1mx mulmx0.
have HVr : (rsubmx V)^T *m rsubmx V = 1%:M.
  have : V^T *m V = 1%:M by [].
  by rewrite -{1 2}(hsubmxK V) tr_row_mx mul_col_row (@scalar_mx_block _ p p 1) => /eq_block_mx [].
have {}E : D *m (O *m u) = 0.
  by have := congr1 (fun A => (rsubmx V)^T *m A) E; rewrite mulmxA HVr mul1mx mulmx0.
have HD : D \in unitmx.
  rewrite unitmxE det_diag unitfE; apply/prodf_neq0 => i _; rewrite mxE sqrtr_eq0 -ltNge; exact: Hl.
have {}E : O *m u = 0 by rewrite -[O *m u](mulKmx HD) E mulmx0.
by have HO' := mulmx1C HO; rewrite -[u]mul1mx -HO' -mulmxA E mulmx0.
Qed.
(** Half of the point back: the zero matrix. *)
Lemma retr_collapse : (p <= k)%N -> retraction QR EIG SVD x (- half R *: x) = Some 0.
Proof.
move=> Hk; have [y [E _ _]] := retr_spec (- half R *: x) Hk.
have Et : target (- half R *: x) = 0.
  rewrite /gram /lift trZ -scalemxAl -scalemxAr -scalerDl -opprD half2 scaleN1r subrr //.
have : gram y = 0.
  by rewrite (retr_exact Hk _ E) Et //; split=> [|v]; [rewrite /symmetric trmx0 | rewrite mulmx0 mul0mx mxE].
rewrite E => Hg; congr Some; apply: trmx_inj; rewrite trmx0; apply: inner_eq0.
by rewrite /inner trmxK -/(gram y) Hg mxtrace0.
Qed.
Lemma retr_narrow eta : (k < p)%N -> retraction QR EIG SVD x eta = None.
Proof. by move=> H; rewrite /retraction ltn_add2l H. Qed.
End retr.
