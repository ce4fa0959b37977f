(** Proofs about the retraction of matrices of fixed rank and its derivative. *)
From mathcomp Require Import all_ssreflect fingroup perm all_algebra.
Require Import Ring Field.
From Verif Require Import MxTac StiefelModel StiefelSpec StiefelProofs StiefelRetr StiefelPolar StiefelCayley StiefelRigid.
From Verif Require Import FixedRankModel FixedRankSpec FixedRankProofs FixedRankCurve.
Import Order.TTheory GRing.Theory Num.Theory.
Set Implicit Arguments.
Unset Strict Implicit.
Local Open Scope ring_scope.

(** The derivative of the polar retraction along a tangent direction, at eta. *)
Section polar.
Variables (R : rcfType) (p k : nat).
Add Field frp_field : (rcf_field R).
Local Notation ext := 'M[R]_(p + k, p).
Implicit Types (x eta : ext).

Definition spec (Vt : 'M[R]_p) (f : 'I_p -> R) : 'M[R]_p := Vt^T *m diag_mx (\row_i f i) *m Vt.
Lemma spec_mul Vt f g : orthonormal Vt^T -> spec Vt f *m spec Vt g = spec Vt (fun i => f i * g i).
Proof.
move=> HV; have HVV : Vt *m Vt^T = 1%:M by have := HV; rewrite /orthonormal trmxK.
rewrite /spec !mulmxA -[_ *m Vt *m Vt^T]mulmxA HVV mulmx1 -[_ *m diag_mx _ *m diag_mx _]mulmxA mulmx_diag.
by congr (_ *m diag_mx _ *m _); apply/rowP => i; rewrite !mxE.
Qed.
Lemma spec_one Vt : orthonormal Vt^T -> spec Vt (fun => 1) = 1%:M.
Proof.
move=> HV; rewrite /spec (_ : \row_i 1 = const_mx 1); last by apply/rowP => i; rewrite !mxE.
by rewrite diag_const_mx mulmx1; exact: (orth_tr HV).
Qed.
Lemma spec_ext Vt f g : (forall i, f i = g i) -> spec Vt f = spec Vt g.
Proof. by move=> H; rewrite /spec; congr (_ *m diag_mx _ *m _); apply/rowP => i; rewrite !mxE. Qed.
Lemma spec_add Vt f g : spec Vt f + spec Vt g = spec Vt (fun i => f i + g i).
Proof.
rewrite /spec -mulmxDl -mulmxDr; congr (_ *m _ *m _); apply/matrixP => i j; rewrite !mxE.
by case: (i == j); rewrite ?mulr1n ?mulr0n ?addr0.
Qed.
Lemma spec_scale Vt a f : a *: spec Vt f = spec Vt (fun i => a * f i).
Proof.
rewrite /spec -mulZl -mulZr; congr (_ *m _ *m _); apply/matrixP => i j; rewrite !mxE.
by case: (i == j); rewrite ?mulr1n ?mulr0n ?mulr0.
Qed.
Lemma spec_sym Vt f : symmetric (spec Vt f).
Proof. by rewrite /symmetric /spec !trM tr_diag_mx trmxK mulmxA. Qed.
Lemma spec_psd Vt f : (forall i, 0 <= f i) -> psd (spec Vt f).
Proof.
move=> H; split; first exact: spec_sym.
move=> v; rewrite /spec; have -> : v^T *m (Vt^T *m diag_mx (\row_i f i) *m Vt) *m v = (Vt *m v)^T *m diag_mx (\row_i f i) *m (Vt *m v) by mxz.
rewrite mul_mx_diag mxE; apply: sumr_ge0 => i _; rewrite !mxE mulrAC mulr_ge0 // -expr2; exact: sqr_ge0.
Qed.
Lemma mvel_spec Vt (f : R -> 'I_p -> R) a h : (forall i, vel1 (fun t => f t i) (a i) (h i)) ->
  mvel (fun t => spec Vt (f t)) (spec Vt a) (spec Vt h).
Proof.
move=> H; have := mvel_mul (mvel_mul (mvel_const Vt^T) (mvel_diag H)) (mvel_const Vt).
by rewrite mul0mx mulmx0 add0r addr0.
Qed.

Section oracle.
Variable SVD : ext -> ext * 'rV[R]_p * 'M[R]_p.
Variables x eta : ext.
Hypotheses (Hs : svd_at SVD (x + eta)) (Hx : orthonormal x) (He : tangent x eta).
Local Notation Sg := (fun i => (SVD (x + eta)).1.2 0 i).
Local Notation Vt := (SVD (x + eta)).2.
Let HV : orthonormal Vt^T. Proof. by case: Hs. Qed.
Lemma sing_spec : exists P, posdef P /\ x + eta = polar_retraction SVD x eta *m P /\ P *m P = 1%:M + eta^T *m eta /\ P = spec Vt Sg.
Proof.
have [P [H1 [H2 [H3 H4]]]] := polar_ok Hs Hx He; exists P; do 3 split=> //.
by rewrite H4 /spec; congr (_ *m diag_mx _ *m _); apply/rowP => i; rewrite !mxE.
Qed.
Lemma gram_spec : eta^T *m eta = spec Vt (fun i => Sg i ^+ 2 - 1).
Proof.
have [P [H1 [H2 [H3 H4]]]] := sing_spec.
have : P *m P = spec Vt (fun i => Sg i ^+ 2) by rewrite H4 spec_mul //; apply: spec_ext => i; rewrite expr2.
rewrite H3 => E; have -> : eta^T *m eta = spec Vt (fun i => Sg i ^+ 2) - 1%:M by rewrite -E addrAC subrr add0r.
rewrite -(spec_one HV) -scaleN1r spec_scale spec_add; apply: spec_ext => i; by rewrite mulr1.
Qed.
Lemma sing_ge1 i : 1 <= Sg i.
Proof.
have S0 : 0 <= Sg i by case: Hs => _ _ _; apply.
have : 0 <= Sg i ^+ 2 - 1.
  have E : (eta *m Vt^T)^T *m (eta *m Vt^T) = diag_mx (\row_i (Sg i ^+ 2 - 1)).
    have HVV : Vt *m Vt^T = 1%:M by have := HV; rewrite /orthonormal trmxK.
    rewrite trM trmxK mulmxA -[Vt *m eta^T *m eta]mulmxA gram_spec /spec !mulmxA HVV mul1mx -mulmxA HVV mulmx1.
    by [].
  have -> : Sg i ^+ 2 - 1 = ((eta *m Vt^T)^T *m (eta *m Vt^T)) i i by rewrite E !mxE eqxx mulr1n.
  by rewrite mxE; apply: sumr_ge0 => j _; rewrite mxE -expr2 sqr_ge0.
by rewrite subr_ge0 -[X in X <= _](expr1n _ 2) ler_pexpn2r // nnegrE // ler01.
Qed.
Lemma sing_pos i : 0 < Sg i.
Proof. exact: lt_le_trans ltr01 (sing_ge1 i). Qed.
Let q (t : R) i : R := 1 + (1 + t) ^+ 2 * (Sg i ^+ 2 - 1).
Lemma q_ge1 t i : 1 <= q t i.
Proof.
rewrite /q ler_addl mulr_ge0 ?sqr_ge0 // subr_ge0 -[X in X <= _](expr1n _ 2) ler_pexpn2r ?nnegrE ?ler01 ?sing_ge1 //.
by rewrite ltW ?sing_pos.
Qed.
Lemma q_pos t i : 0 < q t i.
Proof. exact: lt_le_trans ltr01 (q_ge1 t i). Qed.
(** The polar factor at x + (1 + t) eta. *)
Lemma polar_line t : svd_at SVD (x + (1 + t) *: eta) ->
  polar_retraction SVD x ((1 + t) *: eta) = (x + (1 + t) *: eta) *m spec Vt (fun i => (Num.sqrt (q t i))^-1).
Proof.
move=> H; rewrite polarE; have [E [HY HP]] := svd_polar H.
set A := x + _ in E *; pose P := spec Vt (fun i => Num.sqrt (q t i)).
pose P' := spec Vt (fun i => (Num.sqrt (q t i))^-1).
have Q0 i : Num.sqrt (q t i) != 0 by rewrite lt0r_neq0 // sqrtr_gt0 q_pos.
have PP' : P *m P' = 1%:M by rewrite spec_mul // -(spec_one HV); apply: spec_ext => i; rewrite mulfV.
have P'P : P' *m P = 1%:M by exact: mulmx1C.
have G : A^T *m A = P *m P.
  rewrite /P spec_mul // (tangent_gram Hx (tangentZ _ He)) trZ mulZl mulZr scalerA gram_spec spec_scale -(spec_one HV) spec_add.
  by apply: spec_ext => i; rewrite -expr2 -[in RHS]expr2 sqr_sqrtr ?(ltW (q_pos _ _)).
have Psd : psd P by apply: spec_psd => i; exact: sqrtr_ge0.
have Pd : posdef P.
  by apply: (psd_gram_posdef (eta := (1 + t) *: eta)) => //; rewrite -G; exact: tangent_gram (tangentZ _ He).
have E' : A = (A *m P') *m P by rewrite -mulmxA P'P mulmx1.
have HY' : orthonormal (A *m P').
  by rewrite /orthonormal trM (spec_sym _ _) mulmxA -[P' *m A^T *m A]mulmxA G mulmxA P'P mul1mx.
by have [<-] := polar_unique E' E HY' HY Pd HP.
Qed.
Lemma q_vel i : vel1 (fun t => (Num.sqrt (q t i))^-1) (Sg i)^-1 (- ((Sg i ^+ 2 - 1) / Sg i / Sg i ^+ 2)).
Proof.
have S0 := sing_pos i; apply: vel1_inv => //.
have E : (Sg i ^+ 2 - 1) / Sg i = ((Sg i ^+ 2 - 1) *+ 2) / (Sg i *+ 2).
  have N : Sg i <> 0 by apply/eqP; rewrite lt0r_neq0.
  have N2 : Sg i + Sg i <> 0 by apply/eqP; rewrite -mulr2n lt0r_neq0 // pmulrn_lgt0.
  move: N N2; move: (Sg i : R) => s N N2; toR R; field; repeat split=> //; exact: two_neq0.
rewrite E; apply: vel1_sqrt => //.
have T : vel1 (fun t : R => 1 + t) (1 + 0) (0 + 1) by apply: vel1_add; [exact: vel1_const|exact: vel1_id].
have := vel1_add (vel1_const 1) (vel1_scale (Sg i ^+ 2 - 1) (vel1_mul T T)).
have -> : 1 + (Sg i ^+ 2 - 1) * ((1 + 0) * (1 + 0)) = Sg i ^+ 2 by rng R.
have -> : 0 + (Sg i ^+ 2 - 1) * ((0 + 1) * (1 + 0) + (1 + 0) * (0 + 1)) = (Sg i ^+ 2 - 1) *+ 2 by rng R.
apply: vel1_ext; exists 1; split; first exact: ltr01.
by move=> t _; rewrite /q; rng R.
Qed.
Lemma polar_velocity : (forall t, svd_at SVD (x + t *: eta)) ->
  mvel (fun t => polar_retraction SVD x ((1 + t) *: eta)) (polar_retraction SVD x eta)
    (diff_polar (SVD (x + eta)).1.2 Vt 1 (polar_retraction SVD x eta) eta).
Proof.
move=> HS; have L : mvel (fun t => x + (1 + t) *: eta) (x + eta) eta.
  by apply: mvel_ext (mvel_line (x + eta) eta) => t; rewrite scalerDl scale1r addrA.
have M := mvel_mul L (mvel_spec Vt q_vel).
have E1 : polar_retraction SVD x eta = (x + eta) *m spec Vt (fun i => (Sg i)^-1).
  have := @polar_line 0; rewrite addr0 scale1r => /(_ Hs) ->; congr (_ *m _); apply: spec_ext => i.
  rewrite /q addr0 expr1n mul1r addrC subrK sqrtr_sqr ger0_norm //; exact/ltW/sing_pos.
have E2 : diff_polar (SVD (x + eta)).1.2 Vt 1 (polar_retraction SVD x eta) eta =
   eta *m spec Vt (fun i => (Sg i)^-1) + (x + eta) *m spec Vt (fun i => - ((Sg i ^+ 2 - 1) / Sg i / Sg i ^+ 2)).
  rewrite /diff_polar /gemm /gemm0 !scale1r scaleN1r addrC.
  have -> : eta *m Vt^T *m diag_mx (\row_i (1 / (SVD (x + eta)).1.2 0 i)) *m Vt = eta *m spec Vt (fun i => (Sg i)^-1).
    rewrite /spec !mulmxA; congr (_ *m diag_mx _ *m _); apply/rowP => i; by rewrite !mxE mul1r.
  have -> : (eta *m spec Vt (fun i => (Sg i)^-1))^T *m (eta *m spec Vt (fun i => (Sg i)^-1)) =
      spec Vt (fun i => (Sg i)^-1 * (Sg i ^+ 2 - 1) * (Sg i)^-1).
    by rewrite trM (spec_sym _ _) mulmxA -[spec _ _ *m eta^T *m eta]mulmxA gram_spec !spec_mul.
  congr (_ + _); rewrite E1 -mulmxA spec_mul //.
  rewrite -mulmxN -scaleN1r spec_scale; congr (_ *m _); apply: spec_ext => i.
  have : Sg i <> 0 by apply/eqP; rewrite lt0r_neq0 // sing_pos.
  by move: (Sg i : R) => s N; toR R; field.
rewrite E2 E1; apply: mvel_ext M => t; rewrite polar_line //; exact: HS.
Qed.
End oracle.
End polar.

Section det.
Variable R : rcfType.
Lemma vel1_prod (I : Type) (s : seq I) (c : I -> R -> R) (a h : I -> R) : (forall i, vel1 (c i) (a i) (h i)) ->
  exists g, vel1 (fun t => \prod_(i <- s) c i t) (\prod_(i <- s) a i) g.
Proof.
move=> H; elim: s => [|i s [g IH]].
  exists 0; rewrite !big_nil; apply: vel1_ext (vel1_const 1); exists 1; split; first exact: ltr01.
  by move=> t _; rewrite big_nil.
exists (h i * \prod_(j <- s) a j + a i * g); rewrite !big_cons; apply: vel1_ext (vel1_mul (H i) IH); exists 1; split; first exact: ltr01.
by move=> t _; rewrite big_cons.
Qed.
Lemma vel1_det n (c : R -> 'M[R]_n) a h : mvel c a h -> exists g, vel1 (fun t => \det (c t)) (\det a) g.
Proof.
move=> H; have [g Hg] : exists g : 'S_n -> R, forall s : 'S_n, vel1 (fun t => \prod_i c t i (s i)) (\prod_i a i (s i)) (g s).
  apply: (@fin_all_exists _ (fun => R) (fun (s : 'S_n) g => vel1 (fun t => \prod_i c t i (s i)) (\prod_i a i (s i)) g)) => s.
  exact: (vel1_prod _ (fun i => H i (s i))).
exists (\sum_(s : 'S_n) (-1) ^+ s * g s); 
have := vel1_sum (fun s : 'S_n => vel1_scale ((-1) ^+ odd_perm s) (Hg s)).
by [].
Qed.
Lemma unit_near n (c : R -> 'M[R]_n) a h : mvel c a h -> a \in unitmx ->
  exists e : R, 0 < e /\ forall t : R, `|t| <= e -> c t \in unitmx.
Proof.
move=> H; rewrite unitmxE unitfE => Ha; have [g Hg] := vel1_det H.
case: (ltgtP (\det a) 0) => S; last by rewrite S eqxx in Ha.
  have Hn := vel1_scale (-1) Hg; rewrite !mulN1r in Hn.
  have S' : 0 < - \det a by rewrite oppr_gt0.
  have [C [e [e0 [_ [_ K]]]]] := vel1_near Hn S'; exists e; split=> // t /K [L _].
  rewrite unitmxE unitfE -oppr_eq0 -mulN1r lt0r_neq0 //; apply: lt_le_trans L.
  by rewrite divr_gt0 // ltr0n.
have [C [e [e0 [_ [_ K]]]]] := vel1_near Hg S; exists e; split=> // t /K [L _].
rewrite unitmxE unitfE lt0r_neq0 //; apply: lt_le_trans L.
by rewrite divr_gt0 // ltr0n.
Qed.
End det.

Section retraction.
Variables (R : rcfType) (r k l : nat).
Add Field frr_field : (rcf_field R).
(** The decomposition that QR and SVD make together. *)
Definition svd_of q (QR : 'M[R]_(r + q, r) -> 'M[R]_(r + q, r) * 'M[R]_r) (SVD : 'M[R]_r -> 'M[R]_r * 'rV[R]_r * 'M[R]_r) A :=
  let (Q, Rf) := QR A in let: (W, Sg, Vt) := SVD Rf in (Q *m W, Sg, Vt).
Lemma svd_of_ok q QR SVD (A : 'M[R]_(r + q, r)) : lapack_ok QR SVD A -> svd_at (svd_of QR SVD) A.
Proof.
rewrite /lapack_ok /svd_at /svd_of /qr_at; case: (QR A) => Q Rf /= [[EA HQ _]].
case: (SVD Rf) => [[W Sg] Vt] /= [ER HW HV HS]; split=> //=.
- by rewrite EA ER !mulmxA.
- by rewrite /orthonormal trM mulmxA -[W^T *m Q^T *m Q]mulmxA HQ mulmx1.
Qed.
Lemma polar_ofE q QR SVD (x eta : 'M[R]_(r + q, r)) : (polar_of QR SVD (x + eta)).1.1 = polar_retraction (svd_of QR SVD) x eta.
Proof. by rewrite polarE /polar_of /svd_of; case: (QR _) => Q Rf; case: (SVD _) => [[W S] Vt] /=; rewrite mulmxA. Qed.
Lemma polar_of2 q QR SVD (A : 'M[R]_(r + q, r)) : (polar_of QR SVD A).1.2 = (svd_of QR SVD A).1.2 /\ (polar_of QR SVD A).2 = (svd_of QR SVD A).2.
Proof. by rewrite /polar_of /svd_of; case: (QR _) => Q Rf; case: (SVD _) => [[W S] Vt]. Qed.
Lemma orth0_tangent q (x eta : 'M[R]_(r + q, r)) : x^T *m eta = 0 -> tangent x eta.
Proof. by rewrite /tangent /skew => ->; rewrite trmx0 oppr0. Qed.
Lemma diff_factorE q (S : 'rV[R]_r) Vt (y d xi : 'M[R]_(r + q, r)) :
  d <> 0 -> diff_factor S Vt y d xi = Some (Num.sqrt (dot xi xi / dot d d) *: diff_polar S Vt 1 y d).
Proof.
move=> Hd; rewrite /diff_factor ifF; last by apply/eqP; rewrite dotE => /inner_eq0.
congr Some; rewrite /diff_polar /gemm /gemm0 !scale1r scaleN1r addrC; congr (_ *: _).
have -> : \matrix_(i, j) ((d *m Vt^T) i j * (\row_i (1 / S 0 i)) 0 j) = d *m Vt^T *m diag_mx (\row_i (1 / S 0 i)).
  by rewrite mul_mx_diag; apply/matrixP => i j; rewrite !mxE.
by [].
Qed.
Lemma diff_factor0 q (S : 'rV[R]_r) Vt (y xi : 'M[R]_(r + q, r)) : diff_factor S Vt y 0 xi = None.
Proof. by rewrite /diff_factor dotE inner0l eqxx. Qed.
Lemma sqrt_ratio q (c : R) (d : 'M[R]_(r + q, r)) : d <> 0 -> Num.sqrt (dot (c *: d) (c *: d) / dot d d) = `|c|.
Proof.
move=> Hd; rewrite !dotE innerZl innerZr.
have N : inner d d != 0 by apply/eqP => /inner_eq0.
have -> : c * (c * inner d d) / inner d d = c ^+ 2 by move/eqP: N => N; move: (inner d d) N => z N; toR R; field.
by rewrite sqrtr_sqr.
Qed.

Variables (QRm : 'M[R]_(r + k, r) -> 'M[R]_(r + k, r) * 'M[R]_r) (QRn : 'M[R]_(r + l, r) -> 'M[R]_(r + l, r) * 'M[R]_r).
Variable SVD : 'M[R]_r -> 'M[R]_r * 'rV[R]_r * 'M[R]_r.
Variable x : point R r k l.
Hypothesis Hx : on_manifold x.
Implicit Types (f eta : fields R r k l).
Local Notation retr := (retraction QRm QRn SVD x).
Lemma retr_U f : pU (retr f) = polar_retraction (svd_of QRm SVD) (pU x) (fdU f).
Proof. exact: polar_ofE. Qed.
Lemma retr_V f : pV (retr f) = polar_retraction (svd_of QRn SVD) (pV x) (fdV f).
Proof. exact: polar_ofE. Qed.
Lemma retr_D f : pD (retr f) = pD x + fdD f.
Proof. by []. Qed.
Lemma retr_X f : pX (retr f) = pU (retr f) *m pD (retr f) *m (pV (retr f))^T.
Proof. by []. Qed.
Lemma retr_on f : lapack_ok QRm SVD (pU x + fdU f) -> lapack_ok QRn SVD (pV x + fdV f) ->
  orthonormal (pU (retr f)) /\ orthonormal (pV (retr f)) /\ pX (retr f) = pU (retr f) *m pD (retr f) *m (pV (retr f))^T /\
  (pD x + fdD f \in unitmx -> on_manifold (retr f)).
Proof.
move=> HU HV; have OU : orthonormal (pU (retr f)) by rewrite retr_U; exact/polar_orth/svd_of_ok.
have OV : orthonormal (pV (retr f)) by rewrite retr_V; exact/polar_orth/svd_of_ok.
by do 3 split=> //.
Qed.
Lemma fdUE (a : 'M[R]_(r + k, r)) (b : 'M[R]_r) (c : 'M[R]_(r + l, r)) : fdU (Fields a b c) = a. Proof. by []. Qed.
Lemma fdVE (a : 'M[R]_(r + k, r)) (b : 'M[R]_r) (c : 'M[R]_(r + l, r)) : fdV (Fields a b c) = c. Proof. by []. Qed.
Lemma tFE (a : 'M[R]_(r + k, r + l)) f : tF (Tvec a f) = f. Proof. by []. Qed.
Lemma tEE (a : 'M[R]_(r + k, r + l)) f : tE (Tvec a f) = a. Proof. by []. Qed.
Definition zeroF : fields R r k l := Fields 0 0 0.
Lemma retr_zero : lapack_ok QRm SVD (pU x) -> lapack_ok QRn SVD (pV x) -> retr zeroF = x.
Proof.
move=> HU HV; have EU : pU (retr zeroF) = pU x by rewrite retr_U /= polar_zero //; [exact: svd_of_ok|case: Hx].
have EV : pV (retr zeroF) = pV x by rewrite retr_V /= polar_zero //; [exact: svd_of_ok|case: Hx].
have ED : pD (retr zeroF) = pD x by rewrite retr_D /= addr0.
have EX := retr_X zeroF; rewrite EU EV ED -(on_X Hx) in EX.
move: EX EU ED EV; case: (retr zeroF) => a b c d /= -> -> -> ->; by case: (x).
Qed.
Lemma polar_mvel q QR (u d : 'M[R]_(r + q, r)) : (forall t : R, lapack_ok QR SVD (u + t *: d)) -> orthonormal u -> u^T *m d = 0 ->
  mvel (fun t => polar_retraction (svd_of QR SVD) u (t *: d)) u d.
Proof.
move=> H Hu Hd; apply: velocity_mvel.
have [C K] := polar_rigid (fun t => svd_of_ok (H t)) Hu (orth0_tangent Hd).
exists C, 1; rewrite ltr01; split=> // t _; have := K t.
by rewrite opprD addrA.
Qed.
Lemma retr_velocity f E : represents x f E ->
  (forall t : R, lapack_ok QRm SVD (pU x + t *: fdU f)) -> (forall t : R, lapack_ok QRn SVD (pV x + t *: fdV f)) ->
  velocity (fun t => pX (retr (scaleF t f))) (pX x) E.
Proof.
move=> Hf HU HV; apply: mvel_velocity.
have MU := polar_mvel HU (on_U Hx) (rep_U Hf); have MV := polar_mvel HV (on_V Hx) (rep_V Hf).
have M := mvel_mul (mvel_mul MU (mvel_line (pD x) (fdD f))) (mvel_tr MV).
rewrite (on_X Hx); have EE : E = (fdU f *m pD x + pU x *m fdD f) *m (pV x)^T + pU x *m pD x *m (fdV f)^T.
  by rewrite (rep_E Hf) mulmxDl.
by rewrite EE; apply: mvel_ext M => t; rewrite retr_X retr_U retr_V retr_D.
Qed.
Lemma retr_near f E : represents x f E -> (forall t : R, lapack_ok QRm SVD (pU x + t *: fdU f)) -> (forall t : R, lapack_ok QRn SVD (pV x + t *: fdV f)) ->
  exists e : R, 0 < e /\ forall t : R, `|t| <= e -> on_manifold (retr (scaleF t f)).
Proof.
move=> Hf HU HV; have [e [e0 K]] := unit_near (mvel_line (pD x) (fdD f)) (on_D Hx).
exists e; split=> // t Ht; have [_ [_ [_]]] := retr_on (HU t : lapack_ok _ _ (pU x + fdU (scaleF t f))) (HV t : lapack_ok _ _ (pV x + fdV (scaleF t f))).
by apply; exact: K.
Qed.

(** The Householder vectors of U + dU serve for the new point. *)
Lemma hhr_cached q QR (u d : 'M[R]_(r + q, r)) (Q : 'M[R]_(r + q)) T : lapack_ok QR SVD (u + d) -> orthonormal u -> u^T *m d = 0 ->
  Q^T *m (u + d) = col_mx T 0 -> exists T', Q^T *m (polar_of QR SVD (u + d)).1.1 = col_mx T' 0.
Proof.
move=> H Hu Hd E; have [P [HP [EP _]]] := polar_ok (svd_of_ok H) Hu (orth0_tangent Hd).
exists (T *m invmx P); rewrite polar_ofE -[polar_retraction _ _ _](mulmxK (posdef_unit HP)) -EP mulmxA E mul_col_mx mul0mx.
by [].
Qed.
(** The differentiated retraction, for xi = c eta. *)
Lemma diff_polar_horizontal q QR (u d : 'M[R]_(r + q, r)) : lapack_ok QR SVD (u + d) -> orthonormal u -> u^T *m d = 0 ->
  let S := svd_of QR SVD (u + d) in let y := polar_retraction (svd_of QR SVD) u d in y^T *m diff_polar S.1.2 S.2 1 y d = 0.
Proof.
move=> H Hu Hd S y; have Hs := svd_of_ok H; have Ht := orth0_tangent Hd.
have Hy : orthonormal y by exact: polar_orth.
have HV : orthonormal S.2^T by case: Hs.
pose K := spec S.2 (fun i => (S.1.2 0 i)^-1).
have Sp i : S.1.2 0 i != 0 by rewrite lt0r_neq0 // (sing_pos Hs).
have Ey : y = (u + d) *m K.
  have [P [_ [E1 [_ E2]]]] := sing_spec Hs Hu Ht; rewrite -/y -/S in E1 E2.
  rewrite E1 E2 -mulmxA spec_mul // (@spec_ext _ _ S.2 _ (fun => 1)) ?spec_one ?mulmx1 // => i.
  by rewrite mulfV.
have -> : diff_polar S.1.2 S.2 1 y d = d *m K - y *m ((d *m K)^T *m (d *m K)).
  rewrite /diff_polar /gemm /gemm0 !scale1r scaleN1r addrC.
  have -> : d *m S.2^T *m diag_mx (\row_i (1 / S.1.2 0 i)) *m S.2 = d *m K.
    rewrite /K /spec !mulmxA; congr (_ *m diag_mx _ *m _); apply/rowP => i; by rewrite !mxE mul1r.
  by [].
rewrite mulmxBr [y^T *m (y *m _)]mulmxA Hy mul1mx.
have -> : y^T = K^T *m u^T + K^T *m d^T by rewrite Ey trM trD mulmxDr.
rewrite mulmxDl.
have -> : K^T *m u^T *m (d *m K) = 0 by rewrite -mulmxA [u^T *m _]mulmxA Hd mul0mx mulmx0.
by rewrite add0r -trM subrr.
Qed.
Lemma diff_retr_fields eta c : fdU eta <> 0 -> fdV eta <> 0 ->
  let y := retr eta in
  let SU := svd_of QRm SVD (pU x + fdU eta) in let SV := svd_of QRn SVD (pV x + fdV eta) in
  let g := Fields (`|c| *: diff_polar SU.1.2 SU.2 1 (pU y) (fdU eta)) (c *: fdD eta) (`|c| *: diff_polar SV.1.2 SV.2 1 (pV y) (fdV eta)) in
  diff_retraction QRm QRn SVD x eta y (scaleF c eta) = Some (Tvec (assemble y g) g).
Proof.
move=> NU NV y SU SV g; rewrite /diff_retraction /g; clear g.
have [A1 A2] := polar_of2 QRm SVD (pU x + fdU eta); have [B1 B2] := polar_of2 QRn SVD (pV x + fdV eta).
rewrite -/SU -/SV in A1 A2 B1 B2 *; clearbody y SU SV.
move: A1 A2 B1 B2; case: (polar_of _ _ _) => [[a b] d] /= -> ->; case: (polar_of _ _ _) => [[a' b'] d'] /= -> ->.
by rewrite !diff_factorE //= !sqrt_ratio.
Qed.
Lemma diff_retr_none eta y xi : fdU eta = 0 \/ fdV eta = 0 -> diff_retraction QRm QRn SVD x eta y xi = None.
Proof.
rewrite /diff_retraction; case: (polar_of _ _ _) => [[a b] c]; case: (polar_of _ _ _) => [[a' b'] c'].
by case=> ->; rewrite diff_factor0 //; case: (diff_factor _ _ _ _ _).
Qed.
Lemma velocity_orth q (c : R -> 'M[R]_(q, r)) a h : mvel c a h -> (forall t, orthonormal (c t)) -> h^T *m a + a^T *m h = 0.
Proof.
move=> H K; have M := mvel_mul (mvel_tr H) H.
have C : mvel (fun t => (c t)^T *m c t) (a^T *m a) 0.
  have -> : a^T *m a = 1%:M.
    have E0 : c 0 = a.
      apply/matrixP => i j; have [C [e [e0 [_ [_ V]]]]] := H i j.
      have [|u [_ ->]] := V 0; first by rewrite normr0 ltW.
      by rng R.
    by rewrite -E0; exact: K.
  by apply: mvel_ext (mvel_const 1%:M) => t; rewrite (K t : _ = _).
exact: mvel_unique M C.
Qed.
(** The factors of the retracted curve have the velocity that DiffRetraction computes. *)
Lemma diff_retr_velocity eta c E : represents x eta E -> 0 <= c -> fdU eta <> 0 -> fdV eta <> 0 ->
  (forall t : R, lapack_ok QRm SVD (pU x + t *: fdU eta)) -> (forall t : R, lapack_ok QRn SVD (pV x + t *: fdV eta)) ->
  let y := retr eta in exists d, diff_retraction QRm QRn SVD x eta y (scaleF c eta) = Some d /\
  is_tangent y d /\ velocity (fun t => pX (retr (scaleF (1 + c * t) eta))) (pX y) (tE d).
Proof.
move=> Hf Hc NU NV HU HV y.
rewrite diff_retr_fields // (ger0_norm Hc); eexists; split; first by [].
have HU1 := HU 1; have HV1 := HV 1; rewrite scale1r in HU1; rewrite scale1r in HV1.
split.
  split; first by rewrite tEE tFE assembleE.
    by rewrite tFE fdUE mulZr retr_U diff_polar_horizontal ?scaler0 //; [exact: on_U|exact: rep_U Hf].
  by rewrite tFE fdVE mulZr retr_V diff_polar_horizontal ?scaler0 //; [exact: on_V|exact: rep_V Hf].
apply: mvel_velocity.
have MU := polar_velocity (svd_of_ok HU1) (on_U Hx) (orth0_tangent (rep_U Hf)) (fun t => svd_of_ok (HU t)).
have MV := polar_velocity (svd_of_ok HV1) (on_V Hx) (orth0_tangent (rep_V Hf)) (fun t => svd_of_ok (HV t)).
have MD : mvel (fun t => pD x + fdD eta + t *: fdD eta) (pD x + fdD eta) (fdD eta) by exact: mvel_line.
have M := mvel_mul (mvel_mul (mvel_resc Hc MU) (mvel_resc Hc MD)) (mvel_tr (mvel_resc Hc MV)).
rewrite tEE.
have EY : pX y = polar_retraction (svd_of QRm SVD) (pU x) (fdU eta) *m (pD x + fdD eta) *m (polar_retraction (svd_of QRn SVD) (pV x) (fdV eta))^T.
  by rewrite /y retr_X retr_U retr_V retr_D.
rewrite EY assembleE fdUE fdVE (_ : fdD (Fields _ _ _) = c *: fdD eta) //.
rewrite /y retr_U retr_V retr_D; move: M; rewrite mulmxDl => M.
apply: mvel_ext M => t; rewrite retr_X retr_U retr_V retr_D /=.
by rewrite [(1 + c * t) *: fdD eta]scalerDl scale1r addrA.
Qed.
End retraction.
