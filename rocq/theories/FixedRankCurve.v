(** Rules for the derivative of a curve of matrices at 0. *)
From mathcomp Require Import all_ssreflect all_algebra.
Require Import Ring Field.
From Verif Require Import MxTac StiefelModel StiefelSpec StiefelProofs FixedRankModel FixedRankSpec.
Import Order.TTheory GRing.Theory Num.Theory.
Set Implicit Arguments.
Unset Strict Implicit.
Local Open Scope ring_scope.

Section scalar.
Variable R : rcfType.
Add Field frc_field : (rcf_field R).
(** c t = a + t h + t^2 u with u bounded. *)
Definition vel1 (c : R -> R) (a h : R) : Prop :=
  exists C delta : R, 0 < delta /\ delta <= 1 /\ 0 <= C /\ forall t : R, `|t| <= delta ->
    exists u, `|u| <= C /\ c t = a + t * h + t ^+ 2 * u.
Lemma vel1_ext c d a h : (exists e : R, 0 < e /\ forall t : R, `|t| <= e -> c t = d t) -> vel1 c a h -> vel1 d a h.
Proof.
move=> [e [He H]] [C [D [D0 [D1 [C0 K]]]]]; exists C, (Num.min e D).
split; first by rewrite lt_minr He D0.
split; first by rewrite le_minl D1 orbT.
split=> // t; rewrite le_minr => /andP [T1 T2]; rewrite -H //; exact: K.
Qed.
Lemma vel1_const a : vel1 (fun => a) a 0.
Proof.
exists 0, 1; rewrite ltr01 lexx; do 3 split=> //; exists 0; rewrite normr0; split=> //; rng R.
Qed.
Lemma vel1_id : vel1 id 0 1.
Proof. by exists 0, 1; rewrite ltr01 lexx; do 3 split=> //; exists 0; rewrite normr0; split=> //; rng R. Qed.
Lemma vel1_two c d a b h g (P : R -> R -> R -> Prop) : vel1 c a h -> vel1 d b g ->
  exists C D delta, 0 < delta /\ delta <= 1 /\ 0 <= C /\ 0 <= D /\ forall t : R, `|t| <= delta ->
    (exists u, `|u| <= C /\ c t = a + t * h + t ^+ 2 * u) /\ (exists v, `|v| <= D /\ d t = b + t * g + t ^+ 2 * v).
Proof.
move=> [C [e [e0 [e1 [C0 K]]]]] [D [e' [e0' [e1' [D0 K']]]]]; exists C, D, (Num.min e e').
split; first by rewrite lt_minr e0 e0'.
split; first by rewrite le_minl e1.
do 2 split=> //; move=> t; rewrite le_minr => /andP [T1 T2]; split; [exact: K|exact: K'].
Qed.
Lemma vel1_add c d a b h g : vel1 c a h -> vel1 d b g -> vel1 (fun t => c t + d t) (a + b) (h + g).
Proof.
move=> Hc Hd; have [C [D [e [e0 [e1 [C0 [D0 K]]]]]]] := vel1_two (fun _ _ _ => True) Hc Hd.
exists (C + D), e; split=> //; split=> //; split; first exact: addr_ge0.
move=> t /K [[u [Hu ->]] [v [Hv ->]]]; exists (u + v); split; last by rng R.
by apply: le_trans (ler_norm_add _ _) _; exact: ler_add.
Qed.
Lemma norm_le1 (t : R) u C : `|t| <= 1 -> `|u| <= C -> `|t * u| <= C.
Proof.
move=> Ht Hu; rewrite normrM; apply: le_trans Hu; rewrite -[X in _ <= X]mul1r.
exact: ler_wpmul2r.
Qed.
Lemma norm_leM (u v : R) C D : `|u| <= C -> `|v| <= D -> `|u * v| <= C * D.
Proof. by move=> H1 H2; rewrite normrM; apply: ler_pmul. Qed.
Lemma norm_leD (u v : R) C D : `|u| <= C -> `|v| <= D -> `|u + v| <= C + D.
Proof. by move=> H1 H2; apply: le_trans (ler_norm_add _ _) _; exact: ler_add. Qed.
Lemma vel1_mul c d a b h g : vel1 c a h -> vel1 d b g -> vel1 (fun t => c t * d t) (a * b) (h * b + a * g).
Proof.
move=> Hc Hd; have [C [D [e [e0 [e1 [C0 [D0 K]]]]]]] := vel1_two (fun _ _ _ => True) Hc Hd.
exists (`|h| * `|g| + `|a| * D + C * `|b| + (`|h| * D + C * `|g| + C * D)), e; split=> //; split=> //; split.
  by rewrite !addr_ge0 ?mulr_ge0 ?normr_ge0.
move=> t Ht; have [[u [Hu ->]] [v [Hv ->]]] := K t Ht.
exists (h * g + a * v + u * b + t * (h * v + u * g + t * (u * v))); split; last by rng R.
have T1 := le_trans Ht e1.
apply: norm_leD; first by apply: norm_leD; [apply: norm_leD|]; exact: norm_leM.
apply: norm_le1 => //; apply: norm_leD; first by apply: norm_leD; exact: norm_leM.
by apply: norm_le1 => //; exact: norm_leM.
Qed.
Lemma vel1_scale s c a h : vel1 c a h -> vel1 (fun t => s * c t) (s * a) (s * h).
Proof. by move=> H; have := vel1_mul (vel1_const s) H; rewrite mul0r add0r. Qed.
Lemma vel1_near c a h : vel1 c a h -> 0 < a ->
  exists C e, 0 < e /\ e <= 1 /\ 0 <= C /\ forall t : R, `|t| <= e ->
    a / 2%:R <= c t /\ exists u, `|u| <= C /\ c t = a + t * h + t ^+ 2 * u.
Proof.
move=> [C [e [e0 [e1 [C0 K]]]]] Ha.
have HB : 0 < `|h| + C + 1 by rewrite ltr_paddl ?ltr01 // addr_ge0 ?normr_ge0.
have H2 : 0 < 2%:R :> R by rewrite ltr0n.
have HE : 0 < a / 2%:R / (`|h| + C + 1) by rewrite !divr_gt0.
exists C, (Num.min e (a / 2%:R / (`|h| + C + 1))).
split; first by rewrite lt_minr e0 HE.
split; first by rewrite le_minl e1.
split=> // t; rewrite le_minr => /andP [T1 T2]; have [u [Hu E]] := K t T1; split; last by exists u.
have B : `|t * (h + t * u)| <= a / 2%:R.
  have N : `|h + t * u| <= `|h| + C + 1.
    apply: (@le_trans _ _ (`|h| + C)); last by rewrite ler_addl ler01.
    apply: norm_leD => //; apply: norm_le1 => //; exact: le_trans e1.
  apply: le_trans (norm_leM T2 N) _.
  by rewrite mulfVK // lt0r_neq0.
have Ea : a = a / 2%:R + a / 2%:R by rewrite -mulr2n -mulr_natr mulfVK // lt0r_neq0.
have -> : c t = a / 2%:R + (a / 2%:R + t * (h + t * u)) by rewrite E addrA -Ea; rng R.
rewrite ler_addl -ler_subl_addl sub0r.
by move: B; rewrite ler_norml => /andP [].
Qed.
Lemma vel1_inv c a h : vel1 c a h -> 0 < a -> vel1 (fun t => (c t)^-1) a^-1 (- (h / a ^+ 2)).
Proof.
move=> Hc Ha; have [C [e [e0 [e1 [C0 K]]]]] := vel1_near Hc Ha.
have H2 : 0 < 2%:R :> R by rewrite ltr0n.
have A2 : 0 < a / 2%:R by rewrite divr_gt0.
exists ((`|h| * `|h| + (`|h| * C + a * C)) / (a ^+ 2 * (a / 2%:R))), e; split=> //; split=> //; split.
  have Ha' := ltW Ha; have A2' := ltW A2; have S0 : 0 <= a ^+ 2 by exact: sqr_ge0.
  apply: divr_ge0; last exact: mulr_ge0.
  by rewrite addr_ge0 ?addr_ge0 ?mulr_ge0 ?normr_ge0.
move=> t Ht; have [L [u [Hu E]]] := K t Ht; have Hc0 : 0 < c t by exact: lt_le_trans L.
exists ((h * h + (t * (h * u) + (- a) * u)) / (a ^+ 2 * c t)); split.
  rewrite normrM; apply: ler_pmul => //.
    apply: norm_leD; first exact: norm_leM.
    apply: norm_leD; last by apply: norm_leM => //; rewrite normrN gtr0_norm.
    apply: norm_le1; [exact: le_trans e1|exact: norm_leM].
  rewrite gtr0_norm; last by rewrite invr_gt0 mulr_gt0 // exprn_gt0.
  rewrite ler_pinv ?inE ?unitfE.
  - by rewrite ler_pmul2l // exprn_gt0.
  - by rewrite mulr_gt0 ?exprn_gt0 // lt0r_neq0 // mulr_gt0 ?exprn_gt0.
  - by rewrite mulr_gt0 ?exprn_gt0 // lt0r_neq0 // mulr_gt0 ?exprn_gt0.
have Na : a <> 0 by apply/eqP; rewrite lt0r_neq0.
have Nc : c t <> 0 by apply/eqP; rewrite lt0r_neq0.
have Eh : c t * (a * a - a * c t + t * h * c t) = c t * (t * t * (h * h + (t * (h * u) - a * u))).
  by rewrite {2 3}E; rng R.
move: Eh => /(mulfI (introN eqP Nc)) Eh.
have -> : h * h + (t * (h * u) + - a * u) = h * h + (t * (h * u) - a * u) by rng R.
move: Eh; set w := h * h + _; move=> Eh.
transitivity (a^-1 + t * - (h / a ^+ 2) + (t * t * w) / (a ^+ 2 * c t)); last by toR R; field.
by rewrite -Eh; toR R; field.
Qed.
Lemma vel1_sqrt c a h : vel1 c (a ^+ 2) h -> 0 < a -> vel1 (fun t => Num.sqrt (c t)) a (h / (a *+ 2)).
Proof.
move=> Hc Ha; have A2 : 0 < a ^+ 2 by exact: exprn_gt0.
have [C [e [e0 [e1 [C0 K]]]]] := vel1_near Hc A2.
have Na : a <> 0 by apply/eqP; rewrite lt0r_neq0.
have H2 : 0 < 2%:R :> R by rewrite ltr0n.
have P4 : 0 < a ^+ 2 *+ 4 by rewrite pmulrn_lgt0.
(* c - a^2 = (s - a) (s + a); the remainder is t^2 u - (s - a)^2 over 2 a *)
exists ((C + (`|h| + C) * (`|h| + C) / a ^+ 2) / (a *+ 2)), e; split=> //; split=> //.
have P2 : 0 < a *+ 2 by rewrite pmulrn_lgt0.
have B0 : 0 <= `|h| + C by rewrite addr_ge0 ?normr_ge0.
split; first by rewrite divr_ge0 ?addr_ge0 ?divr_ge0 ?mulr_ge0 // ltW.
move=> t Ht; have [L [u [Hu E]]] := K t Ht.
have Hc0 : 0 <= c t by apply: le_trans L; rewrite ltW // divr_gt0.
pose s : R := Num.sqrt (c t); rewrite -/s; have Hs : 0 <= s by exact: sqrtr_ge0.
have Es : s ^+ 2 = c t by rewrite sqr_sqrtr.
have Psa : 0 < s + a by rewrite ltr_paddl.
have Nsa : s + a <> 0 by apply/eqP; rewrite lt0r_neq0.
pose w := (h + t * u) / (s + a).
have Ew : s - a = t * w.
  have : (s - a) * (s + a) = t * (h + t * u).
    have -> : (s - a) * (s + a) = s ^+ 2 - a ^+ 2 by rng R.
    by rewrite Es E; rng R.
  move=> X; apply: (mulIf (introN eqP Nsa)); rewrite X /w; toR R; field; exact: Nsa.
have Hw : `|w| <= (`|h| + C) / a.
  rewrite /w normrM; apply: ler_pmul => //.
    by apply: norm_leD => //; apply: norm_le1 => //; exact: le_trans e1.
  rewrite gtr0_norm ?invr_gt0 // ler_pinv ?inE ?unitfE ?Ha ?Psa ?andbT ?lt0r_neq0 //.
  by rewrite ler_addr.
exists ((u - w ^+ 2) / (a *+ 2)); split.
  rewrite normrM; apply: ler_pmul => //; last by rewrite gtr0_norm ?invr_gt0.
  apply: norm_leD => //; rewrite normrN expr2.
  have -> : (`|h| + C) * (`|h| + C) / a ^+ 2 = ((`|h| + C) / a) * ((`|h| + C) / a).
    by move: (`|h| + C) => b; toR R; field.
  exact: norm_leM.
have N2 : a + a <> 0 by apply/eqP; rewrite -mulr2n lt0r_neq0.
have Eu : t * t * u = s * s - a * a - t * h by rewrite -!expr2 Es E; rng R.
transitivity (a + t * h / (a + a) + (t * t * u - (t * w) * (t * w)) / (a + a)); last by toR R; field.
by rewrite Eu -Ew; move: (s : R) => z; toR R; field.
Qed.
Lemma vel1_sum (I : finType) (c : I -> R -> R) (a h : I -> R) : (forall i, vel1 (c i) (a i) (h i)) ->
  vel1 (fun t => \sum_i c i t) (\sum_i a i) (\sum_i h i).
Proof.
move=> H; elim: (index_enum I) => [|i s IH].
  rewrite !big_nil; apply: vel1_ext (vel1_const 0); exists 1; split; first exact: ltr01.
  by move=> t _; rewrite big_nil.
rewrite !big_cons; apply: vel1_ext (vel1_add (H i) IH); exists 1; split; first exact: ltr01.
by move=> t _; rewrite big_cons.
Qed.
End scalar.

Section matrix.
Variable R : rcfType.
Add Field frm_field : (rcf_field R).
Definition mvel p q (c : R -> 'M[R]_(p, q)) (a h : 'M[R]_(p, q)) : Prop := forall i j, vel1 (fun t => c t i j) (a i j) (h i j).
Lemma innerE p q (A : 'M[R]_(p, q)) : inner A A = \sum_i \sum_j A i j ^+ 2.
Proof. by rewrite -dotE /dot; apply: eq_bigr => i _; apply: eq_bigr => j _; rewrite expr2. Qed.
Lemma entry_le p q (A : 'M[R]_(p, q)) i j : A i j ^+ 2 <= inner A A.
Proof.
rewrite innerE (bigD1 i) //= (bigD1 j) //= -addrA ler_addl addr_ge0 //.
  by apply: sumr_ge0 => b _; exact: sqr_ge0.
by apply: sumr_ge0 => a _; apply: sumr_ge0 => b _; exact: sqr_ge0.
Qed.
Lemma velocity_mvel p q (c : R -> 'M[R]_(p, q)) a h : velocity c a h -> mvel c a h.
Proof.
move=> [C [e [e0 K]]] i j; pose C' := Num.max C 0.
exists (C' + 1), (Num.min e 1).
split; first by rewrite lt_minr e0 ltr01.
split; first by rewrite le_minl lexx orbT.
have C0 : 0 <= C' by rewrite le_maxr lexx orbT.
split; first by rewrite addr_ge0 ?ler01.
move=> t; rewrite le_minr => /andP [T1 T2].
have := le_trans (entry_le _ i j) (K t T1); rewrite !mxE => B.
case: (altP (t =P 0)) => [t0|Nt].
  move: B; rewrite t0 expr0n /= mulr0 !mul0r subr0 => B; exists 0; rewrite normr0 addr_ge0 ?ler01 //; split=> //.
  have : (c 0 i j - a i j) ^+ 2 == 0 by rewrite eq_le B sqr_ge0.
  by rewrite sqrf_eq0 subr_eq0 => /eqP ->; rng R.
exists ((c t i j - a i j - t * h i j) / t ^+ 2); split; last first.
  by move: (c t i j : R) (a i j : R) (h i j : R) => c' a' h'; toR R; field; exact/eqP.
have T2p : 0 < t ^+ 2 by rewrite lt_neqAle sqr_ge0 andbT eq_sym sqrf_eq0.
rewrite normrM [`|_^-1|]gtr0_norm ?invr_gt0 // ler_pdivr_mulr //.
have BB : 0 <= (C' + 1) * t ^+ 2 by apply: mulr_ge0; [rewrite addr_ge0 ?ler01|exact: ltW].
rewrite -(@ler_pexpn2r _ 2) // ?nnegrE ?normr_ge0 //.
rewrite real_normK ?num_real //; apply: le_trans B _; rewrite exprMn -exprM.
apply: ler_wpmul2r; first by rewrite (_ : 4 = 2 * 2)%N // exprM sqr_ge0.
apply: (@le_trans _ _ C'); first by rewrite le_maxr lexx.
have -> : (C' + 1) ^+ 2 = C' + (C' ^+ 2 + C' + 1) by rng R.
by rewrite ler_addl !addr_ge0 ?ler01 ?sqr_ge0.
Qed.
Lemma mvel_velocity p q (c : R -> 'M[R]_(p, q)) a h : mvel c a h -> velocity c a h.
Proof.
move=> H; pose P (ij : 'I_p * 'I_q) (Ce : R * R) := 0 < Ce.2 /\ 0 <= Ce.1 /\ forall t : R, `|t| <= Ce.2 ->
  (c t ij.1 ij.2 - a ij.1 ij.2 - t * h ij.1 ij.2) ^+ 2 <= Ce.1 * t ^+ 4.
have [Ce HC] : exists Ce : 'I_p * 'I_q -> R * R, forall ij, P ij (Ce ij).
  apply: fin_all_exists => -[i j]; have [C [e [e0 [_ [C0 K]]]]] := H i j; exists (C ^+ 2, e).
  split=> //; split; first exact: sqr_ge0.
  move=> t /K [u [Hu /= ->]].
  have -> : a i j + t * h i j + t ^+ 2 * u - a i j - t * h i j = t ^+ 2 * u by rng R.
  rewrite exprMn -exprM mulrC; apply: ler_wpmul2r; first by rewrite exprM sqr_ge0.
  by rewrite -[u ^+ 2]real_normK ?num_real // ler_pexpn2r // nnegrE.
exists (\sum_i \sum_j (Ce (i, j)).1).
have [e [e0 He]] : exists e : R, 0 < e /\ forall ij, e <= (Ce ij).2.
  have [e [e0 He]] : exists e : R, 0 < e /\ forall ij, ij \in index_enum [finType of 'I_p * 'I_q] -> e <= (Ce ij).2.
    elim: (index_enum _) => [|ij s [e [e0 IH]]]; first by exists 1; rewrite ltr01.
    exists (Num.min e (Ce ij).2); rewrite lt_minr e0; split; first by have [] := HC ij.
    move=> z; rewrite inE => /orP [/eqP ->|/IH Hz]; rewrite le_minl ?lexx ?orbT ?Hz //.
  by exists e; split=> // ij; apply: He; rewrite mem_index_enum.
exists e; split=> // t Ht; rewrite innerE !mulr_suml; apply: ler_sum => i _; rewrite mulr_suml; apply: ler_sum => j _.
have [_ [_ /(_ t)]] := HC (i, j); rewrite !mxE; apply; exact: le_trans (He _).
Qed.
Lemma mvel_const p q (a : 'M[R]_(p, q)) : mvel (fun => a) a 0.
Proof. by move=> i j; rewrite mxE; exact: vel1_const. Qed.
Lemma mvel_line p q (a h : 'M[R]_(p, q)) : mvel (fun t => a + t *: h) a h.
Proof.
move=> i j; have := vel1_add (vel1_const (a i j)) (vel1_scale (h i j) (vel1_id R)).
rewrite mulr0 addr0 mulr1 add0r; apply: vel1_ext; exists 1; split; first exact: ltr01.
by move=> t _; rewrite !mxE mulrC.
Qed.
Lemma mvel_ext p q (c d : R -> 'M[R]_(p, q)) a h : (forall t, c t = d t) -> mvel c a h -> mvel d a h.
Proof. by move=> H K i j; apply: vel1_ext (K i j); exists 1; split; [exact: ltr01|move=> t _; rewrite H]. Qed.
Lemma mvel_near p q (c d : R -> 'M[R]_(p, q)) a h : (exists e : R, 0 < e /\ forall t : R, `|t| <= e -> c t = d t) -> mvel c a h -> mvel d a h.
Proof. by move=> [e [e0 H]] K i j; apply: vel1_ext (K i j); exists e; split=> // t Ht; rewrite H. Qed.
Lemma mvel_add p q (c d : R -> 'M[R]_(p, q)) a b h g : mvel c a h -> mvel d b g -> mvel (fun t => c t + d t) (a + b) (h + g).
Proof. by move=> H K i j; rewrite !mxE; apply: vel1_ext (vel1_add (H i j) (K i j)); exists 1; split; [exact: ltr01|move=> t _; rewrite mxE]. Qed.
Lemma mvel_opp p q (c : R -> 'M[R]_(p, q)) a h : mvel c a h -> mvel (fun t => - c t) (- a) (- h).
Proof.
move=> H i j; rewrite !mxE -[- a i j]mulN1r -[- h i j]mulN1r.
by apply: vel1_ext (vel1_scale (-1) (H i j)); exists 1; split; [exact: ltr01|move=> t _; rewrite mxE mulN1r].
Qed.
Lemma mvel_scale p q s (c : R -> 'M[R]_(p, q)) a h : mvel c a h -> mvel (fun t => s *: c t) (s *: a) (s *: h).
Proof. by move=> H i j; rewrite !mxE; apply: vel1_ext (vel1_scale s (H i j)); exists 1; split; [exact: ltr01|move=> t _; rewrite mxE]. Qed.
Lemma mvel_tr p q (c : R -> 'M[R]_(p, q)) a h : mvel c a h -> mvel (fun t => (c t)^T) a^T h^T.
Proof. by move=> H i j; rewrite !mxE; apply: vel1_ext (H j i); exists 1; split; [exact: ltr01|move=> t _; rewrite mxE]. Qed.
Lemma mvel_mul p q s (c : R -> 'M[R]_(p, q)) (d : R -> 'M[R]_(q, s)) a b h g : mvel c a h -> mvel d b g ->
  mvel (fun t => c t *m d t) (a *m b) (h *m b + a *m g).
Proof.
move=> H K i j; rewrite !mxE -big_split /=.
apply: vel1_ext (vel1_sum (fun z => vel1_mul (H i z) (K z j))).
by exists 1; split; [exact: ltr01|move=> t _; rewrite mxE].
Qed.
Lemma mvel_diag n (c : 'I_n -> R -> R) a h : (forall i, vel1 (c i) (a i) (h i)) ->
  mvel (fun t => diag_mx (\row_i c i t)) (diag_mx (\row_i a i)) (diag_mx (\row_i h i)).
Proof.
move=> H i j; rewrite !mxE; case: (altP (i =P j)) => [->|Nij].
  rewrite !mulr1n; apply: vel1_ext (H j); exists 1; split; [exact: ltr01|move=> t _; by rewrite !mxE eqxx mulr1n].
rewrite !mulr0n; apply: vel1_ext (vel1_const 0); exists 1; split; [exact: ltr01|].
by move=> t _; rewrite !mxE (negbTE Nij) mulr0n.
Qed.
(** A curve has one derivative. *)
Lemma vel1_unique c a h h' : vel1 c a h -> vel1 c a h' -> h = h' :> R.
Proof.
move=> Hc Hd; have [C [D [e [e0 [e1 [C0 [D0 K]]]]]]] := vel1_two (fun _ _ _ => True) Hc Hd.
apply/eqP; rewrite -subr_eq0 -normr_eq0; apply: contraT => N.
have N0 : 0 < `|h - h'| by rewrite lt_neqAle normr_ge0 eq_sym N.
have HB : 0 < C + D + 1 by rewrite ltr_paddl ?ltr01 // addr_ge0.
pose t := Num.min e (`|h - h'| / (C + D + 1) / 2%:R).
have T0 : 0 < t by rewrite lt_minr e0 !divr_gt0 // ltr0n.
have Tt : `|t| <= e by rewrite gtr0_norm // le_minl lexx.
have [[u [Hu Eu]] [v [Hv Ev]]] := K t Tt.
have Eh : h - h' = t * (v - u).
  have Nt : t != 0 by rewrite lt0r_neq0.
  apply: (mulfI Nt); have : a + t * h + t ^+ 2 * u = a + t * h' + t ^+ 2 * v by rewrite -Eu -Ev.
  move=> X; have -> : t * (h - h') = (a + t * h + t ^+ 2 * u) - a - t * h' - t ^+ 2 * u by rng R.
  by rewrite X; rng R.
have : `|h - h'| <= t * (C + D).
  rewrite {1}Eh normrM gtr0_norm //; apply: ler_wpmul2l; first exact: ltW.
  by rewrite addrC; apply: norm_leD => //; rewrite normrN.
have : t * (C + D) <= `|h - h'| / 2%:R.
  apply: (@le_trans _ _ (`|h - h'| / (C + D + 1) / 2%:R * (C + D + 1))).
    apply: ler_pmul; rewrite ?(ltW T0) ?addr_ge0 ?le_minl ?lexx ?orbT ?ler_addl ?ler01 //.
  by rewrite mulrAC mulfVK // lt0r_neq0.
move=> H1 H2; have := le_trans H2 H1.
by rewrite ler_pdivl_mulr ?ltr0n // -[X in _ <= X]mulr1 ler_pmul2l // lern1.
Qed.
Lemma mvel_unique p q (c : R -> 'M[R]_(p, q)) a h h' : mvel c a h -> mvel c a h' -> h = h'.
Proof. by move=> H K; apply/matrixP => i j; exact: vel1_unique (H i j) (K i j). Qed.
Lemma mvel_resc m n (g : R -> 'M[R]_(m, n)) a h (c : R) : 0 <= c -> mvel g a h -> mvel (fun t => g (c * t)) a (c *: h).
Proof.
move=> Hc H i j; have [C [e [e0 [e1 [C0 V]]]]] := H i j.
have P1 : 0 < c + 1 by rewrite ltr_paddl ?ltr01.
exists (C * c ^+ 2), (e / (c + 1)); split; first by rewrite divr_gt0.
split; first by rewrite ler_pdivr_mulr // mul1r; apply: le_trans e1 _; rewrite ler_addr.
split; first by rewrite mulr_ge0 ?sqr_ge0.
move=> t Ht; have [|u [Hu Eu]] := V (c * t).
  rewrite normrM (ger0_norm Hc); apply: (@le_trans _ _ ((c + 1) * `|t|)).
    by apply: ler_wpmul2r; rewrite ?normr_ge0 // ler_addl ler01.
  by rewrite mulrC -ler_pdivl_mulr.
exists (u * c ^+ 2); split; first by rewrite normrM [`|c ^+ 2|]ger0_norm ?sqr_ge0 //; apply: ler_wpmul2r; rewrite ?sqr_ge0.
by rewrite Eu !mxE; rng R.
Qed.
End matrix.
