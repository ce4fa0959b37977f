(** The theorems about the Karcher mean with the logarithm of Coq's reals, and what shows that their
    hypotheses can be met. *)
From Coq Require Import Reals Rtrigo_def Lra.
From mathcomp Require Import all_ssreflect all_algebra.
From Verif Require Import RealsRcf StiefelModel StiefelSpec StiefelProofs StiefelPolar SPDModel SPDSpec SPDProofs Decomp
  KMModel KMSpec KMFun KMLn KMNorm KMProofs KMDeriv KMMean KMHess.
Import Order.TTheory GRing.Theory Num.Theory.
Set Implicit Arguments.
Unset Strict Implicit.
Local Open Scope ring_scope.
Local Notation RR := R_rcfType.

Lemma inv_R (a : RR) : a <> 0 -> a^-1 = Rinv a.
Proof. by move=> H; rewrite /GRing.inv /= /Rinvx; case: eqP. Qed.
Lemma pos_R (a : RR) : 0 < a -> a <> 0.
Proof. by move=> H E; rewrite E ltxx in H. Qed.
Lemma two_R : 2%:R = 2%Re :> RR.
Proof. by rewrite /GRing.natmul /=. Qed.
Lemma square_R (lo a b : RR) : 0 < lo -> lo <= a -> lo <= b ->
  `|(ln b : RR) ^+ 2 / 2%:R - (ln a : RR) ^+ 2 / 2%:R - (ln a : RR) / a * (b - a)| <= (1 + `|ln a : RR|) / (lo * lo) * (b - a) ^+ 2.
Proof.
move=> Hl Ha Hb; have Ha0 := pos_R (lt_le_trans Hl Ha); have Hll := pos_R (mulr_gt0 Hl Hl).
have H2 : (2%:R : RR) <> 0 by apply: pos_R; rewrite ltr0n.
rewrite !inv_R // !expr2 two_R; apply/RleP.
apply: ln_square => //; (exact/RltP || exact/RleP).
Qed.
Lemma chord_R (lo a a' b : RR) : 0 < lo -> lo <= a -> lo <= a' -> lo <= b ->
  `|(ln b : RR) - ln a - divided (ln : RR -> RR) a a' * (b - a)| <= (lo * lo)^-1 * (`|b - a| * `|b - a'|).
Proof.
move=> Hl Ha Ha' Hb; have Ha0 := pos_R (lt_le_trans Hl Ha); have Hll := pos_R (mulr_gt0 Hl Hl).
rewrite inv_R // /divided; case: eqP => [<-|Hn]; apply/RleP.
  rewrite div1r inv_R //.
  apply: ln_tangent => //; (exact/RltP || exact/RleP).
rewrite inv_R; last by move/eqP; rewrite subr_eq0 => /eqP.
apply: ln_chord => //; (exact/RltP || exact/RleP).
Qed.
Lemma mean_R (a b : RR) : 0 < a -> 0 < b -> 2%:R <= divided (ln : RR -> RR) a b * (a + b).
Proof.
move=> Ha Hb; rewrite /divided; case: eqP => [<-|Hn].
  by rewrite div1r mulrDr mulVf ?gt_eqF // -mulr2n.
rewrite two_R inv_R; last by move/eqP; rewrite subr_eq0 => /eqP.
apply/RleP; apply: ln_mean => //; (exact/RltP || exact/RleP).
Qed.
Lemma zero_R (t : RR) : 0 < t -> (ln t : RR) = 0 -> t = 1.
Proof. by move=> H E; apply: ln_zero => //; exact/RltP. Qed.

Section facts.
Variable n : nat.
Variables (CHOL : 'M[RR]_n -> 'M[RR]_n) (EIG : 'M[RR]_n -> 'M[RR]_n * 'rV[RR]_n).
Hypotheses (HC : chol_right CHOL) (HE : eig_right EIG).
Variables (Ls : seq 'M[RR]_n) (x : 'M[RR]_n).
Hypotheses (Hn : Ls != [::]) (HL : forall L, L \in Ls -> sample L) (Hx : posdef x).
Lemma fact_value (d : 'M[RR]_n -> RR) : (forall A, posdef A -> is_dist2 ln x A (d A)) ->
  f ln CHOL EIG Ls x = Some ((\sum_(L <- Ls) d (L *m L^T)) / (2%:R * (size Ls)%:R)).
Proof. exact: valueE. Qed.
Lemma fact_zero : (exists2 v, f ln CHOL EIG Ls x = Some v & 0 <= v) /\
  (f ln CHOL EIG Ls x = Some 0 <-> forall L, L \in Ls -> x = L *m L^T).
Proof. apply: value_zero => //; [exact: ln_1|exact: zero_R]. Qed.
Lemma fact_gradient : symmetric (egrad ln CHOL EIG Ls x) /\
  exists d K, [/\ 0 < d, 0 <= K & forall y, nrm (y - x) < d -> exists vx vy,
  [/\ f ln CHOL EIG Ls x = Some vx, f ln CHOL EIG Ls y = Some vy &
  `|vy - vx - inner (egrad ln CHOL EIG Ls x) (y - x)| <= K * nrm (y - x) ^+ 2]].
Proof. by split; [exact: egrad_sym|apply: value_grad => //; exact: square_R]. Qed.
Lemma fact_hessian : exists d K, [/\ 0 < d, 0 <= K & forall y, symmetric y -> nrm (y - x) < d ->
  nrm (egrad ln CHOL EIG Ls y - egrad ln CHOL EIG Ls x - ehess ln CHOL EIG Ls x (egrad ln CHOL EIG Ls x) (y - x)) <=
  K * nrm (y - x) ^+ 2].
Proof. by apply: grad_hess => //; exact: chord_R. Qed.
Lemma fact_self D1 D2 : inner (ehess ln CHOL EIG Ls x (egrad ln CHOL EIG Ls x) D1) D2 =
    inner D1 (ehess ln CHOL EIG Ls x (egrad ln CHOL EIG Ls x) D2) /\
  (symmetric D1 -> symmetric (ehess ln CHOL EIG Ls x (egrad ln CHOL EIG Ls x) D1)).
Proof. by split; [exact: hess_self|exact: hess_sym]. Qed.
Lemma fact_convex D : symmetric D -> metric_af x D D <=
  metric_af x (hess_af x (egrad ln CHOL EIG Ls x) D (ehess ln CHOL EIG Ls x (egrad ln CHOL EIG Ls x) D)) D.
Proof. by apply: hess_convex => //; exact: mean_R. Qed.
End facts.

(** ** The hypotheses can be met *)
Lemma some_case (n : nat) : exists (CHOL : 'M[RR]_n -> 'M[RR]_n) (EIG : 'M[RR]_n -> 'M[RR]_n * 'rV[RR]_n) (x : 'M[RR]_n) (Ls : seq 'M[RR]_n) (d : 'M[RR]_n -> RR),
  [/\ chol_right CHOL, eig_right EIG, posdef x, Ls = [:: 1%:M; 2%:R *: 1%:M] &
      (forall L, L \in Ls -> sample L) /\ forall A, posdef A -> is_dist2 ln x A (d A)].
Proof.
have [CHOL HC] := chol_function RR n; have [EIG HE] := eig_function RR n.
have HE' : eig_right EIG by move=> A HA; exact: (HE A HA).1.
have [d Hd] := dist_exists ln HC HE' (@posdef1 RR n).
exists CHOL, EIG, 1%:M, [:: 1%:M; 2%:R *: 1%:M], d; split=> //; first exact: posdef1.
split=> // L; rewrite !inE => /orP[] /eqP ->; split=> i => [j|]; rewrite !mxE.
- by move=> H; case: eqP H => // ->; rewrite ltnn.
- by rewrite eqxx oner_neq0.
- by move=> H; case: eqP H => [->|_ _]; rewrite ?ltnn // mulr0n mulr0.
- by rewrite eqxx mulr1 pnatr_eq0.
Qed.
