(** The statements of SPDProps.v, and concrete cases for them. *)
From Coq Require Import Reals.
From mathcomp Require Import all_ssreflect all_algebra.
Require Import Ring Field.
From Verif Require Import MxTac RealsRcf StiefelModel StiefelSpec StiefelProofs StiefelIntr StiefelWitness
  SPDModel SPDSpec SPDProofs SPDIntr.
Import Order.TTheory GRing.Theory Num.Theory.
Set Implicit Arguments.
Unset Strict Implicit.
Local Open Scope ring_scope.

Section facts.
Variable R : rcfType.
Add Field spdf_field : (rcf_field R).
Variable n : nat.
Local Notation ext := 'M[R]_n.
Implicit Types x y L eta xi : ext.

Lemma spd_metric x L eta xi : is_chol x L -> symmetric eta -> symmetric xi ->
  metric_af x eta xi = af x eta xi /\ metric_af x eta xi = metric_af x xi eta /\
  (eta <> 0 -> 0 < metric_af x eta eta).
Proof.
move=> Hc He Hx; rewrite !(metric_afE Hc) //; split=> //; split.
  by rewrite !(af_whiten Hc) // innerC.
move=> H0; have [H1 H2] := metric_pos Hc He; rewrite lt_neqAle H1 andbT eq_sym.
by apply/eqP => /H2.
Qed.
Lemma spd_gradient x L egf xi : is_chol x L -> symmetric egf -> symmetric xi ->
  (symmetric (grad_af x egf) /\ metric_af x (grad_af x egf) xi = inner egf xi /\
   vdot (intr_af L (grad_af x egf)) (intr_af L xi) = inner egf xi) /\
  (symmetric (grad_euc egf) /\ metric_euc (grad_euc egf) xi = inner egf xi /\
   vdot (intr_euc (grad_euc egf)) (intr_euc xi) = inner egf xi).
Proof.
move=> Hc He Hx; have Hs := grad_af_sym Hc He; do 2 split=> //; [split|split].
- exact: (grad_af_rep Hc).
- by rewrite (intr_af_inner Hc) // (grad_af_rep Hc).
- exact: dotE.
- exact: pack_inner.
Qed.
Lemma spd_hessian x L G : is_chol x L -> symmetric G ->
  (forall eta dG, symmetric eta -> symmetric dG ->
     symmetric (hess_af x G eta dG) /\ exists D E F,
     (forall t : R, grad_af (x + t *: eta) (G + t *: dG) = grad_af x G + t *: D + t ^+ 2 *: E + t ^+ 3 *: F) /\
     hess_af x G eta dG = D - (2%:R)^-1 *: (eta *m invmx x *m grad_af x G + grad_af x G *m invmx x *m eta)) /\
  (forall eta xi e f, symmetric eta -> symmetric xi -> symmetric e -> symmetric f -> inner e xi = inner f eta ->
     metric_af x (hess_af x G eta e) xi = metric_af x (hess_af x G xi f) eta).
Proof.
move=> Hc HG; split=> [eta dG He HdG|eta xi e f H1 H2 H3 H4]; last exact: (hess_af_self Hc).
by split; [exact: (hess_af_sym Hc)|exact: (hess_af_derivative Hc)].
Qed.
Lemma spd_coordinates x L : is_chol x L ->
  (forall eta xi, symmetric eta -> symmetric xi -> vdot (intr_af L eta) (intr_af L xi) = metric_af x eta xi) /\
  (forall eta, size (intr_af L eta) = (n * (n + 1) %/ 2)%N) /\
  (forall u, symmetric (extr_af L u)) /\
  (forall eta, symmetric eta -> extr_af L (intr_af L eta) = eta) /\
  (forall u, size u = (n * (n + 1) %/ 2)%N -> intr_af L (extr_af L u) = u).
Proof.
move=> Hc; do ?split=> *; [exact: (intr_af_inner Hc)|exact: pack_size|exact: extr_af_sym|exact: (intr_extr_af Hc)|exact: (extr_intr_af Hc)].
Qed.
Lemma spd_coordinates_euc :
  (forall eta xi : ext, symmetric eta -> symmetric xi -> vdot (intr_euc eta) (intr_euc xi) = metric_euc eta xi) /\
  (forall eta : ext, size (intr_euc eta) = (n * (n + 1) %/ 2)%N) /\
  (forall u : seq R, symmetric (extr_euc n u)) /\
  (forall eta : ext, symmetric eta -> extr_euc n (intr_euc eta) = eta) /\
  (forall u : seq R, size u = (n * (n + 1) %/ 2)%N -> intr_euc (extr_euc n u) = u).
Proof.
do ?split=> *; [by rewrite /metric_euc dotE; exact: pack_inner|exact: pack_size|exact: unpack_sym|exact: unpack_pack|exact: pack_unpack].
Qed.
Lemma spd_projection_ok (A : ext) :
  symmetric (spd_projection A) /\ (symmetric A -> spd_projection A = A) /\
  (forall S, symmetric S -> inner (A - spd_projection A) S = 0) /\
  (forall S, symmetric S -> inner (A - spd_projection A) (A - spd_projection A) <= inner (A - S) (A - S)).
Proof.
have Hs : symmetric (spd_projection A) by rewrite projectionE; apply: symmetricZ; exact: symC.
have Ho S : symmetric S -> inner (A - spd_projection A) S = 0.
  move=> HS; rewrite innerC; apply: inner_sym_skew => //.
  rewrite projectionE /skew trD trN trZ trD trmxK.
  by mxlin R; rewrite /half; fld R.
split=> //; split; first by move=> HA; rewrite projectionE HA; mxlin R; rewrite /half; fld R.
split=> // S HS; set P := spd_projection A in Hs Ho *.
have -> : A - S = (A - P) + (P - S) by rewrite addrA subrK.
have HPS : inner (A - P) (P - S) = 0 by apply: Ho; rewrite /symmetric trD trN Hs HS.
move: (A - P) (P - S) HPS => U W HPS.
by rewrite innerDl !innerDr [inner W U]innerC HPS addr0 add0r ler_addl inner_ge0.
Qed.
Lemma spd_second_order x L eta : is_chol x L -> symmetric eta ->
  posdef (secord_retr x L eta) /\ secord_retr x L 0 = x /\
  (forall t : R, secord_retr x L (t *: eta) = x + t *: eta + t ^+ 2 *: ((2%:R)^-1 *: (eta *m invmx x *m eta))) /\
  (forall xi, symmetric xi -> symmetric (diff_secord L eta xi) /\
     forall t : R, secord_retr x L (eta + t *: xi) =
       secord_retr x L eta + t *: diff_secord L eta xi + t ^+ 2 *: ((2%:R)^-1 *: (xi *m invmx x *m xi))).
Proof.
move=> Hc He; split; first exact: (secord_posdef Hc); split; first exact: (secord0 Hc).
split=> [t|xi Hx]; last by split=> [|t]; [exact: (diff_secord_sym Hc)|exact: (diff_secord_ok Hc)].
rewrite (secordE Hc); last by rewrite /symmetric trZ He.
by rewrite !mulZl !mulZr; move: (eta *m invmx x *m eta) => A; mxlin R; rewrite /half; fld R.
Qed.
Lemma spd_exponential (EIG : ext -> ext * 'rV[R]_n) (fexp : R -> R) x L eta :
  is_chol x L -> symmetric eta -> (forall t : R, eig_at EIG (whiten L (t *: eta))) ->
  (forall a, 0 < fexp a) -> (forall a b, fexp (a + b) = fexp a * fexp b) ->
  (forall t : R, posdef (exp_retr EIG fexp L (t *: eta))) /\
  exp_retr EIG fexp L 0 = x /\
  (forall V lam, is_eig (whiten L eta) V lam -> forall t : R,
     exp_retr EIG fexp L (t *: eta) = L *m (V *m diag_mx (\row_j fexp (t * lam 0 j)) *m V^T) *m L^T) /\
  (forall s t : R, exp_retr EIG fexp L (s *: eta) *m invmx x *m exp_retr EIG fexp L (t *: eta) =
     exp_retr EIG fexp L ((s + t) *: eta)).
Proof.
move=> Hc He HE Hp Hf; have F0 : fexp 0 = 1.
  have := Hf 0 0; rewrite addr0 => E; have N0 : fexp 0 != 0 by rewrite gt_eqF.
  by apply: (mulIf N0); rewrite mul1r -E.
split; first by move=> t; apply: (exp_posdef Hc) => //; rewrite /symmetric trZ He.
split; first by apply: (exp0 Hc) => //; have := HE 0; rewrite scale0r.
split=> [V lam HV t|s t]; first exact: exp_curve.
exact: (exp_group Hc).
Qed.
Lemma spd_transport x y Lx Ly : is_chol x Lx -> is_chol y Ly ->
  (forall xi zeta, symmetric xi -> symmetric zeta ->
     symmetric (transport_af Lx Ly xi) /\
     metric_af y (transport_af Lx Ly xi) (transport_af Lx Ly zeta) = metric_af x xi zeta /\
     transport_af Ly Lx (transport_af Lx Ly xi) = xi /\ transport_af Lx Lx xi = xi /\
     transport_euc xi = xi) /\
  (forall u, size u = (n * (n + 1) %/ 2)%N -> transport_af Lx Ly (extr_af Lx u) = extr_af Ly (transport_intr u)).
Proof.
move=> Hx Hy; split=> [xi zeta H1 H2|u Hu]; last by rewrite /transport_af (extr_intr_af Hx).
split; first exact: extr_af_sym; split; first exact: (transport_af_iso Hx Hy).
split; first exact: (transport_af_inv Hx Hy); split; [exact: (transport_af_id Hx)|exact: transport_euc_id].
Qed.
Lemma spd_distances (a b c : ext) :
  (dist_euc a b = 0 <-> a = b) /\ dist_euc a b = dist_euc b a /\ dist_euc a c <= dist_euc a b + dist_euc b c.
Proof. by split; [exact: dist_euc_zero|split; [exact: dist_euc_sym|exact: dist_euc_triangle]]. Qed.
Lemma spd_distance_wrong (EIG : ext -> ext * 'rV[R]_n) x L : (0 < n)%N -> is_chol x L -> eig_at EIG 1%:M ->
  dist_af EIG L L = Num.sqrt n%:R /\ dist_af EIG L L != 0.
Proof.
move=> Hn Hc HE; rewrite (dist_self Hc HE); split=> //.
by rewrite sqrtr_eq0 -ltNge ltr0n.
Qed.
Lemma spd_translation_wrong (EIG : ext -> ext * 'rV[R]_n) (fexp : R -> R) x y L eta xi :
  is_chol x L -> symmetric xi -> xi <> 0 ->
  par_translation EIG fexp L eta xi = 0 /\ 0 < metric_af x xi xi /\
  metric_af y (par_translation EIG fexp L eta xi) (par_translation EIG fexp L eta xi) = 0.
Proof.
move=> Hc Hs H0; rewrite par_zero; split=> //; split; first by have [_ [_]] := spd_metric Hc Hs Hs; exact.
by rewrite /metric_af dotE inner0r.
Qed.
End facts.

Section cases.
Variable R : rcfType.
Add Field spdc_field : (rcf_field R).
Definition dL : 'M[R]_2 := mx _ _ [:: [:: 1; 0]; [:: 1; 1 + 1]].
Definition dx : 'M[R]_2 := mx _ _ [:: [:: 1; 1]; [:: 1; 1 + 1 + 1 + 1 + 1]].
Definition deta : 'M[R]_2 := mx _ _ [:: [:: 1; 1]; [:: 1; 1]].
Definition ddelta : 'M[R]_2 := mx _ _ [:: [:: 0; 1]; [:: 0; 0]].
Definition dswap : 'M[R]_2 := mx _ _ [:: [:: 0; 1]; [:: 1; 0]].
Lemma dL_chol : is_chol dx dL.
Proof.
split; first by mxcase; rng R.
  by case=> [[|[|//]] ?]; case=> [[|[|//]] ?] //=; rewrite !mxE.
by case=> [[|[|//]] ?]; rewrite !mxE /= ?addr_gt0 ?ltr01.
Qed.
Lemma id_chol n : is_chol (1%:M : 'M[R]_n) 1%:M.
Proof.
split; first by rewrite trmx1 mulmx1.
  by move=> i j Hij; rewrite mxE (_ : (i == j) = false) //; apply/eqP => E; rewrite E ltnn in Hij.
by move=> i; rewrite mxE eqxx ltr01.
Qed.
Lemma deta_sym : symmetric deta.
Proof. by rewrite /symmetric; mxcase. Qed.
Lemma deta_neq0 : deta <> 0.
Proof. by move=> /matrixP /(_ 0 0); rewrite !mxE /= => /eqP; rewrite oner_eq0. Qed.
Lemma eig_one n : eig_at (fun _ => (1%:M, const_mx 1)) (1%:M : 'M[R]_n).
Proof.
split=> /=; last by rewrite /orthonormal trmx1 mulmx1.
by rewrite diag_const_mx trmx1 !mulmx1.
Qed.
(** eta = e1 e1^T in the coordinates of dL: L^{-1} eta L^{-T} = e1 e1^T, and t eta likewise. *)
Definition deig (S : 'M[R]_2) : 'M[R]_2 * 'rV[R]_2 := (1%:M, \row_j S j j).
Lemma deta_white : whiten dL deta = mx _ _ [:: [:: 1; 0]; [:: 0; 0]].
Proof.
have E : deta = dL *m mx _ _ [:: [:: 1; 0]; [:: 0; 0]] *m dL^T.
  by mxcase; rewrite ?big_ord_recr ?big_ord0 /= ?mxE /=; rng R.
rewrite E (rewhiten dL_chol) // /symmetric; by mxcase.
Qed.
Lemma deig_ok t : eig_at deig (whiten dL (t *: deta)).
Proof.
rewrite whitenZ; last exact: deta_sym.
rewrite deta_white; split=> /=; last by rewrite /orthonormal trmx1 mulmx1.
by rewrite trmx1 mulmx1 mul1mx; mxcase; rng R.
Qed.
(** A Euclidean gradient that is not symmetric: that of the function x -> x12. *)
Lemma spd_gradient_wrong : exists x L egf xi : 'M[R]_2, is_chol x L /\ symmetric xi /\
  ~ symmetric (grad_af x egf) /\ ~ symmetric (grad_euc egf) /\
  vdot (intr_af L (grad_af x egf)) (intr_af L xi) <> inner egf xi.
Proof.
exists 1%:M, 1%:M, ddelta, dswap; split; first exact: id_chol.
have Hs : symmetric dswap by rewrite /symmetric; mxcase.
have Hg : grad_af 1%:M ddelta = ddelta by rewrite (grad_afE (id_chol 2)) mulmx1 mul1mx.
have Hn : ~ symmetric ddelta.
  by move=> /matrixP /(_ 0 1); rewrite !mxE /= => /esym/eqP; rewrite oner_eq0.
rewrite Hg; split=> //; split=> //; split=> //.
have W (A : 'M[R]_2) : whiten 1%:M A = A^T by rewrite /whiten /tri_sol invmx1 !mul1mx.
rewrite /intr_af !W Hs.
have -> : pack ddelta^T = pack dswap.
  rewrite /pack; congr (_ ++ _).
    by apply: eq_map; case=> [[|[|//]] ?]; rewrite !mxE.
  apply/eq_in_map => [[i j]]; rewrite upper_mem /= => Hij; congr (_ * _).
  by move: i j Hij; case=> [[|[|//]] ?]; case=> [[|[|//]] ?] //= _; rewrite !mxE.
rewrite pack_inner // -!dotE /dot !big_ord_recr !big_ord0 /= ?big_ord_recr ?big_ord0 /= !mxE /=.
rewrite !(mul0r, mulr0, mulr1, addr0, add0r) => /eqP.
by rewrite -subr_eq0 addrK oner_eq0.
Qed.
End cases.

(** The real exponential function. *)
Lemma exp_positive (a : R) : 0 < exp a.
Proof. by apply/RltP; exact: exp_pos. Qed.
Lemma exp_additive (a b : R) : exp (a + b) = exp a * exp b.
Proof. exact: exp_plus. Qed.
