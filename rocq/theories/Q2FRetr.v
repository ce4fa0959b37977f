(** Proofs about the two retractions of FixedRankQ2F. *)
From mathcomp Require Import all_ssreflect all_algebra.
Require Import Ring Field.
From Verif Require Import MxTac StiefelModel StiefelSpec StiefelProofs StiefelPolar StiefelRetr SPDSpec SPDProofs SymFRSpec SymFRProofs Decomp Eckart.
From Verif Require Import Q2FModel Q2FSpec Q2FProofs.
Import Order.TTheory GRing.Theory Num.Theory.
Set Implicit Arguments.
Unset Strict Implicit.
Local Open Scope ring_scope.

Section simple.
Variable R : rcfType.
Add Field q2fr_field : (rcf_field R).
Variables r a b : nat.
Local Notation vec := (pair_ R r a b).
Implicit Types x y eta xi : vec.
Lemma retr_product x eta : product (retraction x eta) = product x + lift x eta + fst_ eta *m (snd_ eta)^T.
Proof. by rewrite /product /lift /= trD mulmxDl !mulmxDr -!addrA; congr (_ + _); rewrite addrCA. Qed.
Lemma retr_zero x : retraction x (zerop R r a b) = x.
Proof. by apply: pair_eq; rewrite /= addr0. Qed.
Lemma retr_second x eta :
  second_order (fun t => product (retraction x (scalep t eta))) (fun t => product x + t *: lift x eta).
Proof.
exists (inner (fst_ eta *m (snd_ eta)^T) (fst_ eta *m (snd_ eta)^T)) => t.
rewrite retr_product liftZ [X in X - _]addrC addrK /= trZ mulZl mulZr scalerA innerZl innerZr.
set c := inner _ _; suff -> : t * t * (t * t * c) = c * t ^+ 4 by [].
by rewrite mulrA [RHS]mulrC !exprS expr0 mulr1 !mulrA.
Qed.
Lemma retr_add x eta xi : retraction x (addp eta xi) = retraction (retraction x eta) xi.
Proof. by apply: pair_eq; rewrite /= addrA. Qed.
Lemma diff_second CHOL x eta xi (y := retraction x eta) : chol_ok CHOL -> is_point y ->
  horizontal y (diff_retraction CHOL y xi) /\
  second_order (fun t => product (retraction x (addp eta (scalep t xi))))
    (fun t => product y + t *: lift y (diff_retraction CHOL y xi)).
Proof.
move=> HC Hy; split; first exact: (proj_hor HC Hy).
rewrite /diff_retraction proj_lift //; have [C H] := retr_second y xi; exists C => t.
by rewrite retr_add.
Qed.
Lemma retr_near x : is_point x -> exists2 d, 0 < d & forall eta, pairing eta eta < d -> is_point (retraction x eta).
Proof.
move=> [HG HH].
pose KG := fst_ x *m invmx ((fst_ x)^T *m fst_ x); pose KH := snd_ x *m invmx ((snd_ x)^T *m snd_ x).
have EG : KG^T *m fst_ x = 1%:M by rewrite /KG trM (Ci_sym (fst_ x)) (Cixx0 HG).
have EH : KH^T *m snd_ x = 1%:M by rewrite /KH trM (Ci_sym (snd_ x)) (Cixx0 HH).
pose c := inner KG KG + inner KH KH + 1.
have PG := inner_ge0 KG; have PH := inner_ge0 KH.
have Pc : 0 < c by rewrite ltr_paddl ?addr_ge0 // ltr01.
exists c^-1; rewrite ?invr_gt0 // => eta Heta.
have H1 : pairing eta eta * c < 1 by rewrite -(mulVf (lt0r_neq0 Pc)) ltr_pmul2r.
have P1 := inner_ge0 (fst_ eta); have P2 := inner_ge0 (snd_ eta).
split; [apply: (full_near EG)|apply: (full_near EH)]; apply: le_lt_trans H1; apply: ler_pmul => //.
- by rewrite /pairing ler_addl.
- by rewrite /c -addrA ler_addl addr_ge0 ?ler01.
- by rewrite /pairing ler_addr.
by rewrite /c addrAC ler_addr addr_ge0 ?ler01.
Qed.
Lemma point_hor x : is_point x -> horizontal x x.
Proof. by move=> _; exists 1%:M, 0, 0; rewrite !mulmx0 !mulmx1 trmx1 mulmx1 !addr0. Qed.
Lemma hor_scale x t eta : horizontal x eta -> horizontal x (scalep t eta).
Proof.
move=> [K [Z1 [Z2 [E1 E2 E3 E4]]]]; exists (t *: K), (t *: Z1), (t *: Z2).
by rewrite !mulZr E1 E2 !scaler0 /= E3 E4 trZ !mulZr !scalerDr.
Qed.
Lemma zero_not_full m n : (0 < n)%N -> ~ full_rank (0 : 'M[R]_(m, n)).
Proof.
case: n => // n _ H; have := H (const_mx 1) (mul0mx _ _).
by move/matrixP/(_ 0 0); rewrite !mxE => /eqP; rewrite oner_eq0.
Qed.
Lemma retr_collapse x : (0 < r)%N -> is_point x ->
  exists eta, [/\ horizontal x eta, ~ is_point (retraction x eta) & product x + lift x eta = - product x].
Proof.
move=> Hr Hx; exists (scalep (-1) x); split; first by apply: hor_scale; exact: point_hor.
  by move=> [H _]; apply: (@zero_not_full (r + a) r) => //; rewrite -(subrr (fst_ x)) -scaleN1r; exact: H.
rewrite liftZ scaleN1r /lift -/(product x) opprD addrA subrr sub0r //.
Qed.
End simple.

Section projected.
Variable R : rcfType.
Add Field q2fr_field2 : (rcf_field R).
Variables r a b : nat.
Local Notation vec := (pair_ R r a b).
Variables (QRa : 'M[R]_(r + a, r + r) -> 'M[R]_(r + a, r + r) * 'M[R]_(r + r))
  (QRb : 'M[R]_(r + b, r + r) -> 'M[R]_(r + b, r + r) * 'M[R]_(r + r))
  (SVD : 'M[R]_(r + r) -> 'M[R]_(r + r) * 'rV[R]_(r + r) * 'M[R]_(r + r)).
Hypotheses (Ha : forall A, qr_at QRa A) (Hb : forall A, qr_at QRb A) (Hs : forall A, svd_desc SVD A).
Hypotheses (Hra : (r <= a)%N) (Hrb : (r <= b)%N).
Implicit Types x y eta xi : vec.
Lemma l_orth m k (W : 'M[R]_(m, r + k)) : orthonormal W -> orthonormal (lsubmx W).
Proof.
move=> HW; rewrite /orthonormal; have := congr1 ulsubmx HW.
rewrite -{1 2}(hsubmxK W) tr_row_mx mul_col_row block_mxKul => ->.
by apply/matrixP => i j; rewrite !mxE.
Qed.
Lemma rank_svd m n (U : 'M[R]_(m, r + r)) (V : 'M[R]_(n, r + r)) (s : 'rV[R]_(r + r)) (T := U *m diag_mx s *m V^T) :
  orthonormal U -> orthonormal V -> (forall i, 0 <= s 0 i) -> (forall i j : 'I_(r + r), (i <= j)%N -> s 0 j <= s 0 i) ->
  (forall i, lsubmx s 0 i != 0) <-> (r <= \rank T)%N.
Proof.
move=> HU HV H0 Hd; have OU := l_orth HU; have OV := l_orth HV.
pose Y := lsubmx U *m diag_mx (lsubmx s) *m (lsubmx V)^T.
have W : (lsubmx U)^T *m T *m lsubmx V = diag_mx (lsubmx s).
  have -> : T = Y + U *m diag_mx (row_mx 0 (rsubmx s)) *m V^T.
    by rewrite -truncate [RHS]addrC subrK.
  rewrite mulmxDr mulmxDl {1}/Y !mulmxA OU mul1mx -!mulmxA OV mulmx1.
  have -> : (lsubmx U)^T *m (U *m (diag_mx (row_mx 0 (rsubmx s)) *m (V^T *m lsubmx V))) = 0; last by rewrite addr0.
  have EU : (lsubmx U)^T *m U = row_mx 1%:M 0.
    have := congr1 usubmx (HU : U^T *m U = 1%:M).
    rewrite -{1}(hsubmxK U) tr_row_mx mul_col_mx col_mxKu => ->.
    apply/matrixP => i j; rewrite !mxE; case: splitP => k Ek; rewrite mxE.
      by congr ((nat_of_bool _)%:R); rewrite -!val_eqE /= Ek.
    by case: eqP => // /(congr1 val) /= E; have := ltn_ord i; rewrite E Ek ltnNge leq_addr.
  rewrite mulmxA EU mulmxA.
  have -> : row_mx 1%:M 0 *m diag_mx (row_mx 0 (rsubmx s)) = 0 :> 'M[R]_(r, r + r); last by rewrite mul0mx.
  apply/matrixP => i j; rewrite mul_mx_diag !mxE; case: splitP => k _; rewrite !mxE ?mulr0 ?mul0r //.
have US : (forall i, lsubmx s 0 i != 0) <-> diag_mx (lsubmx s) \in unitmx.
  rewrite unitmxE unitfE det_diag; split=> [H|/prodf_neq0 H i]; [exact/prodf_neq0|exact: H].
split=> [/US H|H].
  have : \rank (diag_mx (lsubmx s)) = r by apply: mxrank_unit.
  move=> <-; rewrite -W; apply: leq_trans (mxrankM_maxl _ _) _; exact: mxrankM_maxr.
move=> i; apply/eqP => E0.
have Z : row_mx (0 : 'rV[R]_r) (rsubmx s) = 0.
  apply/matrixP => z j; rewrite ord1 !mxE; case: splitP => k _; rewrite !mxE //.
  apply/eqP; rewrite eq_le H0 andbT; move: E0; rewrite mxE => <-.
  by apply: Hd => /=; apply: leq_trans (ltnW (ltn_ord i)) (leq_addr _ _).
have ET : T = lsubmx U *m diag_mx (lsubmx s) *m (lsubmx V)^T.
  have := truncate U V s; rewrite Z raddf0 mulmx0 mul0mx => /eqP; rewrite subr_eq0 => /eqP E; exact: E.
have : (r <= \rank (diag_mx (lsubmx s)))%N.
  apply: leq_trans H _; rewrite ET; apply: leq_trans (mxrankM_maxl _ _) _; exact: mxrankM_maxr.
rewrite leqNgt ltn_neqAle rank_leq_row andbT negbK => Hf.
have : diag_mx (lsubmx s) \in unitmx by rewrite -row_free_unit.
by move/US/(_ i); rewrite E0 eqxx.
Qed.
Section run.
Variables x eta : vec.
Local Notation T := (product x + lift x eta).
Let A1 := row_mx (fst_ x) (fst_ eta).
Let A2 := row_mx (snd_ x) (snd_ eta).
Let SM : 'M[R]_(r + r) := block_mx 1%:M 1%:M 1%:M 0.
Let M := (QRa A1).2 *m SM *m (QRb A2).2^T.
Let U := (QRa A1).1 *m (SVD M).1.1.
Let V := (QRb A2).1 *m (SVD M).2^T.
Let s := (SVD M).1.2.
Let sq : 'rV[R]_r := lsubmx (\row_i Num.sqrt (s 0 i)).
Lemma SM_E : A1 *m SM *m A2^T = T.
Proof.
rewrite /A1 /A2 /SM mul_row_block !mulmx1 mulmx0 addr0 tr_row_mx mul_row_col mulmxDl.
by rewrite /product /lift -addrA.
Qed.
Lemma targetE : T = U *m diag_mx s *m V^T.
Proof.
have [Ea _ _] := Ha A1; have [Eb _ _] := Hb A2; have [[Es _ _ _] _] := Hs M.
rewrite -SM_E {1}Ea {1}Eb trM !mulmxA -[_ *m (QRa A1).2 *m SM]mulmxA -[_ *m (_ *m SM) *m _]mulmxA -/M.
by rewrite Es /U /V /s trM trmxK !mulmxA.
Qed.
Lemma U_orth : orthonormal U.
Proof.
have [_ Oa _] := Ha A1; have [[_ OU _ _] _] := Hs M.
by rewrite /U /orthonormal trM !mulmxA -[_ *m (QRa A1).1^T *m _]mulmxA Oa mulmx1.
Qed.
Lemma V_orth : orthonormal V.
Proof.
have [_ Ob _] := Hb A2; have [[_ _ OV _] _] := Hs M.
by rewrite /V /orthonormal trM !mulmxA -[_ *m (QRb A2).1^T *m _]mulmxA Ob mulmx1.
Qed.
Lemma s_ge0 i : 0 <= s 0 i.
Proof. by have [[_ _ _ H] _] := Hs M. Qed.
Lemma s_desc (i j : 'I_(r + r)) : (i <= j)%N -> s 0 j <= s 0 i.
Proof. by have [_] := Hs M; apply. Qed.
Lemma lsub_mul m n (P : 'M[R]_(m, n)) q k (B : 'M[R]_(n, q + k)) : lsubmx (P *m B) = P *m lsubmx B.
Proof. by rewrite -{1}(hsubmxK B) mul_mx_row row_mxKl. Qed.
Lemma proj_some : proj_retraction QRa QRb SVD x eta = Some (Pair (lsubmx U *m diag_mx sq) (lsubmx V *m diag_mx sq)).
Proof.
rewrite /proj_retraction !ltn_add2l ltnNge Hra ltnNge Hrb /= -/A1 -/A2.
rewrite /U /V /sq /s !lsub_mul /M.
by case: (QRa A1) => [q1 r1]; case: (QRb A2) => [q2 r2] /=; case: (SVD _) => [[u sv] vt].
Qed.
Lemma sqE : diag_mx sq *m diag_mx sq = diag_mx (lsubmx s).
Proof.
rewrite mulmx_diag; congr diag_mx; apply/matrixP => i j; rewrite ord1 !mxE -expr2 sqr_sqrtr //.
exact: s_ge0.
Qed.
Definition run_y : vec := Pair (lsubmx U *m diag_mx sq) (lsubmx V *m diag_mx sq).
Lemma run_product : product run_y = lsubmx U *m diag_mx (lsubmx s) *m (lsubmx V)^T.
Proof. by rewrite /product /= trM tr_diag_mx mulmxA -[_ *m diag_mx sq *m diag_mx sq]mulmxA sqE. Qed.
Lemma run_nearest z : inner (T - product run_y) (T - product run_y) <= inner (T - product z) (T - product z).
Proof.
rewrite run_product targetE; apply: eckart_young; [exact: U_orth|exact: V_orth|exact: s_ge0|exact: s_desc|exact: leq_addr].
Qed.
Lemma diag_full m (W : 'M[R]_(m, r)) (d : 'rV[R]_r) : orthonormal W -> full_rank (W *m diag_mx d) <-> forall i, d 0 i != 0.
Proof.
move=> HW; split=> [H i|H v].
  apply/eqP => E0; have := H (delta_mx i 0).
  rewrite -mulmxA -colE; have -> : col i (diag_mx d) = 0.
    by apply/matrixP => k l; rewrite !mxE; case: eqP => [->|]; rewrite ?E0 ?mul0rn ?mulr0n.
  by rewrite mulmx0 => /(_ erefl) /matrixP /(_ i 0); rewrite !mxE !eqxx => /eqP; rewrite oner_eq0.
rewrite -mulmxA => /(congr1 (mulmx W^T)); rewrite mulmxA HW mul1mx mulmx0 => /matrixP E.
apply/matrixP => i j; have := E i j; rewrite mul_diag_mx !mxE => /eqP; rewrite mulf_eq0 (negbTE (H i)) /=.
by move/eqP.
Qed.
Lemma run_point : is_point run_y <-> (r <= \rank T)%N.
Proof.
have OU := l_orth U_orth; have OV := l_orth V_orth.
have D : (forall i, sq 0 i != 0) <-> forall i, lsubmx s 0 i != 0.
  split=> H i; have := H i; rewrite !mxE; apply: contra => /eqP E; rewrite ?E ?sqrtr0 //.
  have := s_ge0 (lshift r i); move: E => /eqP; rewrite sqrtr_eq0 => E1 E2.
  by rewrite eq_le E1.
have P : is_point run_y <-> forall i, lsubmx s 0 i != 0.
  rewrite -D /is_point /= (diag_full _ OU) (diag_full _ OV); by split=> [[]|].
rewrite P targetE; exact: (rank_svd U_orth V_orth s_ge0 s_desc).
Qed.
End run.
Lemma proj_retr_spec x eta : exists y, [/\ proj_retraction QRa QRb SVD x eta = Some y,
  forall z, inner (product x + lift x eta - product y) (product x + lift x eta - product y) <=
    inner (product x + lift x eta - product z) (product x + lift x eta - product z) &
  is_point y <-> (r <= \rank (product x + lift x eta)%R)%N].
Proof.
exists (run_y x eta); split; [exact: proj_some|exact: run_nearest|exact (run_point x eta)].
Qed.
Lemma proj_retr_exact x eta y z : proj_retraction QRa QRb SVD x eta = Some y ->
  product x + lift x eta = product z -> product y = product z.
Proof.
have [y' [E N _]] := proj_retr_spec x eta; rewrite E => [[<-]] Ez.
have := N z; rewrite Ez subrr inner0l => H; apply/esym/subr0_eq/inner_eq0/eqP.
by rewrite eq_le H inner_ge0.
Qed.
Lemma proj_retr_second x eta (y : R -> vec) : (forall t, proj_retraction QRa QRb SVD x (scalep t eta) = Some (y t)) ->
  second_order (fun t => product (y t)) (fun t => product x + t *: lift x eta).
Proof.
move=> Hy; have [C HC] := retr_second x eta; exists C => t; apply: le_trans (HC t).
have [y' [E N _]] := proj_retr_spec x (scalep t eta); move: E; rewrite Hy => [[->]].
rewrite -[product y' - _]opprB innerNl innerNr opprK -[product (retraction _ _) - _]opprB [in X in _ <= X]innerNl [in X in _ <= X]innerNr opprK.
by rewrite -liftZ; exact: N.
Qed.
End projected.
