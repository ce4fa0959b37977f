(** Proofs about the coordinates of tangent and normal vectors of the complex Stiefel manifold. *)
From mathcomp Require Import all_ssreflect all_algebra.
From mathcomp.real_closed Require Import complex.
Require Import Ring Field.
From Verif Require Import MxTac StiefelModel StiefelSpec StiefelIntr CStieSpec CStieModel CMx CStieProofs CStieRetr.
Import Order.TTheory GRing.Theory Num.Theory.
Set Implicit Arguments.
Unset Strict Implicit.
Local Open Scope ring_scope.
Local Open Scope complex_scope.

Section lists.
Variable R : rcfType.
Implicit Types v w : seq R.
Definition twos (T : Type) (f g : T -> R) (s : seq T) : seq R := flatten [seq [:: f e; g e] | e <- s].
Lemma twos_size (T : Type) (f g : T -> R) s : size (twos f g s) = (size s).*2.
Proof. by elim: s => [//|e s IH]; rewrite /twos /= -/(twos f g s) IH doubleS. Qed.
Lemma twos_nth (T : eqType) (f g : T -> R) s e v : e \in s ->
  nth 0 (twos f g s ++ v) (index e s).*2 = f e /\ nth 0 (twos f g s ++ v) (index e s).*2.+1 = g e.
Proof.
elim: s => [//|a s IH]; rewrite inE /twos /= -/(twos f g s) eq_sym.
by case: eqP => [->|_] //= /IH [H1 H2]; rewrite doubleS /=; split.
Qed.
Lemma twos_vdot (T : Type) (f g f' g' : T -> R) s :
  vdot (twos f g s) (twos f' g' s) = \sum_(e <- s) (f e * f' e + g e * g' e).
Proof.
elim: s => [|e s IH]; first by rewrite big_nil /vdot big_ord0.
rewrite big_cons -IH /twos /= -!/(twos _ _ s) /vdot /=.
by rewrite !big_ord_recl /= addrA.
Qed.
Lemma twos_ext (T : eqType) (f g f' g' : T -> R) s : {in s, f =1 f'} -> {in s, g =1 g'} -> twos f g s = twos f' g' s.
Proof. by move=> H1 H2; rewrite /twos; congr (flatten _); apply/eq_in_map => e He; rewrite H1 ?H2. Qed.
Lemma twos_cons (T : Type) (f g : T -> R) e s : twos f g (e :: s) = [:: f e, g e & twos f g s].
Proof. by []. Qed.
Lemma twos_map (T U : Type) (h : U -> T) (f g : T -> R) s : twos f g (map h s) = twos (fun u => f (h u)) (fun u => g (h u)) s.
Proof. by rewrite /twos -map_comp. Qed.
Lemma twos_iota m w : size w = m.*2 -> twos (fun i => nth 0 w i.*2) (fun i => nth 0 w i.*2.+1) (iota 0 m) = w.
Proof.
elim: m w => [|m IH] w; first by case: w.
rewrite doubleS; case: w => [//|a [//|b w]] [Hw].
rewrite [iota 0 m.+1]/=.
rewrite -[1%N]addn0 iotaDl twos_cons twos_map /=; congr [:: _, _ & _]; rewrite -[RHS](IH w Hw).
by rewrite /twos; congr (flatten _); apply: eq_map => i /=; rewrite add1n doubleS.
Qed.
Lemma map_index_iota (T : eqType) (s : seq T) : uniq s -> [seq index e s | e <- s] = iota 0 (size s).
Proof.
move=> Hs; apply: (@eq_from_nth _ 0%N); first by rewrite size_map size_iota.
rewrite size_map => i Hi; case: s Hs Hi => [//|e0 s] Hs Hi.
by rewrite (nth_map e0) // index_uniq // nth_iota.
Qed.
Lemma twos_index (T : eqType) (s : seq T) w : uniq s -> size w = (size s).*2 ->
  twos (fun e => nth 0 w (index e s).*2) (fun e => nth 0 w (index e s).*2.+1) s = w.
Proof.
move=> Hs Hw; rewrite -[RHS](twos_iota Hw) -map_index_iota // /twos -map_comp.
by [].
Qed.
End lists.

Lemma evenpp p : ((p * p.-1)./2.*2 = p * p.-1)%N.
Proof.
have H := odd_double_half (p * p.-1); rewrite -[RHS]H oddM.
by case: (p) => // q /=; rewrite andNb.
Qed.

Section intr.
Variable R : rcfType.
Local Notation C := R[i].
Local Notation re := (@complex.Re R).
Local Notation im := (@complex.Im R).
Add Field cintr_field : (rcf_field R).
Variables p k : nat.
Local Notation ext := 'M[C]_(p + k, p).
Implicit Types x y eta xi : ext.
Implicit Type v : seq R.
Implicit Types (Q : 'M[C]_(p + k)) (r : 'M[C]_p).

Definition cframe x Q r := unitary Q /\ adj Q *m x = col_mx (diag_mx (csgn_row r)) 0.
Lemma chhr_frame x Q r : unitary x -> is_chhr x Q r -> cframe x Q r.
Proof.
move=> Hx [HQ HF Hu Hd]; split=> //; rewrite HF; congr col_mx.
have Ho : unitary r.
  have : adj (adj Q *m x) *m (adj Q *m x) = 1%:M.
    by rewrite adjM adjK mulmxA -[adj x *m Q *m adj Q]mulmxA (mulmx1C HQ) mulmx1.
  by rewrite HF adj_col_mx mul_row_col adj0 mul0mx addr0.
apply/matrixP => i j; rewrite !mxE; have [H1 H2] := cupper_unitary Hu Hd Ho i j.
case: (altP (i =P j)) => [E|/H2 //]; rewrite -E mulr1n; move/eqP: H1; rewrite sqrf_eq1.
case/orP => /eqP -> /=; first by rewrite ltNge ler01.
by rewrite oppr_lt0 ltr01.
Qed.
Lemma lsub_unitary Q : unitary Q -> adj (lsubmx Q) *m lsubmx Q = 1%:M :> 'M_p /\ adj (rsubmx Q) *m lsubmx Q = 0.
Proof.
move=> HQ; have := HQ; rewrite /unitary -{1 2}(hsubmxK Q) adj_row_mx mul_col_row.
by rewrite (@scalar_mx_block _ p k 1) => /eq_block_mx [].
Qed.
Lemma chhr_qr (A : ext) Q r : is_chhr A Q r -> is_cqr A (lsubmx Q) r.
Proof.
move=> [HQ HF Hu Hd]; have EA : A = lsubmx Q *m r.
  have : Q *m (adj Q *m A) = A by rewrite mulmxA (mulmx1C HQ) mul1mx.
  by rewrite HF -{1}(hsubmxK Q) mul_row_col mulmx0 addr0.
by split=> //; have [] := lsub_unitary HQ.
Qed.
Lemma chhr_frame_qf (A : ext) Q r : is_chhr A Q r -> cframe (cfix_columns r (lsubmx Q)) Q r.
Proof.
move=> [HQ _ _ _]; split=> //; have [E1 E2] := lsub_unitary HQ.
rewrite cfix_columnsE mulmxA -{1}(hsubmxK Q) adj_row_mx mul_col_mx E1 E2 mul_col_mx mul1mx mul0mx //.
Qed.

Lemma sk_re n (A : 'M[C]_n) i j : skew_hermitian A -> re (A j i) = - re (A i j).
Proof. by move=> H; have := congr1 (fun B : 'M_n => re (B i j)) H; rewrite !mxE reJ reN. Qed.
Lemma sk_im n (A : 'M[C]_n) i j : skew_hermitian A -> im (A j i) = im (A i j).
Proof. by move=> H; have := congr1 (fun B : 'M_n => im (B i j)) H; rewrite !mxE imJ imN => /oppr_inj. Qed.
Lemma sk_diag n (A : 'M[C]_n) i : skew_hermitian A -> re (A i i) = 0.
Proof.
move=> H; have : re (A i i) *+ 2 = 0 by rewrite mulr2n {1}(sk_re i i H) addNr.
by move/eqP; rewrite mulrn_eq0 => /eqP.
Qed.

Lemma sqrt2_pair (a b : R) : Num.sqrt 2%:R * a * (Num.sqrt 2%:R * b) = (a * b) *+ 2.
Proof. by rewrite mulrACA (sqrt2_sq R) mulr_natl. Qed.

Section fr.
Variables (x : ext) (Q : 'M[C]_(p + k)) (r : 'M[C]_p).
Hypothesis HF : cframe x Q r.
Lemma cQQ : Q *m adj Q = 1%:M.
Proof. by case: HF => H _; apply: mulmx1C. Qed.
Lemma csgnM m (A : 'M[C]_(p, m)) : diag_mx (csgn_row r) *m (diag_mx (csgn_row r) *m A) = A.
Proof. by rewrite mulmxA csgn_sq mul1mx. Qed.
Lemma cframe_inv m (A : 'M[C]_(p + k, m)) : adj (adj Q *m x) *m (adj Q *m A) = adj x *m A.
Proof. by rewrite adjM adjK mulmxA -[adj x *m Q *m adj Q]mulmxA cQQ mulmx1. Qed.
Lemma cframe_unitary : unitary x.
Proof.
rewrite /unitary -cframe_inv; case: HF => _ ->.
by rewrite adj_col_mx mul_row_col adj0 mul0mx addr0 csgn_adj csgn_sq.
Qed.
Lemma cframe_top eta : cfix_rows r (usubmx (adj Q *m eta)) = adj x *m eta.
Proof.
rewrite -cframe_inv; case: HF => _ ->.
rewrite -{2}(vsubmxK (adj Q *m eta)) adj_col_mx mul_row_col adj0 mul0mx addr0 csgn_adj.
by rewrite cfix_rowsE.
Qed.
Lemma cframe_inner eta xi : cinner eta xi =
  cinner (adj x *m eta) (adj x *m xi) + cinner (dsubmx (adj Q *m eta)) (dsubmx (adj Q *m xi)).
Proof.
have -> : cinner eta xi = cinner (adj Q *m eta) (adj Q *m xi) by rewrite cinner_mull adjK mulmxA cQQ mul1mx.
rewrite -!cframe_top !cfix_rowsE; move: (adj Q *m eta) (adj Q *m xi) => A B.
rewrite [cinner (_ *m usubmx A) _]cinner_mull csgn_adj csgnM.
by rewrite /cinner -{1}(vsubmxK A) -{1}(vsubmxK B) adj_col_mx mul_row_col mxtraceD reD.
Qed.
Lemma cframe_join (T : 'M[C]_p) (B : 'M[C]_(k, p)) :
  adj x *m (Q *m col_mx (cfix_rows r T) B) = T /\ dsubmx (adj Q *m (Q *m col_mx (cfix_rows r T) B)) = B.
Proof.
have HQ : adj Q *m Q = 1%:M by case: HF.
rewrite -cframe_top mulmxA HQ mul1mx col_mxKu col_mxKd; split=> //.
by rewrite !cfix_rowsE csgnM.
Qed.
Lemma cframe_split eta : Q *m col_mx (cfix_rows r (adj x *m eta)) (dsubmx (adj Q *m eta)) = eta.
Proof. by rewrite -cframe_top !cfix_rowsE csgnM vsubmxK mulmxA cQQ mul1mx. Qed.

Lemma cintrE eta : ctangent x eta -> cobtain_intr Q r eta =
  [seq im ((adj x *m eta) i i) | i <- enum 'I_p] ++
  (twos (fun ij : 'I_p * 'I_p => Num.sqrt 2%:R * re ((adj x *m eta) ij.2 ij.1))
        (fun ij : 'I_p * 'I_p => Num.sqrt 2%:R * im ((adj x *m eta) ij.2 ij.1)) (upper_pairs p) ++
   twos (fun ij => re (dsubmx (adj Q *m eta) ij.2 ij.1)) (fun ij => im (dsubmx (adj Q *m eta) ij.2 ij.1)) (lower_pairs p k)).
Proof.
move=> He; rewrite /cobtain_intr cframe_top; congr (_ ++ (_ ++ _)); apply: twos_ext; move=> -[i j] _ /=.
  rewrite (sk_re j i He); move: (Num.sqrt _) => c.
  by fld R.
rewrite (sk_im j i He); move: (Num.sqrt _) => c.
by fld R.
Qed.
Lemma cintr_inner eta xi : ctangent x eta -> ctangent x xi ->
  vdot (cobtain_intr Q r eta) (cobtain_intr Q r xi) = cinner eta xi.
Proof.
move=> He Hx; rewrite !cintrE // vdot_cat ?size_map // vdot_cat ?twos_size // vdot_map !twos_vdot upper_sum lower_sum.
rewrite cframe_inner addrA; congr (_ + _).
  rewrite -[in RHS]cdotE /cdot sum_halves; last first.
    by move=> i j; rewrite (sk_re i j He) (sk_re i j Hx) (sk_im i j He) (sk_im i j Hx) mulrNN.
  rewrite big_enum /=; congr (_ + _).
    by apply: eq_bigr => i _; rewrite (sk_diag i He) mul0r add0r.
  rewrite -sumrMnl; apply: eq_bigr => i _; rewrite -sumrMnl; apply: eq_bigr => j _ /=.
  rewrite (sk_re i j He) (sk_re i j Hx) (sk_im i j He) (sk_im i j Hx).
  by rewrite !sqrt2_pair; rng R.
rewrite exchange_big -[in RHS]cdotE /cdot /=.
by apply: eq_bigr => j _; apply: eq_bigr => i _.
Qed.
Lemma cdim : (p + (size (upper_pairs p)).*2 + (size (lower_pairs p k)).*2 = 2 * (p + k) * p - p * p)%N.
Proof.
rewrite upper_size lower_size bin2.
have E : ((p * p.-1)./2.*2 = p * p.-1)%N.
  exact: evenpp.
have E1 : (p + p * p.-1 = p * p)%N by case: (p) => // q /=; rewrite -[X in (X + _)%N]muln1 -mulnDr add1n.
rewrite E E1 mul2n -doubleMl mulnDl doubleD -[(p * p).*2]addnn [(k * p)%N]mulnC.
by rewrite addnAC addnK.
Qed.
Lemma cintr_size eta : size (cobtain_intr Q r eta) = (2 * (p + k) * p - p * p)%N.
Proof.
rewrite /cobtain_intr !size_cat size_map size_enum_ord.
rewrite -/(twos (fun ij : 'I_p * 'I_p => Num.sqrt 2%:R * (re (cfix_rows r (usubmx (adj Q *m eta)) ij.2 ij.1) - re (cfix_rows r (usubmx (adj Q *m eta)) ij.1 ij.2)) / 2%:R) (fun ij : 'I_p * 'I_p => Num.sqrt 2%:R * (im (cfix_rows r (usubmx (adj Q *m eta)) ij.2 ij.1) + im (cfix_rows r (usubmx (adj Q *m eta)) ij.1 ij.2)) / 2%:R) (upper_pairs p)).
rewrite -/(twos (fun ij : 'I_p * 'I_k => re (dsubmx (adj Q *m eta) ij.2 ij.1)) (fun ij => im (dsubmx (adj Q *m eta) ij.2 ij.1)) (lower_pairs p k)).
by rewrite !twos_size addnA cdim.
Qed.

(** The two parts written by ObtainExtrHHR. *)
Definition xtop (v : seq R) : 'M[C]_p :=
  let r2 := Num.sqrt 2%:R in
  let b2 := size (enum 'I_p) in
  \matrix_(a, b) (if a == b then 0 +i* nth 0 v (index a (enum 'I_p))
    else if (b < a)%N then (nth 0 v (b2 + (index (b, a) (upper_pairs p)).*2) / r2) +i* (nth 0 v (b2 + (index (b, a) (upper_pairs p)).*2.+1) / r2)
    else (- (nth 0 v (b2 + (index (a, b) (upper_pairs p)).*2) / r2)) +i* (nth 0 v (b2 + (index (a, b) (upper_pairs p)).*2.+1) / r2)).
Definition xbot (v : seq R) : 'M[C]_(k, p) :=
  let b3 := (size (enum 'I_p) + (size (upper_pairs p)).*2)%N in
  \matrix_(j, i) (nth 0 v (b3 + (index (i, j) (lower_pairs p k)).*2) +i* nth 0 v (b3 + (index (i, j) (lower_pairs p k)).*2.+1)).
Lemma cextrE v : cobtain_extr Q r v = Q *m col_mx (cfix_rows r (xtop v)) (xbot v).
Proof. by []. Qed.
Lemma xtop_skew v : skew_hermitian (xtop v).
Proof.
apply/matrixP => i j; rewrite !mxE eq_sym; case: (altP eqP) => [E|Hij].
  by rewrite E; apply: ceq; rewrite !(reJ, imJ, reN, imN) /= ?oppr0.
case: (ltngtP i j) => H; try by apply: ceq; rewrite !(reJ, imJ, reN, imN) /= ?opprK.
by move/val_inj: H Hij => ->; rewrite eqxx.
Qed.
Lemma cextr_tangent v : ctangent x (cobtain_extr Q r v).
Proof. by rewrite /ctangent cextrE; have [-> _] := cframe_join (xtop v) (xbot v); apply: xtop_skew. Qed.
Lemma nth_off (u w : seq R) b i : size u = b -> nth 0 (u ++ w) (b + i) = nth 0 w i.
Proof. by move=> <-; rewrite nth_cat ltnNge leq_addr /= addKn. Qed.
Lemma cintr_extr eta : ctangent x eta -> cobtain_extr Q r (cobtain_intr Q r eta) = eta.
Proof.
move=> He; rewrite cintrE // cextrE -[RHS]cframe_split; congr (_ *m col_mx _ _).
  congr cfix_rows; apply/matrixP => a b; rewrite mxE.
  case: (altP (a =P b)) => [->|Hab].
    by apply: ceq; rewrite /= ?nth_map_index ?mem_enum // (sk_diag b He).
  case: (ltngtP b a) => H.
  - have Hm : (b, a) \in upper_pairs p by rewrite upper_mem.
    rewrite !nth_off ?size_map //.
    have [-> ->] := twos_nth (fun ij : 'I_p * 'I_p => Num.sqrt 2%:R * re ((adj x *m eta) ij.2 ij.1))
        (fun ij : 'I_p * 'I_p => Num.sqrt 2%:R * im ((adj x *m eta) ij.2 ij.1))
        (twos (fun ij => re (dsubmx (adj Q *m eta) ij.2 ij.1)) (fun ij => im (dsubmx (adj Q *m eta) ij.2 ij.1)) (lower_pairs p k)) Hm.
    by apply: ceq => /=; rewrite mulrAC mulfV ?sqrt2_neq0 // mul1r.
  - have Hm : (a, b) \in upper_pairs p by rewrite upper_mem.
    rewrite !nth_off ?size_map //.
    have [-> ->] := twos_nth (fun ij : 'I_p * 'I_p => Num.sqrt 2%:R * re ((adj x *m eta) ij.2 ij.1))
        (fun ij : 'I_p * 'I_p => Num.sqrt 2%:R * im ((adj x *m eta) ij.2 ij.1))
        (twos (fun ij => re (dsubmx (adj Q *m eta) ij.2 ij.1)) (fun ij => im (dsubmx (adj Q *m eta) ij.2 ij.1)) (lower_pairs p k)) Hm.
    apply: ceq => /=; rewrite mulrAC mulfV ?sqrt2_neq0 // mul1r; first by rewrite (sk_re a b He) opprK.
    exact: sk_im.
  - by move/val_inj: H Hab => ->; rewrite eqxx.
apply/matrixP => j i; rewrite mxE -!addnA !nth_off ?size_map ?twos_size //.
have [] := twos_nth (fun ij : 'I_p * 'I_k => re (dsubmx (adj Q *m eta) ij.2 ij.1)) (fun ij => im (dsubmx (adj Q *m eta) ij.2 ij.1)) [::] (lower_mem i j).
by rewrite !cats0 => -> -> ; apply: ceq.
Qed.
Lemma cextr_intr v : size v = (2 * (p + k) * p - p * p)%N -> cobtain_intr Q r (cobtain_extr Q r v) = v.
Proof.
move=> Hv; rewrite (cintrE (cextr_tangent v)) cextrE.
have [-> ->] := cframe_join (xtop v) (xbot v).
rewrite -cdim in Hv; set b2 := size (enum 'I_p); set nu := (size (upper_pairs p)).*2 in Hv *.
have Eb : b2 = p by rewrite /b2 size_enum_ord.
rewrite -[RHS](cat_take_drop b2) -[drop b2 v](cat_take_drop nu); congr (_ ++ (_ ++ _)).
- have Ht : size (take b2 v) = (0 + size (enum 'I_p))%N by rewrite size_takel // Hv Eb -addnA leq_addr.
  rewrite -[RHS]drop0 -(map_index (enum_uniq 'I_p) Ht); apply: eq_map => i.
  by rewrite mxE eqxx /= nth_take // index_mem mem_enum.
- have Hw : size (take nu (drop b2 v)) = (size (upper_pairs p)).*2.
    by rewrite size_takel // size_drop Hv Eb -addnA addKn leq_addr.
  rewrite -[RHS](twos_index (upper_uniq p) Hw); apply: twos_ext; move=> -[i j] Hij /=;
    have Hx : ((index (i, j) (upper_pairs p)).*2.+1 < nu)%N by rewrite -doubleS leq_double index_mem.
  + rewrite upper_mem in Hij; rewrite mxE.
    have -> : (j == i) = false by apply/eqP => E; rewrite E ltnn in Hij.
    by rewrite Hij /= mulrCA mulfV ?sqrt2_neq0 // mulr1 nth_take ?nth_drop // ltnW.
  + rewrite upper_mem in Hij; rewrite mxE.
    have -> : (j == i) = false by apply/eqP => E; rewrite E ltnn in Hij.
    by rewrite Hij /= mulrCA mulfV ?sqrt2_neq0 // mulr1 nth_take ?nth_drop.
have Hw : size (drop nu (drop b2 v)) = (size (lower_pairs p k)).*2.
  by rewrite !size_drop Hv Eb -addnA addKn addKn.
rewrite -[RHS](twos_index (lower_uniq p k) Hw).
by apply: twos_ext; move=> -[i j] Hij /=; rewrite mxE /= !nth_drop addnA.
Qed.
End fr.

(** Normal vectors. *)
Lemma he_re n (A : 'M[C]_n) i j : hermitian A -> re (A j i) = re (A i j).
Proof. by move=> H; have := congr1 (fun B : 'M_n => re (B i j)) H; rewrite !mxE reJ. Qed.
Lemma he_im n (A : 'M[C]_n) i j : hermitian A -> im (A j i) = - im (A i j).
Proof. by move=> H; have := congr1 (fun B : 'M_n => im (B i j)) H; rewrite !mxE imJ => <-; rewrite opprK. Qed.
Lemma he_diag n (A : 'M[C]_n) i : hermitian A -> im (A i i) = 0.
Proof.
move=> H; have : im (A i i) *+ 2 = 0 by rewrite mulr2n {1}(he_im i i H) addNr.
by move/eqP; rewrite mulrn_eq0 => /eqP.
Qed.
Lemma cnor_intrE x (S : 'M[C]_p) : unitary x -> cnormal_intr x (x *m S) =
  [seq re (S i i) | i <- enum 'I_p] ++
  ([seq (re (S ij.1 ij.2) + re (S ij.2 ij.1)) / Num.sqrt 2%:R | ij <- upper_pairs p] ++
   [seq (im (S ij.1 ij.2) - im (S ij.2 ij.1)) / Num.sqrt 2%:R | ij <- upper_pairs p]).
Proof. by move=> Hx; rewrite /cnormal_intr /cgemm0 scale1r mulmxA Hx mul1mx. Qed.
Lemma sqrt2_half (c : R) : (c + c) / Num.sqrt 2%:R = Num.sqrt 2%:R * c.
Proof.
have Hc := sqrt2_sq R; have Hn := sqrt2_neq0 R; move: (Num.sqrt 2%:R) Hc Hn => s Hc Hn.
by apply: (mulIf Hn); rewrite mulfVK // mulrAC Hc; rng R.
Qed.
Lemma cnor_inner x eta xi : unitary x -> cnormal x eta -> cnormal x xi ->
  vdot (cnormal_intr x eta) (cnormal_intr x xi) = cinner eta xi.
Proof.
move=> Hx [S [HS ->]] [T [HT ->]]; rewrite !cnor_intrE // vdot_cat ?size_map // vdot_cat ?size_map // !vdot_map !upper_sum big_enum /=.
have -> : cinner (x *m S) (x *m T) = cinner S T by rewrite cinner_mull mulmxA Hx mul1mx.
rewrite -[in RHS]cdotE /cdot sum_halves; last first.
  by move=> i j; rewrite (he_re i j HS) (he_re i j HT) (he_im i j HS) (he_im i j HT) mulrNN.
congr (_ + _).
  by apply: eq_bigr => i _; rewrite (he_diag i HS) mul0r addr0.
rewrite -big_split -sumrMnl; apply: eq_bigr => i _; rewrite -big_split -sumrMnl; apply: eq_bigr => j _ /=.
rewrite (he_re i j HS) (he_re i j HT) (he_im i j HS) (he_im i j HT) !opprK !sqrt2_half.
by rewrite !sqrt2_pair; rng R.
Qed.
Lemma cnor_size x eta : size (cnormal_intr x eta) = (p * p)%N.
Proof.
rewrite /cnormal_intr !size_cat size_map size_enum_ord.
set A := size _; have -> : A = size (upper_pairs p) by rewrite /A size_map.
rewrite size_map addnn upper_size bin2.
have -> : ((p * p.-1)./2.*2 = p * p.-1)%N.
  exact: evenpp.
by case: (p) => // q /=; rewrite -[X in (X + _)%N]muln1 -mulnDr add1n.
Qed.
(** The square matrix built by ObtainNorVerExtr. *)
Definition nmat (junk : 'I_p -> R) (v : seq R) : 'M[C]_p :=
  let r2 := Num.sqrt 2%:R in
  let b2 := size (enum 'I_p) in
  let b3 := (b2 + size (upper_pairs p))%N in
  \matrix_(a, b) (if a == b then nth 0 v (index a (enum 'I_p)) +i* junk a
    else if (a < b)%N then (nth 0 v (b2 + index (a, b) (upper_pairs p)) / r2) +i* (nth 0 v (b3 + index (a, b) (upper_pairs p)) / r2)
    else (nth 0 v (b2 + index (b, a) (upper_pairs p)) / r2) +i* (- (nth 0 v (b3 + index (b, a) (upper_pairs p)) / r2))).
Lemma cnor_extrE junk x v : cnormal_extr junk x v = x *m nmat junk v.
Proof. by rewrite /cnormal_extr /cgemm0 scale1r. Qed.
Lemma nmat_herm junk v : hermitian (nmat junk v) <-> forall i, junk i = 0.
Proof.
split=> [H i|H].
  by have := he_diag i H; rewrite mxE eqxx.
apply/matrixP => i j; rewrite !mxE eq_sym; case: (altP eqP) => [->|Hij].
  by apply: ceq; rewrite !(reJ, imJ) //= H oppr0.
case: (ltngtP i j) => E; try by apply: ceq; rewrite !(reJ, imJ) /= ?opprK.
by move/val_inj: E Hij => ->; rewrite eqxx.
Qed.
Lemma cnor_extr_normal junk x v : unitary x -> cnormal x (cnormal_extr junk x v) <-> forall i, junk i = 0.
Proof.
move=> Hx; rewrite -(nmat_herm junk v) cnor_extrE; split=> [[S [HS E]]|H]; last by exists (nmat junk v).
suff -> : nmat junk v = S by [].
by have := congr1 (mulmx (adj x)) E; rewrite !mulmxA Hx !mul1mx.
Qed.
Lemma cnor_extr_intr junk x v : unitary x -> size v = (p * p)%N -> cnormal_intr x (cnormal_extr junk x v) = v.
Proof.
move=> Hx Hv; rewrite cnor_extrE cnor_intrE //.
have Hs : (size (enum 'I_p) + (size (upper_pairs p) + size (upper_pairs p)))%N = size v.
  by rewrite Hv -(cnor_size x 0) /cnormal_intr !size_cat; congr (_ + (_ + _))%N; rewrite size_map.
set b2 := size (enum 'I_p) in Hs *; set nu := size (upper_pairs p) in Hs *.
rewrite -[RHS](cat_take_drop b2) -[drop b2 v](cat_take_drop nu); congr (_ ++ (_ ++ _)).
- have Ht : size (take b2 v) = (0 + size (enum 'I_p))%N by rewrite size_takel // -Hs leq_addr.
  rewrite -[RHS]drop0 -(map_index (enum_uniq 'I_p) Ht); apply: eq_map => i.
  by rewrite mxE eqxx /= nth_take // index_mem mem_enum.
- have Ht : size (take nu (drop b2 v)) = (0 + size (upper_pairs p))%N.
    by rewrite size_takel // size_drop -Hs addKn leq_addr.
  rewrite -[RHS]drop0 -(map_index (upper_uniq p) Ht); apply/eq_in_map => [[i j]] Hij /=.
  have Hi : (index (i, j) (upper_pairs p) < nu)%N by rewrite index_mem.
  rewrite upper_mem in Hij; rewrite !mxE /= Hij.
  have -> : (i == j) = false by apply/eqP => E; rewrite E ltnn in Hij.
  have -> : (j == i) = false by apply/eqP => E; rewrite E ltnn in Hij.
  have -> : (j < i)%N = false by rewrite ltnNge (ltnW Hij).
  by rewrite /= sqrt2_half mulrCA mulfV ?sqrt2_neq0 // mulr1 nth_take ?nth_drop.
have Hw : size (drop nu (drop b2 v)) = (0 + size (upper_pairs p))%N by rewrite !size_drop -Hs !addKn.
rewrite -[RHS]drop0 -(map_index (upper_uniq p) Hw); apply/eq_in_map => [[i j]] Hij /=.
rewrite upper_mem in Hij; rewrite !mxE /= Hij.
have -> : (i == j) = false by apply/eqP => E; rewrite E ltnn in Hij.
have -> : (j == i) = false by apply/eqP => E; rewrite E ltnn in Hij.
have -> : (j < i)%N = false by rewrite ltnNge (ltnW Hij).
by rewrite /= opprK sqrt2_half mulrCA mulfV ?sqrt2_neq0 // mulr1 !nth_drop addnA.
Qed.
(** What comes back of a normal vector. *)
Lemma cnor_intr_extr junk x eta : unitary x -> cnormal x eta ->
  cnormal_extr junk x (cnormal_intr x eta) = eta + x *m diag_mx (\row_i (0 +i* junk i)).
Proof.
move=> Hx [S [HS ->]]; rewrite cnor_extrE -mulmxDr; congr (_ *m _); rewrite cnor_intrE //.
apply/matrixP => a b; rewrite !mxE.
case: (altP (a =P b)) => [->|Hab].
  rewrite nth_map_index ?mem_enum // mulr1n; apply: ceq; rewrite !(reD, imD) /= ?addr0 //.
  by rewrite (he_diag b HS) add0r.
rewrite mulr0n addr0 -!addnA !nth_off ?size_map //.
case: (ltngtP a b) => H.
- rewrite nth_map_index ?upper_mem // -[X in _ +i* (nth 0 X _ / _)]cats0 nth_map_index ?upper_mem //=.
  rewrite (he_re a b HS) (he_im a b HS) opprK !sqrt2_half.
  by apply: ceq => /=; rewrite mulrAC mulfV ?sqrt2_neq0 // mul1r.
- rewrite nth_map_index ?upper_mem // -[X in _ +i* (- (nth 0 X _ / _))]cats0 nth_map_index ?upper_mem //=.
  rewrite (he_re b a HS) (he_im b a HS) opprK !sqrt2_half.
  apply: ceq => /=; rewrite mulrAC mulfV ?sqrt2_neq0 // mul1r //.
  + exact: he_re.
  + by rewrite (he_im a b HS) opprK.

by move/val_inj: H Hab => ->; rewrite eqxx.
Qed.
End intr.
