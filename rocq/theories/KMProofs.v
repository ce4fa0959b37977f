(** Proofs about the Karcher mean, for any logarithm with the two bounds. *)
From mathcomp Require Import all_ssreflect all_algebra.
Require Import Ring Field.
From Verif Require Import MxTac StiefelModel StiefelSpec StiefelProofs StiefelPolar SPDSpec SPDProofs Eckart Decomp KMModel KMSpec KMFun KMNorm.
Import Order.TTheory GRing.Theory Num.Theory.
Set Implicit Arguments.
Unset Strict Implicit.
Local Open Scope ring_scope.

Section mean.
Variable R : rcfType.
Add Field kmp_field : (rcf_field R).
Variable n : nat.
Variables (LN : R -> R) (CHOL : 'M[R]_n -> 'M[R]_n) (EIG : 'M[R]_n -> 'M[R]_n * 'rV[R]_n).
Hypotheses (HC : chol_right CHOL) (HE : eig_right EIG).
Implicit Types (x y L D : 'M[R]_n).
Local Notation whit := (whitened CHOL).
Local Notation logm := (log_sym LN EIG).

Lemma sample_low L : sample L -> lower_part L = L.
Proof. by move=> [H _]; apply/matrixP => i j; rewrite mxE; case: ifP => // /H ->. Qed.
Lemma sample_unit L : sample L -> L \in unitmx.
Proof.
move=> [Hl Hd]; rewrite unitmxE det_trig ?unitfE; last by apply/is_trig_mxP.
by apply/prodf_neq0.
Qed.
Lemma sympart_same x : symmetric x -> sympart x = x.
Proof. by move=> E; rewrite /sympart E -mulr2n -scaler_nat scalerA mulVf ?pnatr_eq0 // scale1r. Qed.
Lemma sympart_sym x : symmetric (sympart x).
Proof. by rewrite /symmetric /sympart trZ trD trmxK addrC. Qed.
Definition congr_by L x := invmx L *m x *m invmx L^T.
Local Notation cb := congr_by.
Lemma whitE x L : posdef (sympart x) -> sample L -> whit x L = cb L (sympart x).
Proof.
move=> Hx HL; rewrite /whitened /tri_sol gemm0E scale1r (sample_low HL) trmx_mul trmx_inv !mulmxA.
by have [E _ _] := HC Hx; rewrite -[invmx L *m _ *m _]mulmxA /factor -/(sympart x) -E.
Qed.
Lemma cb_sym L x : symmetric x -> symmetric (cb L x).
Proof. by move=> E; rewrite /symmetric /congr_by !trmx_mul E !trmx_inv trmxK mulmxA. Qed.
Lemma cb_posdef L x : L \in unitmx -> posdef x -> posdef (cb L x).
Proof.
move=> HL [Hs Hp]; split; first exact: cb_sym.
move=> v Hv; rewrite /congr_by -!mulmxA; have -> : v^T *m (invmx L *m (x *m (invmx L^T *m v))) = (invmx L^T *m v)^T *m x *m (invmx L^T *m v).
  by rewrite trmx_mul trmx_inv trmxK !mulmxA.
apply: Hp; apply: contra Hv => /eqP E; apply/eqP; by rewrite -[v](mulKVmx (_ : L^T \in unitmx)) ?unitmx_tr // E mulmx0.
Qed.
Lemma pos_gram L : L \in unitmx -> posdef (L *m L^T).
Proof.
move=> HL; have H := cb_posdef (_ : invmx L \in unitmx) (posdef1 R n).
by move: H; rewrite unitmx_inv => /(_ HL); rewrite /congr_by invmxK mulmx1 trmx_inv invmxK.
Qed.
Lemma cbB L x y : cb L (x - y) = cb L x - cb L y.
Proof. by rewrite /congr_by mulmxBr mulmxBl. Qed.
(** The decomposition of the whitened matrix. *)
Section point.
Variables (x L : 'M[R]_n).
Hypotheses (Hx : posdef (sympart x)) (HL : sample L).
Definition vec_of := (EIG (whit x L)).1.
Definition val_of := (EIG (whit x L)).2.
Local Notation V := vec_of.
Local Notation lam := val_of.
Lemma whit_posdef : posdef (whit x L).
Proof. by rewrite whitE //; apply: cb_posdef => //; exact: sample_unit. Qed.
Lemma V_orth : orthonormal V.
Proof. by have [H _] := whit_posdef; have [_] := HE H. Qed.
Lemma whit_fun : whit x L = fun_mx id V lam.
Proof. by have [H _] := whit_posdef; have [E _] := HE H; rewrite fun_id. Qed.
Lemma lam_pos i : 0 < lam 0 i.
Proof. have [H _] := whit_posdef; exact: (posdef_eig whit_posdef (HE H)). Qed.
Lemma logE : logm (whit x L) = fun_mx LN V lam.
Proof.
rewrite /log_sym /V /lam /vec_of /val_of; case E : (EIG _) => [W l] /=.
have Hl i : 0 < l 0 i by have := lam_pos i; rewrite /val_of E.
have -> : [forall i, 0 < l 0 i] by apply/forallP.
by congr (_ *m _); apply/matrixP => i j; rewrite mul_mx_diag !mxE.
Qed.
Lemma logV a : orthonormal a.1 -> whit x L = fun_mx id a.1 a.2 -> logm (whit x L) = fun_mx LN a.1 a.2.
Proof.
move=> Ho E; rewrite logE; apply: fun_eq => //; first exact: V_orth.
by rewrite -whit_fun.
Qed.
Lemma fun_inv : invmx (whit x L) = fun_mx (fun t => t^-1) V lam.
Proof.
have E : whit x L *m fun_mx (fun t => t^-1) V lam = 1%:M.
  rewrite whit_fun fun_mul; last exact: V_orth.
  have -> : fun_mx (fun t => t * t^-1) V lam = fun_mx (fun=> 1) V lam.
    rewrite /fun_mx; congr (_ *m diag_mx _ *m _); apply/matrixP => i j; rewrite !mxE ord1.
    by rewrite mulfV // gt_eqF // lam_pos.
  have -> : fun_mx (fun=> 1) V lam = V *m V^T.
    by rewrite /fun_mx (_ : map_mx _ _ = const_mx 1) ?diag_const_mx ?mulmx1 //; apply/matrixP => i j; rewrite !mxE.
  by rewrite orth_tr //; exact: V_orth.
have [U _] := mulmx1_unit E; by rewrite -[LHS]mulmx1 -E mulKmx.
Qed.
Lemma sq_term : dot (logm (whit x L)) (logm (whit x L)) = \sum_i LN (lam 0 i) ^+ 2.
Proof.
rewrite dotE logE /inner fun_sym fun_mul; last exact: V_orth.
rewrite /fun_mx mxtrace_mulC mulmxA V_orth mul1mx mxtrace_diag; by apply: eq_bigr => i _; rewrite mxE expr2.
Qed.
End point.

(** The value. *)
Lemma term_dist x L d : posdef x -> sample L -> is_dist2 LN x (L *m L^T) d ->
  dot (logm (whit x L)) (logm (whit x L)) = d.
Proof.
move=> Hx HL Hd; have Hs : sympart x = x by apply: sympart_same; case: Hx.
have Hx' : posdef (sympart x) by rewrite Hs.
rewrite sq_term //; apply/esym; apply: (Hd (invmx L^T *m vec_of x L)).
- have HU := sample_unit HL; rewrite trmx_mul trmx_inv trmxK !mulmxA -[_ *m invmx L *m L]mulmxA mulVmx // mulmx1.
  by rewrite -[_ *m L^T *m invmx L^T]mulmxA mulmxV ?unitmx_tr // mulmx1; exact: V_orth.
rewrite trmx_mul trmx_inv trmxK !mulmxA.
have E := whit_fun Hx' HL; rewrite whitE // Hs /congr_by fun_id in E.
have -> : (vec_of x L)^T *m invmx L *m x *m invmx L^T = (vec_of x L)^T *m (invmx L *m x *m invmx L^T) by rewrite !mulmxA.
by rewrite E !mulmxA (V_orth Hx' HL) mul1mx -mulmxA (V_orth Hx' HL) mulmx1.
Qed.
Lemma valueE Ls x (d : 'M[R]_n -> R) : Ls != [::] -> posdef x -> (forall L, L \in Ls -> sample L) ->
  (forall A, posdef A -> is_dist2 LN x A (d A)) ->
  f LN CHOL EIG Ls x = Some ((\sum_(L <- Ls) d (L *m L^T)) / (2%:R * (size Ls)%:R)).
Proof.
move=> Hn Hx HLs Hd; rewrite /f; case: eqP => [/size0nil E|_]; first by rewrite E in Hn.
congr Some; congr (_ / _); rewrite big_map; apply: eq_big_seq => L HL.
apply: term_dist => //; first exact: HLs.
by apply: Hd; apply: pos_gram; exact: sample_unit (HLs _ HL).
Qed.

Lemma sq_fun x L Q (lam : 'rV[R]_n) : posdef (sympart x) -> sample L -> orthonormal Q -> whit x L = fun_mx id Q lam ->
  dot (logm (whit x L)) (logm (whit x L)) = \sum_i LN (lam 0 i) ^+ 2.
Proof.
move=> Hx HL HQ E; rewrite dotE (@logV _ _ Hx HL (Q, lam)) //= /inner fun_sym fun_mul //.
rewrite /fun_mx mxtrace_mulC mulmxA HQ mul1mx mxtrace_diag; by apply: eq_bigr => i _; rewrite mxE expr2.
Qed.
Lemma chol_sample A : posdef A -> sample (CHOL A) /\ CHOL A *m (CHOL A)^T = A.
Proof. by move=> /HC [E Hl Hd]; split=> //; split=> // i; rewrite gt_eqF. Qed.
Lemma dist_exists x : posdef x -> exists d : 'M[R]_n -> R, forall A, posdef A -> is_dist2 LN x A (d A).
Proof.
move=> Hx; exists (fun A => dot (logm (whit x (CHOL A))) (logm (whit x (CHOL A)))) => A HA W lam E1 E2.
have [HL EA] := chol_sample HA; have HU := sample_unit HL; move: (CHOL A) HL EA HU => L HL EA HU.
have Hs : sympart x = x by apply: sympart_same; case: Hx.
have HQ : orthonormal (L^T *m W) by rewrite /orthonormal trmx_mul trmxK !mulmxA -[_ *m L *m L^T]mulmxA EA.
apply: (@sq_fun _ _ (L^T *m W)) => //; rewrite ?Hs // whitE ?Hs //.
have E : (L^T *m W)^T *m cb L x *m (L^T *m W) = diag_mx lam.
  rewrite -E2 trmx_mul trmxK /congr_by !mulmxA -[_ *m L *m invmx L]mulmxA mulmxV // mulmx1.
  by rewrite -[_ *m invmx L^T *m L^T]mulmxA mulVmx ?unitmx_tr // mulmx1.
have HQ' := orth_tr HQ; move: (L^T *m W) E HQ HQ' => Q E HQ HQ'.
by rewrite fun_id -E !mulmxA HQ' mul1mx -mulmxA HQ' mulmx1.
Qed.
Lemma whit_one x L : posdef x -> sample L -> (whit x L = 1%:M <-> x = L *m L^T).
Proof.
move=> Hx HL; have Hs : sympart x = x by apply: sympart_same; case: Hx.
have HU := sample_unit HL; rewrite whitE ?Hs // /congr_by; split=> [E|->].
  have := congr1 (fun M => L *m M *m L^T) E; rewrite mulmx1 !mulmxA mulmxV // mul1mx -mulmxA mulVmx ?unitmx_tr // mulmx1 //.
by rewrite mulmxA mulVmx // mul1mx mulmxV // unitmx_tr.
Qed.
Lemma term_zero x L : LN 1 = 0 -> (forall t, 0 < t -> LN t = 0 -> t = 1) -> posdef x -> sample L ->
  (dot (logm (whit x L)) (logm (whit x L)) = 0 <-> x = L *m L^T).
Proof.
move=> L1 L0 Hx HL; have Hs : sympart x = x by apply: sympart_same; case: Hx.
have Hx' : posdef (sympart x) by rewrite Hs.
rewrite -(whit_one Hx HL); split=> [|E].
  rewrite sq_term // => /eqP; rewrite psumr_eq0 => [/allP H|i _]; last exact: sqr_ge0.
  rewrite whit_fun // fun_id (_ : val_of x L = const_mx 1); last first.
    apply/matrixP => i j; rewrite ord1 [RHS]mxE; apply: L0; first exact: lam_pos.
    by have := H j (mem_index_enum _); rewrite sqrf_eq0 => /eqP.
  by rewrite diag_const_mx mulmx1 orth_tr //; exact: V_orth.
rewrite (@sq_fun _ _ 1%:M (const_mx 1)) //.
- by rewrite big1 // => i _; rewrite mxE L1 expr0n.
- by rewrite /orthonormal trmx1 mulmx1.
by rewrite E fun_id diag_const_mx trmx1 !mulmx1.
Qed.
Lemma value_zero Ls x : LN 1 = 0 -> (forall t, 0 < t -> LN t = 0 -> t = 1) -> Ls != [::] -> posdef x ->
  (forall L, L \in Ls -> sample L) ->
  (exists2 v, f LN CHOL EIG Ls x = Some v & 0 <= v) /\
  (f LN CHOL EIG Ls x = Some 0 <-> forall L, L \in Ls -> x = L *m L^T).
Proof.
move=> L1 L0 Hn Hx HLs; rewrite /f; case: eqP => [/size0nil E|/eqP Hsz]; first by rewrite E in Hn.
rewrite big_map; set S := \sum_(L <- Ls) _.
have Hd : (0 : R) < 2%:R * (size Ls)%:R by rewrite mulr_gt0 ?ltr0n // lt0n.
have HS : 0 <= S by apply: sumr_ge0 => L _; rewrite dotE inner_ge0.
split; first by exists (S / (2%:R * (size Ls)%:R)) => //; rewrite divr_ge0 // ltW.
have -> : (Some (S / (2%:R * (size Ls)%:R)) = Some 0) <-> S = 0.
  split=> [[/eqP]|->]; last by rewrite mul0r.
  by rewrite mulf_eq0 invr_eq0 [_ * _ == 0]gt_eqF // orbF => /eqP.
rewrite /S; split=> [/eqP|H].
  rewrite psumr_eq0 => [/allP H L HL|L _]; last by rewrite dotE inner_ge0.
  by apply/(term_zero L1 L0 Hx (HLs _ HL))/eqP; exact: H.
by rewrite big_seq big1 // => L HL; apply/(term_zero L1 L0 Hx (HLs _ HL)); exact: H.
Qed.
End mean.
