(** Proofs about the coordinates and transports of FixedRankQ2F. *)
From mathcomp Require Import all_ssreflect all_algebra.
Require Import Ring Field.
From Verif Require Import MxTac StiefelModel StiefelSpec StiefelProofs StiefelPolar StiefelRetr StiefelIntr SPDSpec SPDProofs SymFRSpec SymFRProofs SymFRIntr.
From Verif Require Import Q2FModel Q2FSpec Q2FProofs.
Import Order.TTheory GRing.Theory Num.Theory.
Set Implicit Arguments.
Unset Strict Implicit.
Local Open Scope ring_scope.

Section coordinates.
Variable R : rcfType.
Add Field q2fi_field : (rcf_field R).
Variables r a b : nat.
Local Notation vec := (pair_ R r a b).
Implicit Types eta xi : vec.
Lemma lower_factorE (T : 'M[R]_r) : lower_factor T = SymFRModel.lower_factor T.
Proof.
apply/matrixP => i j; rewrite !mxE; case: ifP => // _.
by rewrite ltNge; case: (0 <= T j j); rewrite ?mulr1.
Qed.
Lemma dimE : intr_dim r a b = (r * r + r * a + r * b)%N.
Proof.
by rewrite /intr_dim addnCA addKn !mulnDl [(a * r)%N]mulnC [(b * r)%N]mulnC.
Qed.
Variables (x : vec) (QG : 'M[R]_(r + a)) (QH : 'M[R]_(r + b)) (RG RH : 'M[R]_r).
Hypotheses (Hx : is_point x) (HhG : is_hhr (fst_ x) QG RG) (HhH : is_hhr (snd_ x) QH RH).
Local Notation G := (fst_ x).
Local Notation H := (snd_ x).
Local Notation LG := (SymFRModel.lower_factor RG).
Local Notation LH := (SymFRModel.lower_factor RH).
Local Notation topG := (top QG RG).
Local Notation topH := (top QH RH).
Local Notation botG := (bot QG).
Local Notation botH := (bot QH).
Let HG : full_rank G := Hx.1.
Let HH : full_rank H := Hx.2.
(** The blocks of the change of the represented matrix. *)
Definition cK eta := topG (fst_ eta) *m LH + (topH (snd_ eta) *m LG)^T.
Definition cG eta := botG (fst_ eta) *m LH.
Definition cH eta := botH (snd_ eta) *m LG.
Lemma intrE eta : obtain_intr QG RG QH RH eta = low (cK eta) ++ low (cG eta) ++ low (cH eta).
Proof.
rewrite /obtain_intr !lower_factorE -!/(SymFRModel.intr_rot _ _ _).
have -> : rot QG RG (fst_ eta) = col_mx (topG (fst_ eta)) (botG (fst_ eta)) by exact: (rotE HhG).
have -> : rot QH RH (snd_ eta) = col_mx (topH (snd_ eta)) (botH (snd_ eta)) by exact: (rotE HhH).
rewrite !mul_col_mx !col_mxKu !col_mxKd; congr (_ ++ _).
by apply: eq_map => ij; rewrite /cK [in RHS]mxE [X in _ = _ + X]mxE.
Qed.
Lemma intr_size eta : size (obtain_intr QG RG QH RH eta) = intr_dim r a b.
Proof. by rewrite intrE !size_cat !low_size dimE addnA. Qed.
(** The frame components of a lift: the inner product of lifts is the sum over the blocks. *)
Lemma lift_blocks eta xi : inner (lift x eta) (lift x xi) =
  inner (cK eta) (cK xi) + inner (cG eta) (cG xi) + inner (cH eta) (cH xi).
Proof.
rewrite lift_inner /lift !mulmxDl trD !mulmxDl !trM !trmxK -!mulmxA.
have EH (A : 'M[R]_(r + b, r)) : H^T *m A = LH *m topH A by exact: topE HhH A.
have EG (A : 'M[R]_(r + a, r)) : G^T *m A = LG *m topG A by exact: topE HhG A.
have CG : G^T *m G = LG *m LG^T := CE HhG.
have CH : H^T *m H = LH *m LH^T := CE HhH.
have EHt (A : 'M[R]_(r + b, r)) : A^T *m H = (topH A)^T *m LH^T by rewrite -[LHS]trmxK trM trmxK EH trM.
have EGt (A : 'M[R]_(r + a, r)) : A^T *m G = (topG A)^T *m LG^T by rewrite -[LHS]trmxK trM trmxK EG trM.
rewrite CG CH EHt EGt !innerDl.
have -> : inner (fst_ eta *m (LH *m LH^T)) (fst_ xi) =
    inner (topG (fst_ eta) *m LH) (topG (fst_ xi) *m LH) + inner (cG eta) (cG xi).
  by rewrite mulmxA inner_mulr trmxK (tb_inner HhG) !(top_mul, bot_mul).
have -> : inner (snd_ eta *m (LG *m LG^T)) (snd_ xi) =
    inner (topH (snd_ eta) *m LG) (topH (snd_ xi) *m LG) + inner (cH eta) (cH xi).
  by rewrite mulmxA inner_mulr trmxK (tb_inner HhH) !(top_mul, bot_mul).
have -> : inner (G *m ((topH (snd_ eta))^T *m LH^T)) (fst_ xi) = inner (topH (snd_ eta) *m LG)^T (topG (fst_ xi) *m LH).
  by rewrite [in LHS]inner_mull EG [in LHS]inner_mulr trmxK [in RHS]trM [in RHS]inner_mull trmxK mulmxA.
have -> : inner (H *m ((topG (fst_ eta))^T *m LG^T)) (snd_ xi) = inner (topG (fst_ eta) *m LH) (topH (snd_ xi) *m LG)^T.
  by rewrite [in LHS]inner_mull EH [in LHS]inner_mulr trmxK -[RHS]inner_tr [in RHS]trmxK [(topG _ *m _)^T]trM [in RHS]inner_mull trmxK mulmxA.
rewrite /cK ?innerDl !innerDr inner_tr.
do ! move: (inner _ _) => ?; rng R.
Qed.
Lemma intr_inner eta xi : vdot (obtain_intr QG RG QH RH eta) (obtain_intr QG RG QH RH xi) = metric x eta xi.
Proof. by rewrite !intrE !vdot_cat ?low_size // !low_inner metricE lift_blocks addrA. Qed.
Lemma hor_top eta : horizontal x eta <-> topG (fst_ eta) *m LH = (topH (snd_ eta) *m LG)^T.
Proof.
have HLG := L_unit HG HhG; have HLH := L_unit HH HhH.
have HLGT := LT_unit HG HhG; have HLHT := LT_unit HH HhH.
have EG : LG^T *m kG x eta = topG (fst_ eta).
  have : LG *m (LG^T *m kG x eta) = LG *m topG (fst_ eta).
    rewrite mulmxA -(CE HhG) -(topE HhG) /kG !mulmxA (xxCi0 HG) mul1mx //.
  by move/(congr1 (mulmx (invmx LG))); rewrite !mulKmx.
have EH : LH^T *m kH x eta = topH (snd_ eta).
  have : LH *m (LH^T *m kH x eta) = LH *m topH (snd_ eta).
    rewrite mulmxA -(CE HhH) -(topE HhH) /kH !mulmxA (xxCi0 HH) mul1mx //.
  by move/(congr1 (mulmx (invmx LH))); rewrite !mulKmx.
rewrite horP // -EG -EH; move: (kG x eta) (kH x eta) => A B; rewrite !trM trmxK !mulmxA; split=> [->|] //.
by move/(congr1 (fun A => invmx LG^T *m (A *m invmx LH))); rewrite !mulmxK // !mulKmx.
Qed.
Lemma extr_parts v : [/\ topG (fst_ (obtain_extr QG RG QH RH v)) *m LH = half R *: unlow r r 0 v,
  botG (fst_ (obtain_extr QG RG QH RH v)) *m LH = unlow r a (r * r) v,
  topH (snd_ (obtain_extr QG RG QH RH v)) *m LG = half R *: (unlow r r 0 v)^T &
  botH (snd_ (obtain_extr QG RG QH RH v)) *m LG = unlow r b (r * r + r * a) v].
Proof.
have HLG := L_unit HG HhG; have HLH := L_unit HH HhH.
rewrite /obtain_extr /= !lower_factorE !trM !trmx_inv !trmxK -!(top_mul, bot_mul) !mulmxKV //.
rewrite (join_top HhG) (join_bot HhG) (join_top HhH) (join_bot HhH) !lower_size; split => //.
  by apply/matrixP => j i; rewrite !mxE mulrC.
by apply/matrixP => j i; rewrite !mxE mulrC.
Qed.
Lemma extr_hor v : horizontal x (obtain_extr QG RG QH RH v).
Proof. by apply/hor_top; have [-> _ -> _] := extr_parts v; rewrite trZ trmxK. Qed.
Lemma extr_intr v : size v = intr_dim r a b -> obtain_intr QG RG QH RH (obtain_extr QG RG QH RH v) = v.
Proof.
rewrite dimE => Hv; rewrite intrE /cK /cG /cH; have [-> -> -> ->] := extr_parts v.
rewrite trZ trmxK -scalerDl half2 scale1r.
rewrite -[RHS](cat_take_drop (r * r)) -[X in _ = _ ++ X](cat_take_drop (r * a)) drop_drop addnC.
have F k n (w : seq R) : size w = (n + r * k)%N -> low (unlow r k n w) = drop n w by exact: low_unlow.
have U k n (w : seq R) u : (n + r * k <= size w)%N -> unlow r k n (w ++ u) = unlow r k n w.
  move=> Hs; apply/matrixP => j i; rewrite !mxE nth_cat (leq_trans _ Hs) // ltn_add2l -lower_size index_mem.
  exact: lower_mem.
congr (_ ++ (_ ++ _)).
- have Hs : size (take (r * r) v) = (0 + r * r)%N by rewrite size_takel // Hv -addnA leq_addr.
  by rewrite -{1}(cat_take_drop (r * r) v) U ?Hs // F // drop0.
- have Hs : size (take (r * r + r * a) v) = (r * r + r * a)%N by rewrite size_takel // Hv leq_addr.
  by rewrite -{1}(cat_take_drop (r * r + r * a) v) U ?Hs // F // [RHS]take_drop [(r * a + _)%N]addnC.
by rewrite F // [(r * a + _)%N]addnC.
Qed.
Lemma intr_lift eta xi : lift x eta = lift x xi -> obtain_intr QG RG QH RH eta = obtain_intr QG RG QH RH xi.
Proof.
move=> E; rewrite !intrE; have := lift_blocks (subp eta xi) (subp eta xi).
rewrite liftB E subrr inner0l.
have D1 : cK (subp eta xi) = cK eta - cK xi.
  rewrite /cK subp_fst subp_snd /top !mulmxBr !mulmxBl trD trN opprD addrACA //.
have D2 : cG (subp eta xi) = cG eta - cG xi.
  by rewrite /cG subp_fst /bot mulmxBr linearB /= mulmxBl.
have D3 : cH (subp eta xi) = cH eta - cH xi.
  by rewrite /cH subp_snd /bot mulmxBr linearB /= mulmxBl.
rewrite D1 D2 D3 => /esym /eqP; rewrite paddr_eq0 ?addr_ge0 ?inner_ge0 // paddr_eq0 ?inner_ge0 //.
by case/andP => /andP [/eqP /inner_eq0 /subr0_eq -> /eqP /inner_eq0 /subr0_eq ->] /eqP /inner_eq0 /subr0_eq ->.
Qed.
(** Coordinates of any vector lead back to its projection. *)
Lemma intr_extr CHOL eta : chol_ok CHOL ->
  obtain_extr QG RG QH RH (obtain_intr QG RG QH RH eta) = projection CHOL x eta.
Proof.
move=> HC; set z := obtain_extr _ _ _ _ _; have Hz : horizontal x z := extr_hor _.
apply: (hor_unique Hx) => //; first exact: proj_hor.
rewrite proj_lift //; apply: subr0_eq; rewrite -liftB; apply: inner_eq0.
have E : obtain_intr QG RG QH RH z = obtain_intr QG RG QH RH eta by rewrite extr_intr // intr_size.
have P y : inner (lift x z) (lift x y) = inner (lift x eta) (lift x y).
  by rewrite -!metricE -!intr_inner E.
by rewrite {1}liftB innerBl P subrr.
Qed.
End coordinates.
