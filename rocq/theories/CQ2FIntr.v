(** Proofs about the coordinates and transports of CFixedRankQ2F. *)
From mathcomp Require Import all_ssreflect all_algebra.
From mathcomp.real_closed Require Import complex.
Require Import Ring Field.
From Verif Require Import MxTac StiefelModel StiefelSpec StiefelIntr CStieSpec CStieModel CMx CStieProofs CStieRetr CStieIntr CFrSpec CQ2FModel CQ2FSpec CFr CQ2FProofs.
Import Order.TTheory GRing.Theory Num.Theory.
Set Implicit Arguments.
Unset Strict Implicit.
Local Open Scope ring_scope.
Local Open Scope complex_scope.

Section coordinates.
Variable R : rcfType.
Local Notation C := R[i].
Local Notation re := (@complex.Re R).
Local Notation im := (@complex.Im R).
Add Field cq2fi_field : (rcf_field R).
Add Ring cq2fi_field_r : (kring R).
Variables r a b : nat.
Local Notation vec := (cpair R r a b).
Implicit Types eta xi : vec.
Lemma dimE : intr_dim r a b = ((r * r).*2 + (r * a).*2 + (r * b).*2)%N.
Proof.
by rewrite /intr_dim addnCA addKn -mulnA mul2n !mulnDl [(a * r)%N]mulnC [(b * r)%N]mulnC !doubleD.
Qed.
Variables (x : vec) (QG : 'M[C]_(r + a)) (QH : 'M[C]_(r + b)) (RG RH : 'M[C]_r).
Hypotheses (Hx : is_point x) (HhG : is_chhr (cfst x) QG RG) (HhH : is_chhr (csnd x) QH RH).
Local Notation G := (cfst x).
Local Notation H := (csnd x).
Local Notation LG := (lower_factor RG).
Local Notation LH := (lower_factor RH).
Local Notation topG := (top QG RG).
Local Notation topH := (top QH RH).
Local Notation botG := (bot QG).
Local Notation botH := (bot QH).
Let HG : cfull_rank G := Hx.1.
Let HH : cfull_rank H := Hx.2.
(** The blocks of the change of the represented matrix. *)
Definition cK eta := topG (cfst eta) *m LH + (adj (topH (csnd eta) *m LG)).
Definition cG eta := botG (cfst eta) *m LH.
Definition cH eta := botH (csnd eta) *m LG.
Lemma intrE eta : obtain_intr QG RG QH RH eta = low (cK eta) ++ low (cG eta) ++ low (cH eta).
Proof.
rewrite /obtain_intr.
have -> : rot QG RG (cfst eta) = col_mx (topG (cfst eta)) (botG (cfst eta)) by exact: (rotE HhG).
have -> : rot QH RH (csnd eta) = col_mx (topH (csnd eta)) (botH (csnd eta)) by exact: (rotE HhH).
rewrite !mul_col_mx !col_mxKu !col_mxKd; congr (_ ++ _).
by apply: twos_ext; move=> -[i j] _ /=; rewrite /cK [in RHS]mxE [X in _ = _ (_ + X)]mxE ?reD ?imD ?reJ ?imJ.
Qed.
Lemma intr_size eta : size (obtain_intr QG RG QH RH eta) = intr_dim r a b.
Proof. by rewrite intrE !size_cat !low_size dimE addnA. Qed.
(** The frame components of a lift: the inner product of lifts is the sum over the blocks. *)
Lemma lift_blocks eta xi : cinner (lift x eta) (lift x xi) =
  cinner (cK eta) (cK xi) + cinner (cG eta) (cG xi) + cinner (cH eta) (cH xi).
Proof.
rewrite lift_inner /lift !mulmxDl adjD !mulmxDl !adjM !adjK -!mulmxA.
have EH (A : 'M[C]_(r + b, r)) : adj H *m A = LH *m topH A by exact: topE HhH A.
have EG (A : 'M[C]_(r + a, r)) : adj G *m A = LG *m topG A by exact: topE HhG A.
have CG : adj G *m G = LG *m (adj LG) := CE HhG.
have CH : adj H *m H = LH *m (adj LH) := CE HhH.
have EHt (A : 'M[C]_(r + b, r)) : adj A *m H = (adj (topH A)) *m (adj LH) by rewrite -[LHS]adjK adjM adjK EH adjM.
have EGt (A : 'M[C]_(r + a, r)) : adj A *m G = (adj (topG A)) *m (adj LG) by rewrite -[LHS]adjK adjM adjK EG adjM.
rewrite CG CH EHt EGt !cinnerDl.
have -> : cinner (cfst eta *m (LH *m (adj LH))) (cfst xi) =
    cinner (topG (cfst eta) *m LH) (topG (cfst xi) *m LH) + cinner (cG eta) (cG xi).
  by rewrite mulmxA cinner_mulr adjK (tb_inner HhG) !(top_mul, bot_mul).
have -> : cinner (csnd eta *m (LG *m (adj LG))) (csnd xi) =
    cinner (topH (csnd eta) *m LG) (topH (csnd xi) *m LG) + cinner (cH eta) (cH xi).
  by rewrite mulmxA cinner_mulr adjK (tb_inner HhH) !(top_mul, bot_mul).
have -> : cinner (G *m ((adj (topH (csnd eta))) *m (adj LH))) (cfst xi) = cinner (adj (topH (csnd eta) *m LG)) (topG (cfst xi) *m LH).
  by rewrite [in LHS]cinner_mull EG [in LHS]cinner_mulr adjK [in RHS]adjM [in RHS]cinner_mull adjK mulmxA.
have -> : cinner (H *m ((adj (topG (cfst eta))) *m (adj LG))) (csnd xi) = cinner (topG (cfst eta) *m LH) (adj (topH (csnd xi) *m LG)).
  by rewrite [in LHS]cinner_mull EH [in LHS]cinner_mulr adjK -[RHS]cinner_adj [in RHS]adjK [(adj (topG _ *m _))]adjM [in RHS]cinner_mull adjK mulmxA.
rewrite /cK ?cinnerDl !cinnerDr cinner_adj.
do ! move: (cinner _ _) => ?; rng R.
Qed.
Lemma intr_inner eta xi : vdot (obtain_intr QG RG QH RH eta) (obtain_intr QG RG QH RH xi) = metric x eta xi.
Proof. by rewrite !intrE !vdot_cat ?low_size // !low_inner metricE lift_blocks addrA. Qed.
Lemma hor_top eta : horizontal x eta <-> topG (cfst eta) *m LH = (adj (topH (csnd eta) *m LG)).
Proof.
have HLG := L_unit HG HhG; have HLH := L_unit HH HhH.
have HLGT := LT_unit HG HhG; have HLHT := LT_unit HH HhH.
have EG : adj LG *m kG x eta = topG (cfst eta).
  have : LG *m (adj LG *m kG x eta) = LG *m topG (cfst eta).
    rewrite mulmxA -(CE HhG) -(topE HhG) /kG !mulmxA (xxCi0 HG) mul1mx //.
  by move/(congr1 (mulmx (invmx LG))); rewrite !mulKmx.
have EH : adj LH *m kH x eta = topH (csnd eta).
  have : LH *m (adj LH *m kH x eta) = LH *m topH (csnd eta).
    rewrite mulmxA -(CE HhH) -(topE HhH) /kH !mulmxA (xxCi0 HH) mul1mx //.
  by move/(congr1 (mulmx (invmx LH))); rewrite !mulKmx.
rewrite horP // -EG -EH; move: (kG x eta) (kH x eta) => A B; rewrite !adjM adjK !mulmxA; split=> [->|] //.
by move/(congr1 (fun A => invmx (adj LG) *m (A *m invmx LH))); rewrite !mulmxK // !mulKmx.
Qed.
Lemma extr_parts v : [/\ topG (cfst (obtain_extr QG RG QH RH v)) *m LH = (half R)%:C *: unlow r r 0 v,
  botG (cfst (obtain_extr QG RG QH RH v)) *m LH = unlow r a (r * r).*2 v,
  topH (csnd (obtain_extr QG RG QH RH v)) *m LG = (half R)%:C *: adj (unlow r r 0 v) &
  botH (csnd (obtain_extr QG RG QH RH v)) *m LG = unlow r b ((r * r).*2 + (r * a).*2) v].
Proof.
have HLG := L_unit HG HhG; have HLH := L_unit HH HhH.
have EG : invmx (adj LG) = adj (invmx LG) by have [] := adj_unit HLG.
have EH : invmx (adj LH) = adj (invmx LH) by have [] := adj_unit HLH.
rewrite /obtain_extr /= EG EH !adjM !adjK -!(top_mul, bot_mul) !mulmxKV //.
rewrite (join_top HhG) (join_bot HhG) (join_top HhH) (join_bot HhH) !lower_size; split => //.
  by apply/matrixP => j i; rewrite !mxE /=; apply: ceq; rewrite ?reM ?imM /= mul0r ?subr0 ?addr0 mulrC.
apply/matrixP => j i; rewrite !mxE /=; apply: ceq; rewrite ?reM ?imM ?reJ ?imJ /= ?mul0r ?subr0 ?addr0; first by rewrite mulrC.
by rewrite mulrN mulrC.
Qed.
Lemma extr_hor v : horizontal x (obtain_extr QG RG QH RH v).
Proof. by apply/hor_top; have [-> _ -> _] := extr_parts v; rewrite adjR adjK. Qed.
Lemma extr_intr v : size v = intr_dim r a b -> obtain_intr QG RG QH RH (obtain_extr QG RG QH RH v) = v.
Proof.
rewrite dimE => Hv; rewrite intrE /cK /cG /cH; have [-> -> -> ->] := extr_parts v.
rewrite adjR adjK -scalerDl chalf2 scale1r.
rewrite -[RHS](cat_take_drop (r * r).*2) -[X in _ = _ ++ X](cat_take_drop (r * a).*2) drop_drop addnC.
congr (_ ++ (_ ++ _)).
- have Hs : size (take (r * r).*2 v) = (0 + (r * r).*2)%N by rewrite size_takel // Hv -addnA leq_addr.
  by rewrite -{1}(cat_take_drop (r * r).*2 v) unlow_cat ?Hs // low_unlow // drop0.
- have Hs : size (take ((r * r).*2 + (r * a).*2) v) = ((r * r).*2 + (r * a).*2)%N by rewrite size_takel // Hv leq_addr.
  by rewrite -{1}(cat_take_drop ((r * r).*2 + (r * a).*2) v) unlow_cat ?Hs // low_unlow // [RHS]take_drop [((r * a).*2 + _)%N]addnC.
by rewrite low_unlow // [((r * a).*2 + _)%N]addnC.
Qed.
Lemma intr_lift eta xi : lift x eta = lift x xi -> obtain_intr QG RG QH RH eta = obtain_intr QG RG QH RH xi.
Proof.
move=> E; rewrite !intrE; have := lift_blocks (subp eta xi) (subp eta xi).
rewrite liftB E subrr cinner0l.
have D1 : cK (subp eta xi) = cK eta - cK xi.
  rewrite /cK subp_fst subp_snd /top !mulmxBr !mulmxBl adjD adjN opprD addrACA //.
have D2 : cG (subp eta xi) = cG eta - cG xi.
  by rewrite /cG subp_fst /bot mulmxBr linearB /= mulmxBl.
have D3 : cH (subp eta xi) = cH eta - cH xi.
  by rewrite /cH subp_snd /bot mulmxBr linearB /= mulmxBl.
rewrite D1 D2 D3 => /esym /eqP; rewrite paddr_eq0 ?addr_ge0 ?cinner_ge0 // paddr_eq0 ?cinner_ge0 //.
by case/andP => /andP [/eqP /cinner_eq0 /subr0_eq -> /eqP /cinner_eq0 /subr0_eq ->] /eqP /cinner_eq0 /subr0_eq ->.
Qed.
(** Coordinates of any vector lead back to its projection. *)
Lemma intr_extr CHOL eta : cchol_ok CHOL ->
  obtain_extr QG RG QH RH (obtain_intr QG RG QH RH eta) = projection CHOL x eta.
Proof.
move=> HC; set z := obtain_extr _ _ _ _ _; have Hz : horizontal x z := extr_hor _.
apply: (hor_unique Hx) => //; first exact: proj_hor.
rewrite proj_lift //; apply: subr0_eq; rewrite -liftB; apply: cinner_eq0.
have E : obtain_intr QG RG QH RH z = obtain_intr QG RG QH RH eta by rewrite extr_intr // intr_size.
have P y : cinner (lift x z) (lift x y) = cinner (lift x eta) (lift x y).
  by rewrite -!metricE -!intr_inner E.
by rewrite {1}liftB cinnerBl P subrr.
Qed.
End coordinates.
