(** Proofs about matrices of fixed rank: vector operations in memory, and normal coordinates. *)
From mathcomp Require Import all_ssreflect all_algebra.
Require Import Ring Field.
From Verif Require Import MxTac StiefelModel StiefelSpec StiefelProofs FixedRankModel FixedRankSpec FixedRankProofs.
Import Order.Theory GRing.Theory Num.Theory.
Set Implicit Arguments.
Unset Strict Implicit.
Local Open Scope ring_scope.

Section ops.
Variables (R : rcfType) (r k l : nat).
Add Field fro_field : (rcf_field R).
Implicit Types (f g : fields R r k l) (E Z G : 'M[R]_(r + k, r + l)) (st : store R r k l).

Lemma upd_same st a s : upd st a s a = s.
Proof. by rewrite /upd eqxx. Qed.
Lemma upd_other st a b s : b <> a -> upd st a s b = st b.
Proof. by move=> /eqP /negbTE H; rewrite /upd H. Qed.

Section one.
Variable x : point R r k l.
Hypothesis Hx : on_manifold x.

Lemma rep_comb a b f g E Z : represents x f E -> represents x g Z ->
  represents x (Fields (a *: fdU f + b *: fdU g) (a *: fdD f + b *: fdD g) (a *: fdV f + b *: fdV g)) (a *: E + b *: Z).
Proof.
move=> [Ef Uf Vf] [Eg Ug Vg]; split=> /=.
- by rewrite Ef Eg; mxz; mxlin R; rng R.
- by rewrite mulmxDr !mulZr Uf Ug !scaler0 addr0.
- by rewrite mulmxDr !mulZr Vf Vg !scaler0 addr0.
Qed.
Lemma rep_scale a f E : represents x f E -> represents x (scaleF a f) (a *: E).
Proof.
move=> [Ef Uf Vf]; split=> /=.
- by rewrite Ef; mxz; mxlin R; rng R.
- by rewrite mulZr Uf scaler0.
- by rewrite mulZr Vf scaler0.
Qed.
Lemma rep_axpy a f g E Z : represents x f E -> represents x g Z -> represents x (axpyF a f g) (a *: E + Z).
Proof. by move=> Hf Hg; have := rep_comb a 1 Hf Hg; rewrite !scale1r. Qed.

Lemma scalar_times_ok st a eta res f : sf (st eta) = Some f -> represents x f (sE (st eta)) ->
  exists st' g, scalar_times st a eta res = Some st' /\ st' res = Slot (a *: sE (st eta)) (Some g) /\
    represents x g (a *: sE (st eta)) /\ forall b, b <> res -> st' b = st b.
Proof.
move=> Hf Hr; rewrite /scalar_times Hf; do 2 eexists; split; first by [].
rewrite /add_fields /scal_this !upd_same /=; split; first by [].
by split; [exact: rep_scale|move=> b Hb; rewrite !upd_other].
Qed.
Lemma scalar_vector_add_ok st a eta xi res f g : eta <> res ->
  sf (st eta) = Some f -> represents x f (sE (st eta)) -> sf (st xi) = Some g -> represents x g (sE (st xi)) ->
  exists st' h, scalar_vector_add st a eta xi res = Some st' /\
    st' res = Slot (a *: sE (st eta) + sE (st xi)) (Some h) /\
    represents x h (a *: sE (st eta) + sE (st xi)) /\ forall b, b <> res -> st' b = st b.
Proof.
move=> N Hf Rf Hg Rg; rewrite /scalar_vector_add Hg /axpy_this !upd_same upd_other // upd_other // Hf.
do 2 eexists; split; first by [].
rewrite /add_fields !upd_same /= ?upd_other //; split; first by [].
by split; [exact: rep_axpy|move=> b Hb; rewrite !upd_other].
Qed.
Lemma scalar_vector_add_bad st a eta xi : scalar_vector_add st a eta xi eta = None.
Proof. by rewrite /scalar_vector_add; case: (sf (st xi)) => // g; rewrite /axpy_this !upd_same. Qed.

Lemma with_fields_ok s : (forall f, sf s = Some f -> represents x f (sE s)) ->
  represents x (tF (with_fields x s)) (tE (with_fields x s)) /\ tE (with_fields x s) = onto (pU x) (pV x) (sE s).
Proof.
rewrite /with_fields; case: (sf s) => [f|] H.
- have Hf := H f erefl; split=> //=; rewrite onto_id //; exact: rep_tangent Hf.
- split; [exact: projection_rep|exact: projection_onto].
Qed.
Lemma ontoL a b (E Z : 'M[R]_(r + k, r + l)) : onto (pU x) (pV x) (a *: E + b *: Z) = a *: onto (pU x) (pV x) E + b *: onto (pU x) (pV x) Z.
Proof. by rewrite /onto; mxz; mxlin R; rng R. Qed.
Lemma linear_combination_ok st a eta b xi res :
  (forall c f, c = eta \/ c = xi -> sf (st c) = Some f -> represents x f (sE (st c))) ->
  exists st' h, linear_combination x st a eta b xi res = Some st' /\
    let E := onto (pU x) (pV x) (a *: sE (st eta) + b *: sE (st xi)) in
    st' res = Slot E (Some h) /\ represents x h E /\ forall c, c <> res -> st' c = st c.
Proof.
move=> H; rewrite /linear_combination.
have [Re Ee] := @with_fields_ok (st eta) (fun f => H eta f (or_introl erefl)).
have [Rz Ez] := @with_fields_ok (st xi) (fun f => H xi f (or_intror erefl)).
do 2 eexists; split; first by [].
rewrite /add_fields /scal_this !upd_same ontoL -Ee -Ez /=.
split; first by [].
split; first exact: rep_comb.
by move=> c Hc; rewrite !upd_other.
Qed.
End one.

(** Normal coordinates. *)
Lemma extr_block (QU : 'M[R]_(r + k)) (QV : 'M[R]_(r + l)) (M : 'M[R]_(k, l)) :
  normal_extr QU QV M = QU *m block_mx 0 0 0 M *m QV^T.
Proof.
rewrite /normal_extr; congr (_ *m _ *m _); apply/matrixP => i j; rewrite /block_mx !mxE.
by case: (fintype.split i) => a; rewrite !mxE; case: (fintype.split j) => b; rewrite ?mxE.
Qed.
Lemma intr_block (QU : 'M[R]_(r + k)) (QV : 'M[R]_(r + l)) E : normal_intr QU QV E = drsubmx (QU^T *m E *m QV).
Proof. by apply/matrixP => i j; rewrite [LHS]mxE [RHS]mxE [in RHS]mxE. Qed.

Lemma orth_right q (Q : 'M[R]_q) : orthonormal Q -> Q *m Q^T = 1%:M.
Proof. by move=> H; apply: mulmx1C. Qed.
(** The first columns of Q span the range of U. *)
Lemma hhr_span q (U : 'M[R]_(r + q, r)) (Q : 'M[R]_(r + q)) T : orthonormal U -> orthonormal Q -> Q^T *m U = col_mx T 0 ->
  T *m T^T = 1%:M /\ lsubmx Q = U *m T^T.
Proof.
move=> HU HQ E; have HT : T^T *m T = 1%:M.
  have : (Q^T *m U)^T *m (Q^T *m U) = 1%:M by rewrite trmx_mul trmxK -mulmxA [Q *m _]mulmxA orth_right // mul1mx.
  by rewrite E tr_col_mx mul_row_col trmx0 mul0mx addr0.
have HT' : T *m T^T = 1%:M by apply: mulmx1C.
split=> //; have -> : U = Q *m col_mx T 0 by rewrite -E mulmxA orth_right // mul1mx.
by rewrite -{2}[Q]hsubmxK mul_row_col mulmx0 addr0 -mulmxA HT' mulmx1.
Qed.

Section normal.
Variable x : point R r k l.
Hypothesis Hx : on_manifold x.
Variables (QU : 'M[R]_(r + k)) (QV : 'M[R]_(r + l)) (TU TV : 'M[R]_r).
Hypotheses (HQU : orthonormal QU) (HQV : orthonormal QV).
Hypotheses (HTU : QU^T *m pU x = col_mx TU 0) (HTV : QV^T *m pV x = col_mx TV 0).

Lemma normal_round M : normal_intr QU QV (normal_extr QU QV M) = M.
Proof.
rewrite intr_block extr_block !mulmxA HQU mul1mx -mulmxA HQV mulmx1. exact: block_mxKdr.
Qed.
Lemma normal_isometry (M N : 'M[R]_(k, l)) : inner (normal_extr QU QV M) (normal_extr QU QV N) = inner M N.
Proof.
rewrite !extr_block inner_mulr trmxK -mulmxA HQV mulmx1 inner_mull mulmxA HQU mul1mx.
rewrite /inner tr_block_mx mulmx_block !trmx0 !mul0mx !mulmx0 !addr0 add0r mxtrace_block mxtrace0 add0r. by [].
Qed.
Lemma normal_orth M E : tangent_matrix x E -> inner (normal_extr QU QV M) E = 0.
Proof.
move=> H; rewrite extr_block inner_mulr trmxK inner_mull.
have [TU1 EU] := hhr_span (on_U Hx) HQU HTU; have [TV1 EV] := hhr_span (on_V Hx) HQV HTV.
have KU : (rsubmx QU)^T *m pU x = 0.
  by have := HTU; rewrite -{1}[QU]hsubmxK tr_row_mx mul_col_mx => /eq_col_mx [_ ->].
have KV : (pV x)^T *m rsubmx QV = 0.
  by have := congr1 trmx HTV; rewrite trmx_mul trmxK -{1}[QV]hsubmxK mul_mx_row tr_col_mx trmx0 => /eq_row_mx [_ ->].
have AU : (rsubmx QU)^T *m (1%:M - pU x *m (pU x)^T) = (rsubmx QU)^T by rewrite mulmxBr mulmx1 mulmxA KU mul0mx subr0.
have AV : (1%:M - pV x *m (pV x)^T) *m rsubmx QV = rsubmx QV by rewrite mulmxBl mul1mx -mulmxA KV mulmx0 subr0.
have Z : (rsubmx QU)^T *m E *m rsubmx QV = 0.
  have := congr1 (fun A => (rsubmx QU)^T *m A *m rsubmx QV) (H : _ = 0).
  by rewrite mulmx0 mul0mx /= !mulmxA AU -mulmxA AV.
rewrite -[QU^T *m _]submxK /inner tr_block_mx mulmx_block !trmx0 !mul0mx !add0r mxtrace_block mxtrace0 add0r.
rewrite [X in _ *m X](_ : _ = 0) ?mulmx0 ?mxtrace0 //.
by rewrite -Z /drsubmx ?mulmxA -!mul_dsub_mx -mulmx_rsub trmx_rsub.
Qed.
Lemma normal_all E : (forall Z, tangent_matrix x Z -> inner E Z = 0) -> normal_extr QU QV (normal_intr QU QV E) = E.
Proof.
move=> H; have [TU1 EU] := hhr_span (on_U Hx) HQU HTU; have [TV1 EV] := hhr_span (on_V Hx) HQV HTV.
have O : onto (pU x) (pV x) E = 0.
  apply: inner_eq0; rewrite (inner_onto _ (onto_tangent Hx E)); exact: H (onto_tangent Hx E).
have ZU : (pU x)^T *m E = 0.
  have := congr1 (mulmx (pU x)^T) O; rewrite mulmx0 /onto mulmxBr mulmxDr !mulmxA (on_U Hx) mul1mx. by rewrite addrK.
have ZV : E *m pV x = 0.
  have := congr1 (fun A => A *m pV x) O; rewrite mul0mx /onto mulmxBl mulmxDl -!mulmxA (on_V Hx) !mulmx1.
  by rewrite addrAC subrr add0r.
have ZL : (lsubmx QU)^T *m E = 0 by rewrite EU trmx_mul trmxK -mulmxA ZU mulmx0.
have ZR : E *m lsubmx QV = 0 by rewrite EV mulmxA ZV mul0mx.
rewrite extr_block intr_block.
have -> : block_mx 0 0 0 (drsubmx (QU^T *m E *m QV)) = QU^T *m E *m QV.
  rewrite -[RHS]submxK; congr block_mx.
  - by rewrite /ulsubmx -!mul_usub_mx -trmx_lsub ZL mul0mx linear0.
  - by rewrite /ursubmx -!mul_usub_mx -trmx_lsub ZL mul0mx linear0.
  - by rewrite /dlsubmx -!mul_dsub_mx -mulmx_lsub -mulmxA ZR mulmx0.
by rewrite !mulmxA orth_right // mul1mx -mulmxA orth_right // mulmx1.
Qed.
End normal.
End ops.
