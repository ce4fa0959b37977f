(** Proofs about matrices of fixed rank: metric, projection, gradient, Hessian, vector operations and
    normal coordinates. *)
From mathcomp Require Import all_ssreflect all_algebra.
Require Import Ring Field ArithRing.
From Verif Require Import MxTac StiefelModel StiefelSpec StiefelProofs FixedRankModel FixedRankSpec.
Import Order.Theory GRing.Theory Num.Theory.
Set Implicit Arguments.
Unset Strict Implicit.
Local Open Scope ring_scope.

Section proofs.
Variables (R : rcfType) (r k l : nat).
Add Field fr_field : (rcf_field R).
Implicit Types (x : point R r k l) (f g : fields R r k l) (E Z G : 'M[R]_(r + k, r + l)).

Lemma fieldsP f g : fdU f = fdU g -> fdD f = fdD g -> fdV f = fdV g -> f = g.
Proof. by case: f g => [a b c] [a' b' c'] /= -> -> ->. Qed.
Lemma divK q (A : 'M[R]_(q, r)) (B : 'M[R]_r) : B \in unitmx -> mdiv A B *m B = A.
Proof. by move=> H; rewrite /mdiv -mulmxA mulVmx // mulmx1. Qed.
Lemma Kdiv q (A : 'M[R]_(q, r)) (B : 'M[R]_r) : B \in unitmx -> mdiv (A *m B) B = A.
Proof. by move=> H; rewrite /mdiv -mulmxA mulmxV // mulmx1. Qed.
Lemma divDl q (A B : 'M[R]_(q, r)) (C : 'M[R]_r) : mdiv (A + B) C = mdiv A C + mdiv B C.
Proof. exact: mulmxDl. Qed.
Lemma mulz p q (W A : 'M[R]_(q, r)) (B : 'M[R]_r) (C : 'M[R]_(p, q)) : C *m A = 0 -> C *m mdiv A B = 0.
Proof. by move=> H; rewrite /mdiv mulmxA H mul0mx. Qed.

Lemma dims : (intr_dim r k l + k * l = extr_dim r k l)%N.
Proof. rewrite /intr_dim /extr_dim !addKn -!plusE -!multE; ring. Qed.
Section one.
Variable x : point R r k l.
Hypothesis Hx : on_manifold x.
Local Notation U := (pU x).
Local Notation D := (pD x).
Local Notation V := (pV x).
Let HU : U^T *m U = 1%:M := on_U Hx.
Let HV : V^T *m V = 1%:M := on_V Hx.
Let HD : D \in unitmx := on_D Hx.
Let HDt : D^T \in unitmx.
Proof. by rewrite unitmx_tr. Qed.

Lemma assembleE f : assemble x f = fdU f *m D *m V^T + U *m fdD f *m V^T + U *m D *m (fdV f)^T.
Proof. by rewrite /assemble addrC [X in _ + X]addrC addrA. Qed.

Lemma UE_V f E : represents x f E -> E *m V = fdU f *m D + U *m fdD f.
Proof.
case=> -> _ HfV; rewrite !mulmxDl -!mulmxA HV mulmx1.
have -> : (fdV f)^T *m V = 0 by rewrite -[V]trmxK -trmx_mul HfV trmx0.
by rewrite !mulmx0 addr0 !mulmx1.
Qed.
Lemma UtE f E : represents x f E -> U^T *m E = fdD f *m V^T + D *m (fdV f)^T.
Proof.
case=> -> HfU _; rewrite !mulmxDr !mulmxA HfU !mul0mx add0r HU !mul1mx. by [].
Qed.
Lemma UtEV f E : represents x f E -> U^T *m (E *m V) = fdD f.
Proof. by move=> H; rewrite (UE_V H) mulmxDr !mulmxA (rep_U H) mul0mx add0r HU mul1mx. Qed.

Lemma projection_rep E : is_tangent x (projection x E).
Proof.
split; rewrite /tE /projection /=; first exact: assembleE.
- by rewrite /mdiv mulmxA mulmxBr !mulmxA HU mul1mx subrr mul0mx.
- rewrite /mdiv mulmxA mulmxBr; mxz; rewrite HV mul1mx.
  exact: subrr.
Qed.
Lemma ontoE E : onto U V E = E - (1%:M - U *m U^T) *m E *m (1%:M - V *m V^T).
Proof.
rewrite /onto; mxz; rewrite !opprD !opprK.
by mxlin R; rng R.
Qed.
Lemma projection_onto E : tE (projection x E) = onto U V E.
Proof.
rewrite /projection /= assembleE /= divK // /mdiv; mxz.
have -> : (invmx D^T)^T = invmx D by rewrite trmx_inv trmxK.
rewrite -[U *m D *m invmx D]mulmxA mulmxV // mulmx1; mxz.
by rewrite /onto; mxz; mxlin R; rng R.
Qed.
Lemma rep_tangent f E : represents x f E -> tangent_matrix x E.
Proof.
move=> H; have K : E *m (1%:M - V *m V^T) = U *m D *m (fdV f)^T.
  rewrite mulmxBr mulmx1 mulmxA (UE_V H) {1}(rep_E H) [in X in _ - X]mulmxDl.
  by mxlin R; rng R.
rewrite /tangent_matrix -mulmxA K mulmxBl mul1mx -[U *m U^T *m _]mulmxA; mxz.
by rewrite -[U *m U^T *m U]mulmxA HU mulmx1 subrr.
Qed.
Lemma onto_tangent E : tangent_matrix x (onto U V E).
Proof. by rewrite -projection_onto; exact: rep_tangent (projection_rep E). Qed.
Lemma onto_id E : tangent_matrix x E -> onto U V E = E.
Proof. by move=> H; rewrite ontoE (H : _ = 0) subr0. Qed.
Lemma rep_unique f E : represents x f E -> f = tF (projection x E).
Proof.
move=> H; have E1 := UE_V H; have E2 := UtEV H; have E3 := UtE H; apply: fieldsP => /=.
- by rewrite E2 E1 addrK Kdiv.
- by rewrite E2.
- rewrite E2; have -> : E^T *m U = V *m (fdD f)^T + fdV f *m D^T.
    by rewrite -[U]trmxK -trmx_mul E3; mxz.
  by rewrite addrAC subrr add0r Kdiv.
Qed.
Lemma rep_exists E : tangent_matrix x E -> represents x (tF (projection x E)) E.
Proof. by move=> H; have := projection_rep E; rewrite /is_tangent projection_onto onto_id. Qed.

Lemma metricE f g E Z : represents x f E -> represents x g Z -> metric x (Tvec E f) (Tvec Z g) = inner E Z.
Proof.
move=> Hf Hg; rewrite /metric /tU /tV /tD /= !dotE.
rewrite (rep_E Hf) !innerDl.
have P1 : inner (fdU f *m D *m V^T) Z = inner (fdU f *m D) (fdU g *m D).
  rewrite inner_mulr trmxK (UE_V Hg) innerDr [X in _ + X](_ : _ = 0) ?addr0 //.
  by rewrite /inner trmx_mul -mulmxA [(fdU f)^T *m _]mulmxA -[(fdU f)^T *m U]trmxK trmx_mul trmxK (rep_U Hf) trmx0 mul0mx mulmx0 mxtrace0.
have P2 : inner (U *m fdD f *m V^T) Z = inner (fdD f) (fdD g).
  by rewrite inner_mulr trmxK inner_mull (UtEV Hg).
have P3 : inner (U *m D *m (fdV f)^T) Z = inner (fdV f *m D^T) (fdV g *m D^T).
  rewrite -mulmxA inner_mull (UtE Hg) innerDr [X in X + _](_ : _ = 0) ?add0r.
    by rewrite -inner_tr !trmx_mul !trmxK.
  by rewrite innerC inner_mulr trmxK -mulmxA -[(fdV f)^T *m V]trmxK trmx_mul trmxK (rep_V Hf) trmx0 mulmx0 inner0r.
rewrite P1 P2 P3; rng R.
Qed.
Lemma metric_inner eta xi : is_tangent x eta -> is_tangent x xi -> metric x eta xi = inner (tE eta) (tE xi).
Proof. by case: eta xi => [E f] [Z g]; exact: metricE. Qed.

Lemma tangentB E Z : tangent_matrix x E -> tangent_matrix x Z -> tangent_matrix x (E - Z).
Proof.
rewrite /tangent_matrix; set P := 1%:M - _ *m _; set Q := 1%:M - _ *m _; clearbody P Q.
by move=> H1 H2; rewrite mulmxBr mulmxBl H1 H2 subrr.
Qed.
Lemma inner_onto E Z : tangent_matrix x Z -> inner (onto U V E) Z = inner E Z.
Proof.
move=> H; rewrite ontoE innerBl [X in _ - X](_ : _ = 0) ?subr0 //.
rewrite inner_mulr inner_mull.
have sym q (W : 'M[R]_(q, r)) : (1%:M - W *m W^T)^T = 1%:M - W *m W^T by rewrite linearB /= trmx1 trmx_mul trmxK.
by rewrite !sym mulmxA (H : _ = 0) inner0r.
Qed.
Lemma projection_orth E xi : is_tangent x xi -> inner (E - tE (projection x E)) (tE xi) = 0.
Proof. by move=> H; rewrite innerBl projection_onto inner_onto ?subrr //; exact: rep_tangent H. Qed.
Lemma projection_nearest E xi : is_tangent x xi ->
  inner (E - tE (projection x E)) (E - tE (projection x E)) <= inner (E - tE xi) (E - tE xi).
Proof.
move=> H; set P := tE (projection x E).
have T : tangent_matrix x (P - tE xi).
  exact: tangentB (rep_tangent (projection_rep E)) (rep_tangent H).
have -> : E - tE xi = (E - P) + (P - tE xi) by rewrite addrA subrK.
have Z : inner (E - P) (P - tE xi) = 0 by rewrite innerBl /P projection_onto inner_onto ?subrr // -projection_onto.
move: (E - P) (P - tE xi) Z => A B Z.
by rewrite innerDl !innerDr [inner B A]innerC Z addr0 add0r ler_addl; exact: inner_ge0.
Qed.
Lemma gradient_ok G xi : is_tangent x xi -> metric x (projection x G) xi = inner G (tE xi).
Proof. by move=> H; rewrite metric_inner //; [rewrite projection_onto inner_onto //; exact: rep_tangent H|exact: projection_rep]. Qed.
Lemma gradient_unique eta G : is_tangent x eta -> (forall xi, is_tangent x xi -> metric x eta xi = inner G (tE xi)) ->
  eta = projection x G.
Proof.
move=> H K; have HP := projection_rep G.
have T : tangent_matrix x (tE eta - tE (projection x G)).
  exact: tangentB (rep_tangent H) (rep_tangent HP).
have Z : tE eta = tE (projection x G).
  apply/eqP; rewrite -subr_eq0; apply/eqP; apply: inner_eq0.
  pose d := Tvec (tE eta - tE (projection x G)) (tF (projection x (tE eta - tE (projection x G)))).
  have Hd : is_tangent x d by exact: rep_exists.
  have := K d Hd; rewrite -(gradient_ok G Hd) !metric_inner //= => /eqP; rewrite -subr_eq0 -innerBl => /eqP ->. by [].
have Ef : tF eta = tF (projection x G) by rewrite (rep_unique H) Z -(rep_unique HP).
move: Z Ef; move: (projection x G) => P; case: eta {H K T} P {HP} => [E f] [E' f'] /= -> ->. by [].
Qed.
Lemma metric_pos eta : is_tangent x eta -> tE eta <> 0 -> 0 < metric x eta eta.
Proof.
move=> H N; rewrite metric_inner // lt_neqAle inner_ge0 andbT eq_sym; apply/eqP => /inner_eq0; exact: N.
Qed.
Lemma metric_sym eta xi : metric x eta xi = metric x xi eta.
Proof. by rewrite /metric !dotE innerC [inner (tV eta *m _) _]innerC [inner (tD eta) _]innerC. Qed.

(** The Hessian. *)
Lemma hess_rep G eta e : is_tangent x (hess x G eta e).
Proof.
have HP := projection_rep e; split; rewrite /hess /=; first exact: assembleE.
- rewrite mulmxDr (rep_U HP) add0r /mdiv mulmxA mulmxBr !mulmxA HU mul1mx subrr mul0mx. by [].
- rewrite mulmxDr (rep_V HP) add0r /mdiv mulmxA mulmxBr !mulmxA HV mul1mx subrr mul0mx. by [].
Qed.
Lemma hessE G eta e : tE (hess x G eta e) = onto U V e + (1%:M - U *m U^T) *m G *m tV eta *m V^T
  + U *m (tU eta)^T *m G *m (1%:M - V *m V^T).
Proof.
rewrite -projection_onto (_ : tE (projection x e) = assemble x (tF (projection x e))) // /hess.
move: (projection x e) => P; rewrite /= /assemble /=.
rewrite [(tU P + _) *m D]mulmxDl divK // /mdiv; mxz.
have -> : (invmx D^T)^T = invmx D by rewrite trmx_inv trmxK.
rewrite -[U *m D *m invmx D]mulmxA mulmxV // mulmx1; mxz.
rewrite /tU /tV /tD.
by mxlin R; rng R.
Qed.
Lemma hess_quad G eta xi e : is_tangent x eta -> is_tangent x xi ->
  metric x (hess x G eta e) xi = inner e (tE xi) + inner G (tU xi *m D *m (tV eta)^T) + inner G (tU eta *m D *m (tV xi)^T).
Proof.
move=> He Hz; rewrite metric_inner //; last exact: hess_rep.
have TZ := rep_tangent Hz.
rewrite hessE (innerDl (onto U V e + _)) (innerDl (onto U V e)) inner_onto //; congr (_ + _ + _).
- rewrite inner_mulr trmxK (UE_V Hz) -[_ *m G *m tV eta]mulmxA inner_mull.
  have -> : (1%:M - U *m U^T)^T = 1%:M - U *m U^T by rewrite linearB /= trmx1 trmx_mul trmxK.
  have -> : (1%:M - U *m U^T) *m (tU xi *m D + U *m tD xi) = tU xi *m D.
    rewrite mulmxBl mul1mx -mulmxA mulmxDr !mulmxA (rep_U Hz) mul0mx add0r HU mul1mx.
    by rewrite addrK.
  by rewrite inner_mulr.
- rewrite inner_mulr -[U *m _ *m G]mulmxA inner_mull.
  have -> : (1%:M - V *m V^T)^T = 1%:M - V *m V^T by rewrite linearB /= trmx1 trmx_mul trmxK.
  rewrite [U^T *m _]mulmxA (UtE Hz).
  have -> : (tD xi *m V^T + D *m (tV xi)^T) *m (1%:M - V *m V^T) = D *m (tV xi)^T.
    rewrite mulmxBr mulmx1 mulmxDl !mulmxA -[tD xi *m V^T *m V]mulmxA HV mulmx1.
    have -> : D *m (tV xi)^T *m V = 0 by rewrite -mulmxA -[(tV xi)^T *m V]trmxK trmx_mul trmxK (rep_V Hz) trmx0 mulmx0.
    by rewrite mul0mx addr0 addrC addKr.
  by rewrite inner_mull trmxK mulmxA.
Qed.
Lemma hess_sym G eta xi e z : is_tangent x eta -> is_tangent x xi -> inner e (tE xi) = inner (tE eta) z ->
  metric x (hess x G eta e) xi = metric x eta (hess x G xi z).
Proof.
move=> He Hz HE; rewrite (hess_quad G e He Hz) metric_sym (hess_quad G z Hz He) HE [inner z _]innerC; rng R.
Qed.
End one.
End proofs.
