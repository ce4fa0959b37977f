(** The Hessian of matrices of fixed rank is the projected derivative of the gradient field. *)
From mathcomp Require Import all_ssreflect all_algebra.
Require Import Ring Field.
From Verif Require Import MxTac StiefelModel StiefelSpec StiefelProofs.
From Verif Require Import FixedRankModel FixedRankSpec FixedRankProofs FixedRankCurve FixedRankRetr.
Import Order.TTheory GRing.Theory Num.Theory.
Set Implicit Arguments.
Unset Strict Implicit.
Local Open Scope ring_scope.

Section hess.
Variables (R : rcfType) (r k l : nat).
Add Field frh_field : (rcf_field R).

Lemma mvel_at0 p q (c : R -> 'M[R]_(p, q)) a h : mvel c a h -> c 0 = a.
Proof.
move=> H; apply/matrixP => i j; have [C [e [e0 [_ [_ V]]]]] := H i j.
have [|u [_ ->]] := V 0; first by rewrite normr0 ltW.
by rng R.
Qed.
Lemma velocity_orth_near q (c : R -> 'M[R]_(q, r)) a h : mvel c a h ->
  (exists e : R, 0 < e /\ forall t : R, `|t| <= e -> orthonormal (c t)) -> h^T *m a + a^T *m h = 0.
Proof.
move=> H [e [e0 K]]; have M := mvel_mul (mvel_tr H) H.
have C : mvel (fun t => (c t)^T *m c t) (a^T *m a) 0.
  have -> : a^T *m a = 1%:M.
    by rewrite -(mvel_at0 H); apply: (K 0); rewrite normr0 ltW.
  by apply: mvel_near (mvel_const 1%:M); exists e; split=> // t Ht; rewrite (K t Ht : _ = _).
exact: mvel_unique M C.
Qed.
(** The projector on the range of a curve of orthonormal matrices moves by the horizontal part. *)
Lemma projector_vel q (c : R -> 'M[R]_(q, r)) a h d : mvel c a h ->
  (exists e : R, 0 < e /\ forall t : R, `|t| <= e -> orthonormal (c t)) -> d = h - a *m a^T *m h ->
  mvel (fun t => c t *m (c t)^T) (a *m a^T) (d *m a^T + a *m d^T).
Proof.
move=> H K ->; have := mvel_mul H (mvel_tr H).
have O := velocity_orth_near H K.
rewrite (_ : (h - a *m a^T *m h) *m a^T + a *m (h - a *m a^T *m h)^T = h *m a^T + a *m h^T) //.
have : a *m (h^T *m a + a^T *m h) *m a^T = 0 by rewrite O mulmx0 mul0mx.
mxz => Z; rewrite -[RHS]subr0 -Z.
by mxlin R; rng R.
Qed.

Section one.
Variable x : point R r k l.
Hypothesis Hx : on_manifold x.
Local Notation U := (pU x).
Local Notation D := (pD x).
Local Notation V := (pV x).
(** The horizontal parts of the velocities of the factors are the fields of the velocity. *)
Lemma factor_velocities f E hU hD hV : represents x f E ->
  E = (hU *m D + U *m hD) *m V^T + U *m D *m hV^T ->
  fdU f = hU - U *m U^T *m hU /\ fdV f = hV - V *m V^T *m hV.
Proof.
move=> Hf EE; have HU := on_U Hx; have HV := on_V Hx; have HD := on_D Hx.
have HDt : D^T \in unitmx by rewrite unitmx_tr.
have P1 : (1%:M - U *m U^T) *m U = 0 by rewrite mulmxBl mul1mx -mulmxA HU mulmx1 subrr.
have P2 : V^T *m (1%:M - V *m V^T) = 0 by rewrite mulmxBr mulmx1 mulmxA HV mul1mx subrr.
split.
- have A : (1%:M - U *m U^T) *m (E *m V) = fdU f *m D.
    rewrite (UE_V Hx Hf) mulmxDr [X in _ + X]mulmxA P1 mul0mx addr0 mulmxA mulmxBl mul1mx.
    by rewrite -(mulmxA U) (rep_U Hf) mulmx0 subr0.
  have B : (1%:M - U *m U^T) *m (E *m V) = (hU - U *m U^T *m hU) *m D.
    have -> : E *m V = hU *m D + U *m (hD + D *m hV^T *m V).
      by rewrite EE; mxz; rewrite -!(mulmxA _ V^T V) HV !mulmx1 addrA.
    rewrite (mulmxDr (1%:M - U *m U^T)) [(1%:M - _) *m (U *m _)]mulmxA P1 mul0mx addr0 mulmxA.
    by rewrite [(_ - _) *m hU]mulmxBl mul1mx.
  by rewrite -[LHS](mulmxK HD) -A B mulmxK.
- have A : (U^T *m E) *m (1%:M - V *m V^T) = D *m (fdV f)^T.
    rewrite (UtE Hx Hf) mulmxDl -[fdD f *m V^T *m _]mulmxA P2 mulmx0 add0r mulmxBr mulmx1.
    have Z : (fdV f)^T *m V = 0 by rewrite -[V]trmxK -trM (rep_V Hf) trmx0.
    by rewrite mulmxA -[D *m _ *m V]mulmxA Z mulmx0 mul0mx subr0.
  have B : (U^T *m E) *m (1%:M - V *m V^T) = D *m (hV - V *m V^T *m hV)^T.
    have -> : U^T *m E = (U^T *m hU *m D + hD) *m V^T + D *m hV^T.
      by rewrite EE; mxz; rewrite HU !mul1mx.
    rewrite (mulmxDl (_ *m V^T)) -(mulmxA _ V^T) P2 mulmx0 add0r -mulmxA; congr (_ *m _).
    by rewrite mulmxBr mulmx1 trD trN !trM trmxK.
  have : D *m (fdV f)^T = D *m (hV - V *m V^T *m hV)^T by rewrite -A B.
  move/(congr1 (mulmx (invmx D))); rewrite !mulKmx // => /(congr1 trmx); rewrite !trmxK. by [].
Qed.

Lemma hess_derivative (c : R -> point R r k l) (Gc : R -> 'M[R]_(r + k, r + l)) G e eta hU hD hV :
  is_tangent x eta -> (exists d : R, 0 < d /\ forall t : R, `|t| <= d -> on_manifold (c t)) ->
  velocity (fun t => pU (c t)) U hU -> velocity (fun t => pD (c t)) D hD -> velocity (fun t => pV (c t)) V hV ->
  velocity (fun t => pX (c t)) (pX x) (tE eta) -> velocity Gc G e ->
  exists h, velocity (fun t => tE (projection (c t) (Gc t))) (tE (projection x G)) h /\
    tE (hess x G eta e) = onto U V h.
Proof.
move=> He [d [d0 Hc]] /velocity_mvel MU /velocity_mvel MD /velocity_mvel MV /velocity_mvel MX /velocity_mvel MG.
have HU := on_U Hx; have HV := on_V Hx.
have EX : tE eta = (hU *m D + U *m hD) *m V^T + U *m D *m hV^T.
  have M := mvel_mul (mvel_mul MU MD) (mvel_tr MV).
  apply: mvel_unique MX _; rewrite (on_X Hx); apply: mvel_near M; exists d; split=> // t Ht.
  by rewrite (on_X (Hc t Ht)).
have [FU FV] := factor_velocities He EX.
have KU : exists e : R, 0 < e /\ forall t : R, `|t| <= e -> orthonormal (pU (c t)) by exists d; split=> // t /Hc [].
have KV : exists e : R, 0 < e /\ forall t : R, `|t| <= e -> orthonormal (pV (c t)) by exists d; split=> // t /Hc [].
have MP := projector_vel MU KU FU; have MQ := projector_vel MV KV FV.
have M := mvel_add (mvel_add (mvel_mul MP MG) (mvel_mul MG MQ)) (mvel_opp (mvel_mul (mvel_mul MP MG) MQ)).
eexists; split.
  have EO p q (A : 'M[R]_(p, r)) (B : 'M[R]_(q, r)) C : onto A B C = A *m A^T *m C + C *m (B *m B^T) - A *m A^T *m C *m (B *m B^T).
    by rewrite /onto !mulmxA.
  apply: mvel_velocity; rewrite projection_onto // EO; apply: mvel_near M; exists d; split=> // t Ht.
  by rewrite projection_onto ?EO; last exact: Hc.
have R1 : U^T *m fdU (tF eta) = 0 := rep_U He.
have R2 : (fdV (tF eta))^T *m V = 0 by rewrite -[V]trmxK -trM (rep_V He) trmx0.
rewrite hessE // [RHS]ontoE /onto /tU /tV.
move: (fdU (tF eta)) (fdV (tF eta)) R1 R2 => dU dV R1 R2.
have P1 : (1%:M - U *m U^T) *m U = 0 by rewrite mulmxBl mul1mx -mulmxA HU mulmx1 subrr.
have P2 : V^T *m (1%:M - V *m V^T) = 0 by rewrite mulmxBr mulmx1 mulmxA HV mul1mx subrr.
have P3 : (1%:M - U *m U^T) *m dU = dU by rewrite mulmxBl mul1mx -mulmxA R1 mulmx0 subr0.
have P4 : dV^T *m (1%:M - V *m V^T) = dV^T by rewrite mulmxBr mulmx1 mulmxA R2 mul0mx subr0.
set h := (X in _ = X - _).
have -> : (1%:M - U *m U^T) *m h *m (1%:M - V *m V^T) = dU *m U^T *m G *m (1%:M - V *m V^T) + (1%:M - U *m U^T) *m G *m V *m dV^T.
  have -> : h = U *m (dU^T *m G + U^T *m e - dU^T *m G *m V *m V^T - U^T *m e *m V *m V^T - U^T *m G *m (dV *m V^T + V *m dV^T))
     + (e *m V + G *m dV - dU *m U^T *m G *m V) *m V^T + (dU *m U^T *m G + G *m V *m dV^T).
    by rewrite /h; mxz; rewrite ?opprD ?opprK; mxlin R; rng R.
  move: (dU^T *m G + _ - _ - _ - _) (e *m V + _ - _) => A B.
  rewrite !(mulmxDr (1%:M - U *m U^T)) !(mulmxDl _ _ (1%:M - V *m V^T)).
  rewrite [(1%:M - U *m U^T) *m (U *m A)]mulmxA P1 !mul0mx add0r.
  rewrite -[(1%:M - U *m U^T) *m (B *m V^T) *m _]mulmxA -[B *m V^T *m _]mulmxA P2 !mulmx0 add0r; congr (_ + _).
    by rewrite -2!(mulmxA dU) mulmxA P3 -!mulmxA.
  by rewrite -!mulmxA P4.
rewrite /h; mxz; rewrite ?opprD ?opprK.
by mxlin R; rng R.
Qed.
End one.
End hess.
