(** Concrete trust-region runs and instances of the hypotheses. *)
From Coq Require Import QArith Reals List Bool Lia Arith Lra Qreals.
From Coq Require Import Floats.SpecFloat.
From Verif Require Import Arith TrustRegionModel TrustRegionSpec TrustRegionProofs TrustRegionFacts TCGProofs.
Import ListNotations.
Local Open Scope nat_scope.

Notation A := D_arith.
Notation dq q := (d_of_Q q).
Notation D := spec_float.

(** The line with an objective, its derivative and second derivative, binary64. *)
Definition dgeo (f g : D -> D) : trgeo A :=
  Build_trgeo A D D (fun _ a v w => @fadd A (@fmul A a v) w) (fun _ v w => @fmul A v w) (fun x v => @fadd A x v) f g.
Definition dspace (h : D) : tspace A :=
  Build_tspace A D (fun a v w => @fadd A (@fmul A a v) w) (fun a v => @fmul A a v) (fun v w => @fmul A v w)
    (fun v => v) (fun v => @fmul A h v) (fun v => v).
Definition dcg (mininner : nat) : tcgparams A := Build_tcgparams A 10 mininner (dq (1#10)) (fun x => x) false.

(** RTRNewton on the line. *)
Definition denv (f g h : D -> D) (mininner : nat) : tenv A (dgeo f g) (X:=unit) :=
  Build_tenv A (dgeo f g)
    (fun s => let x := tx1 A (dgeo f g) s in
       fst (tcg A (dspace (h x)) (dcg mininner) (tgf1 A (dgeo f g) s) (tDelta A (dgeo f g) s)
              (initial_vector A (dspace (h x)) (tgf1 A (dgeo f g) s))))
    (fun s v => @fmul A (h (tx1 A (dgeo f g) s)) v) (fun _ => tt) (fun _ => tt) (fun _ => dq 0) None.

(** Defaults of SetDefaultParams except the radii, Accuracy and the iteration limits. *)
Definition dpar (d0 acc : Q) (maxit minit : nat) : trparams A :=
  Build_trparams A (dq (1#10)) (dq (1#4)) (dq 2) (dq (1#1000000)) (dq 10000) (dq d0) (dq (1#1000000)) (dq acc)
    (dq 1000) TGRAD_F maxit minit true.
Definition dstart (f g h : D -> D) (mi : nat) (q : trparams A) (x : D) : ts A (dgeo f g) (X:=unit) :=
  tstart A (dgeo f g) q (denv f g h mi) x (dq 0) (dq 0) (dq 0) (dq 0) TRMIN tt.

(** x^4 - 2 x^2 *)
Definition fW (x : D) : D := @fsub A (@fmul A (@fmul A x x) (@fmul A x x)) (@fmul A (dq 2) (@fmul A x x)).
Definition gW (x : D) : D := @fsub A (@fmul A (dq 4) (@fmul A (@fmul A x x) x)) (@fmul A (dq 4) x).
Definition hW (x : D) : D := @fsub A (@fmul A (dq 12) (@fmul A x x)) (dq 4).
(** x + x^2/2 - x^3 *)
Definition fC (x : D) : D := @fsub A (@fadd A x (@fmul A (dq (1#2)) (@fmul A x x))) (@fmul A (@fmul A x x) x).
Definition gC (x : D) : D := @fsub A (@fadd A (dq 1) x) (@fmul A (dq 3) (@fmul A x x)).
Definition hC (x : D) : D := @fsub A (dq 1) (@fmul A (dq 6) x).

Definition tdone {G} (o : toutcome A G (X:=unit)) (c : ts A G (X:=unit) -> bool) : bool :=
  match o with TDone _ _ s => c s | _ => false end.

Lemma tdone_ex {G} (o : toutcome A G (X:=unit)) c : tdone o c = true -> exists s, o = TDone A G s /\ c s = true.
Proof. destruct o as [s| |]; simpl; try discriminate. eauto. Qed.

(** A run on x^4 - 2x^2 from 1/10: the first step is rejected, then steps are accepted until
    the stopping test succeeds. *)
Lemma trun_example :
  tdone (trun A (dgeo fW gW) (dpar 10 0 20 0) (denv fW gW hW 0) 20 (dstart fW gW hW 0 (dpar 10 0 20 0) (dq (1#10))))
    (fun s => Nat.ltb 2 (titer _ _ s) && Nat.ltb (titer _ _ s) 20 && tstop _ _ s) = true.
Proof. vm_compute. reflexivity. Qed.

(** After the rejected first step entry 1 of the function series is not the value of the iterate. *)
Lemma series_helper (G : trgeo A) q (e : tenv A G (X:=unit)) n x0 x20 t0 c0 st0 :
  let s0 := tstart A G q e x0 x20 t0 t0 c0 st0 tt in
  tdone (trun A G q e n s0)
    (fun s => Nat.eqb (titer A G s) 1 &&
       match nth 1 (tfun A G s) None with Some v => negb (SFeqb v (tf A G (tx1 A G s))) | None => false end) = true ->
  exists sf l v,
  trun A G q e n s0 = TDone A G sf /\ tends q e s0 sf l /\ titer A G sf = 1 /\
  nth 1 (tfun A G sf) None = Some v /\ feq v (tf A G (tx1 A G sf)) = false /\ feq v (tf1 A G sf) = false.
Proof.
  intros s0 H. destruct (tdone_ex _ _ H) as (s & E & H0).
  apply andb_true_iff in H0 as [H1 H3]. apply Nat.eqb_eq in H1.
  destruct (nth 1 (tfun A G s) None) as [v|] eqn:Ev; [|discriminate]. apply negb_true_iff in H3.
  destruct (tloop_ends _ _ _ _ _ _ _ (tvisited_start _ _ _) E) as [l Hl].
  destruct (tends_belongs _ _ _ _ _ _ _ _ _ _ _ Hl) as ((B1 & _) & _).
  exists s, l, v. rewrite B1. auto 10.
Qed.

Lemma rejected_series :
  tdone (trun A (dgeo fW gW) (dpar 10 0 1 0) (denv fW gW hW 0) 20
          (tstart A (dgeo fW gW) (dpar 10 0 1 0) (denv fW gW hW 0) (dq (1#10)) (dq 0) (dq 0) (dq 0) (dq 0) TRMIN tt))
    (fun s => Nat.eqb (titer A (dgeo fW gW) s) 1 &&
       match nth 1 (tfun A (dgeo fW gW) s) None with Some v => negb (SFeqb v (tf A (dgeo fW gW) (tx1 A (dgeo fW gW) s))) | None => false end) = true.
Proof. vm_compute. reflexivity. Qed.

Lemma rejected_series_ex :
  exists (G : trgeo A) q (e : tenv A G (X:=unit)) n x0 x20 t0 c0 st0 sf l v,
  let s0 := tstart A G q e x0 x20 t0 t0 c0 st0 tt in
  trun A G q e n s0 = TDone A G sf /\ tends q e s0 sf l /\ titer A G sf = 1 /\
  nth 1 (tfun A G sf) None = Some v /\ feq v (tf A G (tx1 A G sf)) = false /\ feq v (tf1 A G sf) = false.
Proof.
  exists (dgeo fW gW), (dpar 10 0 1 0), (denv fW gW hW 0), 20, (dq (1#10)), (dq 0), (dq 0), (dq 0), TRMIN.
  exact (series_helper _ _ _ _ _ _ _ _ _ rejected_series).
Qed.

(** With Accuracy > 0 a step that increases the objective is accepted although the model
    predicted a decrease. *)
Lemma accepted_increase :
  tdone (trun A (dgeo fC gC) (dpar 10 2 1 0) (denv fC gC hC 0) 20 (dstart fC gC hC 0 (dpar 10 2 1 0) (dq 0)))
    (fun s => Nat.eqb (titer _ _ s) 1 && SFltb (fC (dq 0)) (tf1 _ _ s) &&
      SFltb (model_diff _ _ (denv fC gC hC 0) (with_cand _ _ (denv fC gC hC 0) (dstart fC gC hC 0 (dpar 10 2 1 0) (dq 0)))) (dq 0)) = true.
Proof. vm_compute. reflexivity. Qed.

Lemma accepted_increase_ex :
  exists (G : trgeo A) q (e : tenv A G (X:=unit)) n x0 x20 t0 c0 st0 sf,
  let s0 := tstart A G q e x0 x20 t0 t0 c0 st0 tt in
  trun A G q e n s0 = TDone A G sf /\ flt (model_diff A G e (with_cand A G e s0)) (fq 0) = true /\
  flt (tf A G x0) (tf1 A G sf) = true.
Proof.
  destruct (tdone_ex _ _ accepted_increase) as (s & E & H).
  rewrite !andb_true_iff in H. destruct H as [[H1 H2] H3].
  exists (dgeo fC gC), (dpar 10 2 1 0), (denv fC gC hC 0), 20, (dq 0), (dq 0), (dq 0), (dq 0), TRMIN, s.
  split; [exact E|]. split; [exact H3|exact H2].
Qed.

(** Min_Iteration above Max_Iteration: a write outside the arrays. *)
Definition toob {G} (o : toutcome A G (X:=unit)) : bool := match o with TOutOfBounds _ _ => true | _ => false end.
Lemma toob_eq {G} (o : toutcome A G (X:=unit)) : toob o = true -> o = TOutOfBounds A G.
Proof. destruct o; easy. Qed.
Lemma toob_run :
  toob (trun A (dgeo fW gW) (dpar 10 0 1 3) (denv fW gW hW 0) 20 (dstart fW gW hW 0 (dpar 10 0 1 3) (dq (1#10)))) = true.
Proof. vm_compute. reflexivity. Qed.
Lemma toob_ex :
  exists (G : trgeo A) q (e : tenv A G (X:=unit)) n x0 x20 t0 c0 st0,
  let s0 := tstart A G q e x0 x20 t0 t0 c0 st0 tt in
  tMax_Iteration A q < tMin_Iteration A q /\ trun A G q e n s0 = TOutOfBounds A G.
Proof.
  exists (dgeo fW gW), (dpar 10 0 1 3), (denv fW gW hW 0), 20, (dq (1#10)), (dq 0), (dq 0), (dq 0), TRMIN.
  split; [simpl; lia|]. exact (toob_eq _ toob_run).
Qed.

(** With Min_Inner_Iter = 1 the inner solver divides 0 by 0 after an exact first step. *)
Lemma inner_nan :
  let '(v, st, _) := tcg A (dspace (dq 1)) (dcg 1) (dq 1) (dq 10) (initial_vector A (dspace (dq 1)) (dq 1)) in
  (v, st) = (S754_nan, EXCREGION).
Proof. vm_compute. reflexivity. Qed.

Lemma inner_nan_ex :
  exists (G : tspace A) p g Delta v st n,
  tcg A G p g Delta (initial_vector A G g) = (v, st, n) /\ Min_Inner_Iter A p = 1 /\ 1 < Max_Inner_Iter A p /\
  flt (fq 0) Delta = true /\ fle (met A G v v) (fmul Delta Delta) = false.
Proof.
  exists (dspace (dq 1)), (dcg 1), (dq 1), (dq 10), S754_nan, EXCREGION, 1.
  split; [vm_compute; reflexivity|]. split; [reflexivity|]. split; [simpl; lia|]. split; vm_compute; reflexivity.
Qed.

Lemma inner_nan_model :
  exists (G : tspace A) p g Delta v st n,
  tcg A G p g Delta (initial_vector A G g) = (v, st, n) /\ Min_Inner_Iter A p = 1 /\ 1 < Max_Inner_Iter A p /\
  flt (fq 0) Delta = true /\ fle (fadd (met A G v g) (fmul (fq (1#2)) (met A G v (hess A G v)))) (fq 0) = false.
Proof.
  exists (dspace (dq 1)), (dcg 1), (dq 1), (dq 10), S754_nan, EXCREGION, 1.
  split; [vm_compute; reflexivity|]. split; [reflexivity|]. split; [simpl; lia|]. split; vm_compute; reflexivity.
Qed.

(** The inner solver on the line: an interior and a boundary stop. *)
Definition tcg_check (h : D) (c : D -> tcgstatus -> bool) : bool :=
  let '(v, st, _) := tcg A (dspace h) (dcg 0) (dq 1) (dq 10) (initial_vector A (dspace h) (dq 1)) in c v st.
Lemma inner_interior :
  tcg_check (dq 1) (fun v st => SFeqb v (dq (-1)) && match st with LCON => true | _ => false end) = true.
Proof. vm_compute. reflexivity. Qed.
Lemma inner_boundary :
  tcg_check (dq (-1)) (fun v st => SFeqb v (dq (-10)) && match st with NEGCURVTURE => true | _ => false end) = true.
Proof. vm_compute. reflexivity. Qed.

(** ** The real line meets the hypotheses of the exact-arithmetic theorems *)
Section line.
Local Open Scope R_scope.
Context (big eps : R).
Notation AR := (R_arith big eps).
Definition rspace (h : R) : tspace AR :=
  Build_tspace AR R (fun a v w => a * v + w) (fun a v => a * v) (fun v w => v * w) (fun v => v) (fun v => h * v) (fun v => 2 * v).
Lemma rspace_inner h : inner_product_space (rspace h).
Proof. split; unfold inp; cbn; intros; try ring; nra. Qed.
Lemma rspace_minv h : inverse_of_prec (rspace h) (fun v : R => (v / 2 : R)).
Proof. split; unfold inp; cbn; intros; try field; nra. Qed.

(** Forced passes are allowed on the line without curvature. *)
Lemma rspace_forced (p : tcgparams AR) (Delta : R) : never_solved (rspace 0) (fun v : R => (v / 2 : R)) p (1 : R) Delta.
Proof.
  right. unfold inp; cbn. intros w u _ E. assert (u = 1) by (specialize (E 1); lra). nra.
Qed.

Definition rgeo (f g : R -> R) : trgeo AR :=
  Build_trgeo AR R R (fun _ a v w => a * v + w) (fun _ v w => v * w) (fun x v => x + v) f g.
Lemma rgeo_space f g (h : R -> R) (x : R) :
  inner_product_space (space_at (rgeo f g) (fun _ a v => a * v) (fun _ v => v) (fun y v => h y * v) (fun _ v => 2 * v) x).
Proof. split; unfold inp; cbn; intros; try ring; nra. Qed.
Lemma rgeo_minv f g (h : R -> R) (x : R) :
  inverse_of_prec (space_at (rgeo f g) (fun _ a v => a * v) (fun _ v => v) (fun y v => h y * v) (fun _ v => 2 * v) x) (fun v : R => (v / 2 : R)).
Proof. split; unfold inp; cbn; intros; try field; nra. Qed.
End line.
