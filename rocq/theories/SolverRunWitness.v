(** Concrete runs. *)
From Coq Require Import QArith List Bool Lia Arith.
From Coq Require Import Floats.SpecFloat.
From Verif Require Import Arith LineSearchModel LineSearchSpec LineSearchWitness SolverRunModel SolverRunSpec.
Import ListNotations.
Local Open Scope nat_scope.

(** ** Concrete runs: steepest descent on a line, binary64 *)
Definition sd_env (f g : spec_float -> spec_float) (bb : spec_float * spec_float * spec_float)
  : env D_arith (geo f g) (X:=unit) :=
  Build_env D_arith (geo f g)
    (fun s => (SFopp (rgf1 D_arith (geo f g) s), tt)) (fun _ => tt) (fun _ => bb) (fun _ => dq 0) None (fun _ t _ => t).

Definition sd_par (al : lsalgo) (it : inittype) (maxit minit npf : nat) (mx bbr acc : Q) : rparams D_arith :=
  Build_rparams D_arith (par2 (1#1000000) mx) al it SM_GRAD_F (dq (1#1000000)) (dq 1000) (dq 0) (dq (-1)) (dq (1#10))
    (dq acc) (dq bbr) maxit minit npf 0 true.

Definition fQ (x : spec_float) : spec_float := SFmul prec emax x x.
Definition gQ (x : spec_float) : spec_float := SFmul prec emax (dq 2) x.

Definition sd_start (f g : spec_float -> spec_float) (q : rparams D_arith) (x : spec_float) : rs D_arith (geo f g) (X:=unit) :=
  start D_arith (geo f g) q x (dq 0) (dq 0) (dq 0) [] (dq 0) tt.

Definition iters {G} (o : outcome D_arith G (X:=unit)) : option nat :=
  match o with Done _ _ s => Some (riter _ _ s) | _ => None end.
Definition oob {G} (o : outcome D_arith G (X:=unit)) : bool :=
  match o with OutOfBounds _ _ => true | _ => false end.

Notation parQ := (sd_par LSSM_ARMIJO ONESTEP 5 0 2 1000 1 1000000).
Notation envQ := (sd_env fQ gQ (dq 0, dq 0, dq 0)).

(** A run of two iterations on x^2 that stops by its stopping test. *)
Lemma run_example :
  iters (run D_arith (geo fQ gQ) parQ envQ 5 20 (sd_start fQ gQ parQ (dq 1))) = Some 2.
Proof. vm_compute. reflexivity. Qed.

Lemma run_example_status :
  match run D_arith (geo fQ gQ) parQ envQ 5 20 (sd_start fQ gQ parQ (dq 1)) with
  | Done _ _ s => st_eqb (rstatus _ _ s) SUCCESS && negb (fbad (rf1 _ _ s)) && SFeqb (rx1 _ _ s) (dq 0)
  | _ => false end = true.
Proof. vm_compute. reflexivity. Qed.

(** Min_Iteration above Max_Iteration: a write outside the arrays. *)
Lemma run_oob :
  oob (run D_arith (geo fQ gQ) (sd_par LSSM_ARMIJO ONESTEP 1 3 2 1000 1 1000000) envQ 5 20
     (sd_start fQ gQ (sd_par LSSM_ARMIJO ONESTEP 1 3 2 1000 1 1000000) (dq 1))) = true.
Proof. vm_compute. reflexivity. Qed.

(** After one iteration of a run with a window of two, only one value is used. *)
Lemma short_window :
  exists s b, visited parQ envQ 20 (sd_start fQ gQ parQ (dq 1)) s b [s; sd_start fQ gQ parQ (dq 1)] /\
    Num_pre_funs D_arith parQ = 2%nat /\ length (reference parQ s) = 1%nat.
Proof.
  destruct (body D_arith (geo fQ gQ) parQ envQ 20 (sd_start fQ gQ parQ (dq 1))) as [[s b]|o] eqn:E.
  - exists s, b. split; [|split; [reflexivity|]].
    + eapply visited_step; [apply visited_start| |exact E]. vm_compute. reflexivity.
    + assert (H : match body D_arith (geo fQ gQ) parQ envQ 20 (sd_start fQ gQ parQ (dq 1)) with
        | inl (s, _) => length (reference parQ s) | inr _ => O end = 1%nat) by (vm_compute; reflexivity).
      now rewrite E in H.
  - exfalso. assert (H : match body D_arith (geo fQ gQ) parQ envQ 20 (sd_start fQ gQ parQ (dq 1)) with
        | inl _ => true | inr _ => false end = true) by (vm_compute; reflexivity).
    rewrite E in H. discriminate.
Qed.

(** An objective that is NaN away from the start: the run stops at once and returns the start. *)
Lemma nan_run :
  match run D_arith (geo fN gB) parQ (sd_env fN gB (dq 0, dq 0, dq 0)) 5 20 (sd_start fN gB parQ (dq 0)) with
  | Done _ _ s => Nat.eqb (riter _ _ s) 0 && SFeqb (rx1 _ _ s) (dq 0) && SFeqb (rf1 _ _ s) (dq 0) && fbad (rf2 _ _ s)
  | _ => false end = true.
Proof. vm_compute. reflexivity. Qed.

(** ** Existential forms *)
Lemma oob_eq {G} (o : outcome D_arith G (X:=unit)) : oob o = true -> o = OutOfBounds _ _.
Proof. destruct o; easy. Qed.

Lemma run_oob_ex :
  exists (G : geometry D_arith) q (e : env D_arith G (X:=unit)) n fuel x0 x20 t0 c0,
  let s0 := start D_arith G q x0 x20 t0 t0 [] c0 tt in
  Max_Iteration _ q < Min_Iteration _ q /\ run D_arith G q e n fuel s0 = OutOfBounds D_arith G.
Proof.
  eexists _, _, _, _, _, _, _, _, _. split; [|apply oob_eq, run_oob]. simpl. lia.
Qed.

Lemma short_window_ex :
  exists (G : geometry D_arith) q (e : env D_arith G (X:=unit)) fuel x0 x20 t0 c0 s b,
  let s0 := start D_arith G q x0 x20 t0 t0 [] c0 tt in
  visited q e fuel s0 s b [s; s0] /\ Num_pre_funs _ q = 2 /\ length (reference q s) = 1.
Proof.
  destruct short_window as (s & b & H). exists (geo fQ gQ), parQ, envQ, 20, (dq 1), (dq 0), (dq 0), (dq 0), s, b. exact H.
Qed.

(** The state after one pass satisfies a decidable condition. *)
Lemma one_pass (G : geometry D_arith) q (e : env D_arith G (X:=unit)) fuel s0 (P : rs D_arith G (X:=unit) -> bool) :
  goes_on D_arith G q s0 (is_stopped D_arith G q e s0) = true ->
  match body D_arith G q e fuel s0 with inl (s, _) => P s | inr _ => false end = true ->
  exists s b, visited q e fuel s0 s b [s; s0] /\ P s = true.
Proof.
  intros H1 H2. destruct (body D_arith G q e fuel s0) as [[s b]|o] eqn:E; [|discriminate].
  exists s, b. split; [|exact H2]. eapply visited_step; [apply visited_start|exact H1|exact E].
Qed.

Definition is_inf (x : spec_float) : bool := match x with S754_infinity false => true | _ => false end.

(** Linear objective: after the first step y = 0, so the Barzilai-Borwein quotient is x/0. *)
Lemma infinite_bb_step_ex :
  exists (G : geometry D_arith) q (e : env D_arith G (X:=unit)) fuel x0 x20 t0 c0 s b,
  let s0 := start D_arith G q x0 x20 t0 t0 [] c0 tt in
  itype _ q = BBSTEP /\ visited q e fuel s0 s b [s; s0] /\ fbad (rf1 _ _ s) = false /\
  fbad (rngf1 _ _ s) = false /\ fst (init_step D_arith G q e s) = S754_infinity false.
Proof.
  set (q := sd_par LSSM_ARMIJO BBSTEP 5 0 1 1000 0 1000000). set (e := sd_env fB gB (dq 1, dq 0, dq 0)).
  destruct (one_pass (geo fB gB) q e 20 (sd_start fB gB q (dq 0)) (fun s => negb (fbad (rf1 _ _ s)) && negb (fbad (rngf1 _ _ s)) &&
    is_inf (fst (init_step D_arith (geo fB gB) q e s)))) as (s & b & Hv & H);
    [vm_compute; reflexivity|vm_compute; reflexivity|].
  rewrite !andb_true_iff, !negb_true_iff in H. destruct H as [[H1 H2] H3].
  exists (geo fB gB), q, e, 20, (dq 0), (dq 0), (dq 0), (dq 0), s, b.
  split; [reflexivity|]. split; [exact Hv|]. split; [exact H1|]. split; [exact H2|].
  destruct (fst _) as [|[]| |]; try discriminate. reflexivity.
Qed.

Lemma one_step_above_max_ex :
  exists (G : geometry D_arith) q (e : env D_arith G (X:=unit)) fuel x0 x20 t0 c0 s b,
  let s0 := start D_arith G q x0 x20 t0 t0 [] c0 tt in
  itype _ q = ONESTEP /\ visited q e fuel s0 s b [s; s0] /\
  flt (Maxstepsize D_arith (lsp D_arith q)) (fst (init_step D_arith G q e s)) = true.
Proof.
  set (q := sd_par LSSM_ARMIJO ONESTEP 5 0 1 (1#2) 0 1000000). set (e := sd_env fB gB (dq 0, dq 0, dq 0)).
  destruct (one_pass (geo fB gB) q e 20 (sd_start fB gB q (dq 0)) (fun s => 
    @flt D_arith (Maxstepsize D_arith (lsp D_arith q)) (fst (init_step D_arith (geo fB gB) q e s)))) as (s & b & Hv & H);
    [vm_compute; reflexivity|vm_compute; reflexivity|].
  exists (geo fB gB), q, e, 20, (dq 0), (dq 0), (dq 0), (dq 0), s, b. auto.
Qed.

Definition parWolfe : rparams D_arith :=
  Build_rparams D_arith (par (1#1000000) 1000) LSSM_WOLFE ONESTEP SM_GRAD_F (dq (1#1000000))
      (dq 1000) (dq 0) (dq (-1)) (dq 1) (dq 1000000) (dq 1) 1 0 1 0 true.

Lemma outcome_check {G} (o : outcome D_arith G (X:=unit)) (P : rs D_arith G (X:=unit) -> bool) :
  match o with Done _ _ s => P s | _ => false end = true -> exists s, o = Done _ _ s /\ P s = true.
Proof. destruct o; try discriminate. eauto. Qed.

Lemma stale_gradient_ex :
  exists (G : geometry D_arith) q (e : env D_arith G (X:=unit)) n fuel x0 x20 t0 c0 sf,
  let s0 := start D_arith G q x0 x20 t0 t0 [] c0 tt in
  algo _ q = LSSM_WOLFE /\ run D_arith G q e n fuel s0 = Done D_arith G sf /\ rstatus _ _ sf = SUCCESS /\
  rgf1 _ _ sf <> grad _ G (rx1 _ _ sf).
Proof.
  destruct (outcome_check (run D_arith (geo fA gA) parWolfe (sd_env fA gA (dq 0, dq 0, dq 0)) 5 20 (sd_start fA gA parWolfe (dq 0)))
    (fun s => st_eqb (rstatus _ _ s) SUCCESS && negb (SFeqb (rgf1 _ _ s) (gA (rx1 _ _ s))) && SFeqb (rgf1 _ _ s) (rgf1 _ _ s)))
    as (sf & E0 & H); [vm_compute; reflexivity|].
  rewrite !andb_true_iff, negb_true_iff in H. destruct H as [[H1 H2] H3].
  exists (geo fA gA), parWolfe, (sd_env fA gA (dq 0, dq 0, dq 0)), 5, 20, (dq 0), (dq 0), (dq 0), (dq 0), sf.
  split; [reflexivity|]. split; [exact E0|]. split; [now apply st_eqb_eq|].
  intros E. change (grad _ (geo fA gA)) with gA in E. rewrite <- E in H2. congruence.
Qed.
