(** Concrete executions of the line searches. *)
From Coq Require Import QArith List Bool Lia Arith.
From Coq Require Import Floats.SpecFloat.
From Verif Require Import Arith LineSearchModel LineSearchSpec.
Import ListNotations.

(** ** Concrete executions: one-dimensional problems in binary64. *)
Notation d := spec_float.
Definition dq (x : Q) : d := d_of_Q x.
Definition geo (f g : d -> d) : geometry D_arith :=
  Build_geometry D_arith d d (SFmul prec emax) (SFadd prec emax) f g
    (fun _ => SFmul prec emax) (fun _ _ _ v => v).
(** Default parameters of the library, Minstepsize and Maxstepsize as given. *)
Definition par (mn mx : Q) : lsparams D_arith :=
  Build_lsparams D_arith (dq (1#10000)) (dq (999#1000)) (dq (1#10)) (dq (9#10)) (dq mn) (dq mx).
(** Simple backtracking with ratio 1/2. *)
Definition par2 (mn mx : Q) : lsparams D_arith :=
  Build_lsparams D_arith (dq (1#10000)) (dq (999#1000)) (dq (1#2)) (dq (1#2)) (dq mn) (dq mx).
(** Start at 0 in direction 1. *)
Definition ctx (f g : d -> d) (len : Q) : lsctx D_arith (geo f g) :=
  Build_lsctx D_arith (geo f g) (dq 0) (dq 1) (f (dq 0)) (SFabs (g (dq 0))) (g (dq 0)) (dq len).
Definition ls0 (f g : d -> d) (t : d) : ls D_arith (geo f g) :=
  mkLs D_arith (geo f g) t (dq 0) (dq 0) (dq 0) (dq 0) (dq 0) SUCCESS 0.

Notation "x + y" := (SFadd prec emax x y).
Notation "x - y" := (SFsub prec emax x y).
Notation "x * y" := (SFmul prec emax x y).
Definition pos (x : d) : d := if SFltb x (dq 0) then dq 0 else x.

(** f(x) = -x + 4 max(0, x - 1/2)^2, continuously differentiable. *)
Definition fA (x : d) : d := SFopp x + dq 4 * (pos (x - dq (1#2)) * pos (x - dq (1#2))).
Definition gA (x : d) : d := dq (-1) + dq 8 * pos (x - dq (1#2)).
(** f(x) = -x. *)
Definition fB (x : d) : d := SFopp x.
Definition gB (x : d) : d := dq (-1).
(** f(x) = -x + 4 x^2. *)
Definition fC (x : d) : d := SFopp x + dq 4 * (x * x).
Definition gC (x : d) : d := dq (-1) + dq 8 * x.
(** an objective that is never a number except at the start *)
Definition fN (x : d) : d := if SFeqb x (dq 0) then dq 0 else S754_nan.
Definition fK (x : d) : d := dq 0.

Definition D_ok (f2v f1v a t g : spec_float) : bool :=
  SFleb f2v (SFadd prec emax f1v (SFmul prec emax (SFmul prec emax a t) g)).

Definition st_eqb (a b : lsstatus) : bool :=
  match a, b with
  | NOCURVATURE, NOCURVATURE | MINSTEPSIZE, MINSTEPSIZE | MAXSTEPSIZE, MAXSTEPSIZE
  | NONEXACT, NONEXACT | LSERROR, LSERROR | SUCCESS, SUCCESS => true
  | _, _ => false end.
Lemma st_eqb_eq a b : st_eqb a b = true -> a = b.
Proof. destruct a, b; easy. Qed.

Lemma option_check {X} (o : option X) (b : X -> bool) :
  match o with Some s => b s | None => false end = true -> exists s, o = Some s /\ b s = true.
Proof. destruct o as [s|]; [eauto|easy]. Qed.

(** Wolfe: reported success without sufficient decrease, and with a stale gradient. *)
Lemma wolfe_no_decrease :
  exists s', wolfe D_arith (geo fA gA) (par (1#1000000) 1000) (ctx fA gA 1) 5 (ls0 fA gA (dq 1)) = Some s' /\
    status _ _ s' = SUCCESS /\ fbad (f2 _ _ s') = false /\
    fle (f2 _ _ s') (@fadd D_arith (fA (dq 0)) (@fmul D_arith (@fmul D_arith (dq (1#10000)) (ss _ _ s')) (gA (dq 0)))) = false /\
    @feq D_arith (gf2 _ _ s') (gA (x2 _ _ s')) = false.
Proof.
  destruct (option_check (wolfe D_arith (geo fA gA) (par (1#1000000) 1000) (ctx fA gA 1) 5 (ls0 fA gA (dq 1)))
    (fun s' => st_eqb (status _ _ s') SUCCESS && negb (fbad (f2 _ _ s')) &&
      negb (fle (f2 _ _ s') (@fadd D_arith (fA (dq 0)) (@fmul D_arith (@fmul D_arith (dq (1#10000)) (ss _ _ s')) (gA (dq 0))))) &&
      negb (@feq D_arith (gf2 _ _ s') (gA (x2 _ _ s'))))) as (s' & Hs & H).
  { vm_compute. reflexivity. }
  rewrite !andb_true_iff, !negb_true_iff in H. destruct H as [[[H1 H2] H3] H4].
  exists s'. auto using st_eqb_eq.
Qed.

(** Wolfe: reported success without the curvature condition. *)
Lemma wolfe_no_curvature :
  exists s', wolfe D_arith (geo fB gB) (par (1#1000000) 1000000) (ctx fB gB 1) 5 (ls0 fB gB (dq 1)) = Some s' /\
    status _ _ s' = SUCCESS /\
    @flt D_arith (gB (x2 _ _ s')) (@fmul D_arith (dq (999#1000)) (gB (dq 0))) = true.
Proof.
  destruct (option_check (wolfe D_arith (geo fB gB) (par (1#1000000) 1000000) (ctx fB gB 1) 5 (ls0 fB gB (dq 1)))
    (fun s' => st_eqb (status _ _ s') SUCCESS &&
       @flt D_arith (gB (x2 _ _ s')) (@fmul D_arith (dq (999#1000)) (gB (dq 0))))) as (s' & Hs & H).
  { vm_compute. reflexivity. }
  rewrite !andb_true_iff in H. destruct H as [H1 H2].
  exists s'. auto using st_eqb_eq.
Qed.

(** Wolfe: a case inside the theorem, ending with both conditions. *)
Lemma wolfe_example :
  exists s', wolfe D_arith (geo fC gC) (par (1#1000000) 1000) (ctx fC gC 1) 5 (ls0 fC gC (dq 1)) = Some s' /\
    status _ _ s' = SUCCESS /\ @feq D_arith (ss _ _ s') (dq 1) = false.
Proof.
  destruct (option_check (wolfe D_arith (geo fC gC) (par (1#1000000) 1000) (ctx fC gC 1) 5 (ls0 fC gC (dq 1)))
    (fun s' => st_eqb (status _ _ s') SUCCESS && negb (@feq D_arith (ss _ _ s') (dq 1)))) as (s' & Hs & H).
  { vm_compute. reflexivity. }
  rewrite !andb_true_iff, !negb_true_iff in H. destruct H as [H1 H2].
  exists s'. auto using st_eqb_eq.
Qed.

(** Armijo: minimal step reached; the reported step is not the one that gave the point. *)
Lemma armijo_min_step :
  exists s', armijo D_arith (geo fC gC) (par2 (6#10) 1000) (ctx fC gC 1) 5 [] 1 (ls0 fC gC (dq 1)) = Some s' /\
    status _ _ s' = MINSTEPSIZE /\
    @feq D_arith (x2 _ _ s') (@fadd D_arith (dq 0) (@fmul D_arith (ss _ _ s') (dq 1))) = false.
Proof.
  destruct (option_check (armijo D_arith (geo fC gC) (par2 (6#10) 1000) (ctx fC gC 1) 5 [] 1 (ls0 fC gC (dq 1)))
    (fun s' => st_eqb (status _ _ s') MINSTEPSIZE &&
      negb (@feq D_arith (x2 _ _ s') (@fadd D_arith (dq 0) (@fmul D_arith (ss _ _ s') (dq 1)))))) as (s' & Hs & H).
  { vm_compute. reflexivity. }
  rewrite !andb_true_iff, !negb_true_iff in H. destruct H as [H1 H2].
  exists s'. auto using st_eqb_eq.
Qed.

(** Armijo: success after backtracking, both variants. *)
Lemma armijo_example :
  (exists s', armijo D_arith (geo fC gC) (par2 (1#1000000) 1000) (ctx fC gC 8) 9 [dq (1#2); dq 8] 2 (ls0 fC gC (dq 8)) = Some s' /\
    status _ _ s' = SUCCESS) /\
  (exists s', armijo D_arith (geo fC gC) (par (1#1000000) 1000) (ctx fC gC 4) 9 [] 1 (ls0 fC gC (dq 4)) = Some s' /\
    status _ _ s' = SUCCESS).
Proof.
  split.
  - destruct (option_check (armijo D_arith (geo fC gC) (par2 (1#1000000) 1000) (ctx fC gC 8) 9 [dq (1#2); dq 8] 2 (ls0 fC gC (dq 8)))
      (fun s' => st_eqb (status _ _ s') SUCCESS)) as (s' & Hs & H); [vm_compute; reflexivity|eauto using st_eqb_eq].
  - destruct (option_check (armijo D_arith (geo fC gC) (par (1#1000000) 1000) (ctx fC gC 4) 9 [] 1 (ls0 fC gC (dq 4)))
      (fun s' => st_eqb (status _ _ s') SUCCESS)) as (s' & Hs & H); [vm_compute; reflexivity|eauto using st_eqb_eq].
Qed.

(** Strong Wolfe: success through zoom. *)
Lemma strong_wolfe_example :
  exists s', strong_wolfe D_arith (geo fC gC) (par (1#1000000) 1000) (ctx fC gC 1) 9 (ls0 fC gC (dq 1)) = Some s' /\
    status _ _ s' = SUCCESS.
Proof.
  destruct (option_check (strong_wolfe D_arith (geo fC gC) (par (1#1000000) 1000) (ctx fC gC 1) 9 (ls0 fC gC (dq 1)))
      (fun s' => st_eqb (status _ _ s') SUCCESS)) as (s' & Hs & H); [vm_compute; reflexivity|eauto using st_eqb_eq].
Qed.

(** Wolfe never returns when the objective is NaN away from the start. *)
Lemma wolfe_loop_nan fuel : forall s : ls D_arith (geo fN gB), ss _ _ s = S754_nan -> f2 _ _ s = S754_nan ->
  wolfe_loop D_arith (geo fN gB) (par (1#1000000) 1000) (ctx fN gB 1) fuel S754_nan S754_nan s = None.
Proof.
  induction fuel as [|k IH]; intros s Hs Hf; [reflexivity|].
  destruct s as [t e x f gg ns st n]. cbn in Hs, Hf. subst t f.
  cbn [wolfe_loop].
  change (decr_ok _ _ _ _ (h _ _ _ _)) with false. cbv iota.
  change (fle (ss _ _ (h _ _ _ _)) _) with false. cbv iota.
  apply IH; reflexivity.
Qed.

Lemma wolfe_diverges fuel :
  wolfe D_arith (geo fN gB) (par (1#1000000) 1000) (ctx fN gB 1) fuel (ls0 fN gB (dq 1)) = None.
Proof.
  unfold wolfe. destruct fuel as [|[|[|k]]]; try reflexivity.
  remember (S k) as k1. cbn [wolfe_loop].
  repeat (change (decr_ok _ _ _ _ (h _ _ _ _)) with false; cbv iota;
          change (fle (ss _ _ (h _ _ _ _)) _) with false; cbv iota).
  match goal with |- wolfe_loop _ _ _ _ _ ?a ?b ?s = _ =>
    replace a with S754_nan by (vm_compute; reflexivity);
    replace b with S754_nan by (vm_compute; reflexivity) end.
  apply wolfe_loop_nan; vm_compute; reflexivity.
Qed.

(** Armijo never returns from an infinite initial step when the objective stays finite. *)
Lemma backtrack_inf fuel : forall s : ls D_arith (geo fK gB), ss _ _ s = S754_infinity false -> f2 _ _ s = dq 0 ->
  backtrack D_arith (geo fK gB) (par2 (1#1000000) 1000) (ctx fK gB 1) fuel (dq 0) s = None.
Proof.
  induction fuel as [|k IH]; intros s Hs Hf; [reflexivity|].
  destruct s as [t e x f gg ns st n]. cbn in Hs, Hf. subst t f.
  cbn [backtrack].
  change (armijo_fails _ _ _ _ _ _) with true. cbv iota.
  change (flt (ss _ _ (set_ss _ _ _ _)) _) with false. cbv iota.
  apply IH; reflexivity.
Qed.

Lemma armijo_diverges fuel :
  armijo D_arith (geo fK gB) (par2 (1#1000000) 1000) (ctx fK gB 1) fuel [] 1 (ls0 fK gB (S754_infinity false)) = None.
Proof.
  unfold armijo.
  change (fle (LS_ratio2 _ _) (LS_ratio1 _ _)) with true. cbv iota.
  change (maxpref _ _ _ _ _) with (dq 0).
  rewrite backtrack_inf; [reflexivity| |]; reflexivity.
Qed.

(** Existential forms. *)
Lemma wolfe_no_decrease_ex :
  exists (G : geometry D_arith) p (c : lsctx D_arith G) fuel s0 s',
  wolfe D_arith G p c fuel s0 = Some s' /\ status _ _ s' = SUCCESS /\ fbad (f2 _ _ s') = false /\
  fle (f2 _ _ s') (fadd (lf1 _ _ c) (fmul (fmul (LS_alpha _ p) (ss _ _ s')) (lslope _ _ c))) = false.
Proof.
  destruct wolfe_no_decrease as (s' & H1 & H2 & H3 & H4 & _).
  exists (geo fA gA), (par (1#1000000) 1000), (ctx fA gA 1), 5%nat, (ls0 fA gA (dq 1)), s'. auto.
Qed.

Lemma wolfe_no_curvature_ex :
  exists (G : geometry D_arith) p (c : lsctx D_arith G) fuel s0 s',
  wolfe D_arith G p c fuel s0 = Some s' /\ status _ _ s' = SUCCESS /\
  flt (dphi c (ss _ _ s')) (fmul (LS_beta _ p) (lslope _ _ c)) = true.
Proof.
  destruct wolfe_no_curvature as (s' & H1 & H2 & _).
  exists (geo fB gB), (par (1#1000000) 1000000), (ctx fB gB 1), 5%nat, (ls0 fB gB (dq 1)), s'. split; [exact H1|]. split; [exact H2|].
  vm_compute. reflexivity.
Qed.

Lemma SFeqb_neq_refl x y : SFeqb x y = false -> SFeqb x x = true -> x <> y.
Proof. congruence. Qed.

Lemma armijo_min_step_ex :
  exists (G : geometry D_arith) p (c : lsctx D_arith G) fuel s0 s',
  armijo D_arith G p c fuel [] 1 s0 = Some s' /\ status _ _ s' = MINSTEPSIZE /\
  x2 _ _ s' <> trial c (ss _ _ s').
Proof.
  exists (geo fC gC), (par2 (6#10) 1000), (ctx fC gC 1), 5%nat, (ls0 fC gC (dq 1)).
  destruct (option_check (armijo D_arith (geo fC gC) (par2 (6#10) 1000) (ctx fC gC 1) 5 [] 1 (ls0 fC gC (dq 1)))
    (fun s' => st_eqb (status _ _ s') MINSTEPSIZE &&
      negb (@feq D_arith (x2 _ _ s') (trial (ctx fC gC 1) (ss _ _ s'))) && @feq D_arith (x2 _ _ s') (x2 _ _ s'))) as (s' & Hs & H).
  { vm_compute. reflexivity. }
  rewrite !andb_true_iff, !negb_true_iff in H. destruct H as [[H1 H2] H3].
  exists s'. split; [exact Hs|]. split; [now apply st_eqb_eq|]. intros E. rewrite <- E in H2. congruence.
Qed.
