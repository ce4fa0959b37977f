(** The numerical derivatives in real arithmetic. *)
From Coq Require Import List Reals Lra QArith_base Qreals Arith.
From Verif Require Import Arith ProblemModel ProblemSpec ProblemProofs.
Import ListNotations.
Local Open Scope R_scope.

Lemma num_eps_R big e : @num_eps (R_arith big e) = / 100000000.
Proof. unfold num_eps. cbn [fq R_arith]. unfold Q2R. cbn. lra. Qed.

Lemma num_grad_mean big e K (f : objective (A := R_arith big e) K) (value : list R -> R) good x k junk g0 g k' i xi (d : R -> R) :
  faithful f value good -> good x k -> length junk = length x -> length g0 = length x ->
  num_grad f x k junk g0 = Some (g, k') -> nth_error x i = Some xi ->
  (forall s, 0 <= s <= / 100000000 -> derivable_pt_lim (fun s => value (replaced x i (xi + s))) s (d s)) ->
  exists c, 0 < c < / 100000000 /\ nth_error g i = Some (d c).
Proof.
  intros HF Hk Hj Hg E Hx Hd.
  destruct (num_grad_ok f value good x k junk g0 HF Hk Hj Hg) as (g1 & k1 & E1 & _ & _ & H).
  assert (E2 : Some (g, k') = Some (g1, k1)) by (rewrite <- E, <- E1; reflexivity). injection E2 as -> ->.
  destruct (MVT_cor2 (fun s => value (replaced x i (xi + s))) d 0 (/ 100000000)) as (c & Hc & Hr); [lra|exact Hd|].
  exists c. split; [exact Hr|]. rewrite (H i xi Hx). f_equal. rewrite num_eps_R. cbn [fsub fadd fdiv R_arith].
  rewrite Rplus_0_r in Hc.
  replace (replaced x i xi) with x in Hc.
  - change ((value (replaced x i (xi + / 100000000)) - value x) / / 100000000 = d c). rewrite Hc. field.
  - apply nth_ext_error. intros j. rewrite replaced_nth by (apply nth_error_Some; congruence).
    destruct (Nat.eqb i j) eqn:Ej; [|reflexivity]. apply Nat.eqb_eq in Ej. subst. exact Hx.
Qed.

(** The point x + s eta. *)
Definition along (x eta : list R) (s : R) : list R := map (fun p => fst p + s * snd p) (combine x eta).
Lemma axpy_along big e t : forall x eta,
  @axpy (R_arith big e) 1 (@scal (R_arith big e) t eta) x = along x eta t.
Proof.
  unfold along, scal. induction x as [|a x IH]; intros [|b eta]; try reflexivity.
  cbn [map combine axpy fst snd]. f_equal; [change (a + 1 * (t * b) = a + t * b); ring|]. apply IH.
Qed.
Lemma along_0 : forall x eta, length eta = length x -> along x eta 0 = x.
Proof.
  unfold along. induction x as [|a x IH]; intros [|b eta] H; try discriminate; [reflexivity|].
  cbn. f_equal; [ring|]. apply IH. cbn in H. congruence.
Qed.
Lemma along_length x eta s : length eta = length x -> length (along x eta s) = length x.
Proof. intros H. unfold along. rewrite map_length, combine_length, H. apply Nat.min_id. Qed.
Lemma hess_factor_R big e n2 : @hess_factor (R_arith big e) n2 = / 100000 / sqrt n2.
Proof. unfold hess_factor. cbn [fq fdiv fsqrt R_arith]. unfold Q2R. cbn. f_equal. lra. Qed.

Lemma num_hess_mean big e (p : @problem (R_arith big e)) (G : list R -> list R) n2 x eta :
  (p_num p = false \/ p_egrad p = None) -> p_usehess p = true -> length eta = length x -> 0 < n2 ->
  (forall y, length y = length x -> egrad p y = Some (G y) /\ length (G y) = length x) ->
  exists h, num_hess p (egrad_field p x) n2 x eta = Some h /\ length h = length x /\
    forall i d, (i < length x)%nat ->
      (forall s, 0 <= s <= / 100000 / sqrt n2 -> derivable_pt_lim (fun s => nth i (G (along x eta s)) 0) s (d s)) ->
      exists c, 0 < c < / 100000 / sqrt n2 /\ nth_error h i = Some (d c).
Proof.
  intros Hp Hu HL Hn HG. unfold num_hess, egrad_field. rewrite Hu.
  assert (HR : rie_egrad p x = Some (G x)).
  { unfold rie_egrad. destruct (p_num p) eqn:E; [|apply HG; reflexivity].
    destruct Hp as [Hp|Hp]; [discriminate|]. destruct (HG x eq_refl) as [Hx _]. unfold egrad in Hx. rewrite Hp in Hx. exact Hx. }
  rewrite HR, hess_factor_R. set (t := / 100000 / sqrt n2).
  assert (Ht : 0 < t).
  { apply Rmult_lt_0_compat; [lra|]. apply Rinv_0_lt_compat, sqrt_lt_R0, Hn. }
  assert (E1 : @fq (R_arith big e) (1#1)%Q = 1) by (cbn [fq R_arith]; unfold Q2R; cbn; lra).
  assert (E2 : @fq (R_arith big e) (-1#1)%Q = -1) by (cbn [fq R_arith]; unfold Q2R; cbn; lra).
  rewrite E1, E2, axpy_along.
  assert (Ly : length (along x eta t) = length x) by (apply along_length; exact HL).
  destruct (HG _ Ly) as [Gy Lg]. rewrite Gy. destruct (HG x eq_refl) as [_ Lx].
  eexists. split; [reflexivity|]. split.
  { etransitivity; [apply axpy_length|]; rewrite scal_length; [exact (eq_trans Lg (eq_sym Lx))|exact Lx]. }
  intros i d Hi Hd.
  destruct (MVT_cor2 (fun s => nth i (G (along x eta s)) 0) d 0 t Ht Hd) as (c & Hc & Hr).
  exists c. split; [exact Hr|].
  rewrite (axpy_nth (A := R_arith big e) _ _ _ i (-1 / t * nth i (G x) 0) (nth i (G (along x eta t)) 0)).
  - f_equal. change (-1 / t * nth i (G x) 0 + 1 / t * nth i (G (along x eta t)) 0 = d c).
    cbn beta in Hc. rewrite along_0 in Hc by exact HL.
    rewrite Rminus_0_r in Hc. apply Rmult_eq_reg_r with t; [|lra]. rewrite <- Hc. field. lra.
  - apply (scal_nth (A := R_arith big e)). apply nth_error_nth'. rewrite Lx. exact Hi.
  - apply nth_error_nth'. rewrite Lg. exact Hi.
Qed.

(** Numerical derivatives of the zero function, with a gradient routine that says 1. *)
Definition mixed_problem (big e : R) : @problem (R_arith big e) :=
  @mkProblem (R_arith big e) unit (fun _ _ => (0, None)) (Some (fun _ => [1])) true true.
Lemma mixed_hess big e : num_hess (mixed_problem big e) (egrad_field (mixed_problem big e) [0]) 1 [0] [1] = Some [100000].
Proof.
  assert (EF : egrad_field (mixed_problem big e) [0] = Some [0]).
  { unfold egrad_field, rie_egrad. cbn. f_equal. f_equal. unfold Rdiv. rewrite Rminus_diag_eq by reflexivity. apply Rmult_0_l. }
  rewrite EF. unfold num_hess. cbn [egrad mixed_problem p_egrad]. rewrite hess_factor_R, sqrt_1.
  assert (E1 : @fq (R_arith big e) (1#1)%Q = 1) by (cbn [fq R_arith]; unfold Q2R; cbn; lra).
  assert (E2 : @fq (R_arith big e) (-1#1)%Q = -1) by (cbn [fq R_arith]; unfold Q2R; cbn; lra).
  rewrite E1, E2. cbn. f_equal. f_equal. field.
Qed.
Definition quad_problem (big e : R) : @problem (X_arith big e) :=
  @mkProblem (X_arith big e) unit (fun l _ => (match l with [a] => xdiv (xmul a a) (Fin 2) | _ => Fin 0 end, None)) (Some (fun l => l)) false true.
Lemma zero_hess big e v : num_hess (quad_problem big e) (egrad_field (quad_problem big e) [Fin v]) (Fin 0) [Fin v] [Fin 0] = Some [NaN].
Proof.
  unfold num_hess, egrad_field, rie_egrad. cbn [egrad quad_problem p_egrad p_num p_usehess].
  assert (Z : xsign 0 = Eq) by (unfold xsign; destruct (Rlt_dec 0 0); [lra|reflexivity]).
  assert (E : @hess_factor (X_arith big e) (Fin 0) = PInf).
  { unfold hess_factor. cbn [fdiv fq fsqrt X_arith]. unfold xsqrt. destruct (Rlt_dec 0 0); [lra|]. rewrite sqrt_0.
    unfold xdiv. rewrite Z. unfold xsign, Q2R. cbn. destruct (Rlt_dec 0 _) as [|n0]; [reflexivity|]. lra. }
  rewrite E. cbn [scal axpy map fmul fadd fdiv X_arith fq]. 
  assert (M : xmul PInf (Fin 0) = NaN) by (unfold xmul; cbn [xsgn]; rewrite Z; reflexivity). rewrite M. reflexivity.
Qed.
