(** Decisions of RBFGSSub in its first iteration. *)
From Coq Require Import Reals Lra QArith_base Bool.
From Verif Require Import Arith HessMemModel.
Local Open Scope R_scope.

(** When H is not rescaled it is not updated either, for a non-negative lower bound and squared
    length, in real arithmetic. *)
Lemma sub_decision_R big eps (lambdaLower inpsy inpyy inpss : R) : 0 <= lambdaLower -> 0 <= inpss ->
  @sub_rescale (R_arith big eps) 1 inpsy inpyy = None -> @sub_update (R_arith big eps) lambdaLower inpsy inpss = false.
Proof.
  intros Hl Hs. unfold sub_rescale, sub_update. cbn [flt fq fdiv R_arith Nat.eqb andb].
  destruct (Rltb (Q2R (0#1)) inpsy) eqn:E; [discriminate|]. intros _.
  apply Rltb_false in E. apply Rltb_false. unfold Q2R in E. cbn in E. rewrite Rmult_0_l in E.
  destruct (Rle_lt_or_eq_dec 0 inpss Hs) as [P|E0].
  - apply Rle_trans with 0; [|exact Hl].
    apply Rmult_le_reg_r with inpss; [exact P|]. unfold Rdiv. rewrite Rmult_assoc, Rinv_l by lra. lra.
  - subst inpss. unfold Rdiv. rewrite Rinv_0, Rmult_0_r. exact Hl.
Qed.
Lemma sub_iter_R big eps lambdaLower inpsy inpyy inpss (t : transport (V := R)) gs : 0 <= lambdaLower -> 0 <= inpss ->
  it_rescale (mkIter (@sub_rescale (R_arith big eps) 1 inpsy inpyy) t
    (if @sub_update (R_arith big eps) lambdaLower inpsy inpss then Some gs else None)) = None ->
  it_update (mkIter (@sub_rescale (R_arith big eps) 1 inpsy inpyy) t
    (if @sub_update (R_arith big eps) lambdaLower inpsy inpss then Some gs else None)) = None.
Proof. cbn [it_rescale it_update]. intros Hl Hs H. rewrite (sub_decision_R big eps _ _ inpyy _ Hl Hs H). reflexivity. Qed.
