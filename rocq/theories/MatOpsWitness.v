(** Facts beside the theorems of MatOpsProps.v. *)
From Coq Require Import List Arith Lia QArith Reals Lra Floats.SpecFloat.
From Verif Require Import Arith MatOpsModel MatOpsSpec MatOpsProofs.
Import ListNotations.
Local Open Scope nat_scope.

Lemma opp_D (x : F D_arith) : fopp (fopp x) = x.
Proof. destruct x as [b|b| |b m e]; cbn; try destruct b; reflexivity. Qed.
Lemma opp_R big eps (x : F (R_arith big eps)) : fopp (fopp x) = x.
Proof. apply Ropp_involutive. Qed.

Section any.
Context {A : arith}.
Notation F := (F A).

(** Scaling rows and transposing is transposing and scaling columns. *)
Lemma diag_transpose n m (d M : list F) : length d = n -> length M = n * m ->
  exists DM T Mt, diag_left_real n m d M = Some (filled DM) /\ transpose_real n m DM = Some (filled T) /\
    transpose_real n m M = Some (filled Mt) /\ diag_right_real m n d Mt = Some (filled T).
Proof.
  intros Ld LM. destruct (diag_left_ok n m d M Ld LM) as (r & E & Lr & H).
  assert (Hv : forall i j, i < n -> j < m -> exists u v, nth_error d i = Some u /\ nth_error M (i + j * n) = Some v /\
    nth_error r (i + j * n) = Some (Some (fmul u v))).
  { intros i j Hi Hj. destruct (nth_some d i) as (u & Eu); [lia|].
    destruct (nth_some M (i + j * n)) as (v & Ev); [rewrite LM; apply idx_lt; lia|].
    exists u, v. split; [exact Eu|]. split; [exact Ev|]. specialize (H i j Hi Hj). unfold rentry in H.
    rewrite Eu, Ev in H. exact H. }
  destruct (all_written r) as (DM & ->).
  { intros p Hp. rewrite Lr in Hp. apply idx_split in Hp as (i & j & Hi & Hj & ->).
    destruct (Hv i j Hi Hj) as (u & v & _ & _ & Er). eauto. }
  rewrite filled_length in Lr.
  destruct (transpose_real_twice n m DM Lr) as (T & ET & ET2).
  destruct (transpose_real_twice n m M LM) as (Mt & EM & EM2).
  exists DM, T, Mt. split; [exact E|]. split; [exact ET|]. split; [exact EM|].
  assert (LMt : length Mt = m * n).
  { destruct (transpose_real_ok n m M ltac:(lia)) as (r & E' & L' & _). rewrite E' in EM. injection EM as ->.
    rewrite filled_length in L'. exact L'. }
  destruct (diag_right_ok m n d Mt Ld LMt) as (r & Er & Lr2 & H2). rewrite Er. f_equal.
  destruct (transpose_real_ok n m DM ltac:(lia)) as (r3 & E3 & L3 & H3). rewrite E3 in ET. injection ET as ->.
  destruct (transpose_real_ok n m M ltac:(lia)) as (r4 & E4 & L4 & H4). rewrite E4 in EM. injection EM as ->.
  apply nth_ext; [lia|]. intros p Hp. rewrite Lr2 in Hp. apply idx_split in Hp as (j & i & Hj & Hi & ->).
  specialize (H2 j i Hj Hi). specialize (H3 i j Hi Hj). specialize (H4 i j Hi Hj). unfold rentry in *.
  destruct (Hv i j Hi Hj) as (u & v & Eu & Ev & Er'). rewrite filled_nth in *.
  rewrite H2, H3. rewrite Eu. destruct (nth_error DM (i + j * n)); cbn in Er'; [injection Er' as ->|discriminate].
  rewrite Ev in H4. destruct (nth_error Mt (j + i * m)); cbn in H4; [injection H4 as ->|discriminate]. reflexivity.
Qed.

(** The real parts of a complex 1 by 2 matrix. *)
Lemma real_part_wrong (x y z w : F) : exists r, real_in_complex [x; y; z; w] = Some r /\
  re 1 r 0 0 = Some (Some x) /\ im 1 r 0 0 = Some (Some z) /\ re 1 r 0 1 = Some None /\ im 1 r 0 1 = Some None.
Proof. eexists. split; [reflexivity|]. split; [reflexivity|]. split; [reflexivity|]. split; reflexivity. Qed.
End any.

Lemma block_readback_real {A : arith} m n (r : cells A) r0 r1 c0 c1 (mat : list (F A)) :
  r0 <= r1 < m -> c0 <= c1 < n -> m * n <= length r ->
  length mat = (r1 - r0 + 1) * (c1 - c0 + 1) ->
  exists r', assign_real m r r0 r1 c0 c1 mat = Some r' /\ submatrix_real m r' r0 r1 c0 c1 = Some (filled mat).
Proof.
  intros Hr Hc L Lm. destruct (assign_real_ok m n r r0 r1 c0 c1 mat Hr Hc L Lm) as (r' & E & _ & H & _).
  exists r'. split; [exact E|]. apply submatrix_real_ok; [lia|lia|exact Lm|exact H].
Qed.
Lemma block_readback_complex {A : arith} m n (r : cells A) r0 r1 c0 c1 (mat : list (F A)) :
  r0 <= r1 < m -> c0 <= c1 < n -> 2 * m * n <= length r ->
  length mat = 2 * (r1 - r0 + 1) * (c1 - c0 + 1) ->
  exists r', assign_complex m r r0 r1 c0 c1 mat = Some r' /\ submatrix_complex m r' r0 r1 c0 c1 = Some (filled mat).
Proof.
  intros Hr Hc L Lm. destruct (assign_complex_ok m n r r0 r1 c0 c1 mat Hr Hc L Lm) as (r' & E & _ & H & _).
  exists r'. split; [exact E|]. apply submatrix_complex_ok; [lia|lia|exact Lm|exact H].
Qed.

Lemma plus_assign_unchanged big eps : exists l r : list (F (R_arith big eps)), length l = length r /\
  snd (plus_assign l r) = zipc Rplus l r /\ fst (plus_assign l r) = l /\ fst (plus_assign l r) <> zipc Rplus l r.
Proof.
  exists [0%R], [1%R]. split; [reflexivity|]. unfold plus_assign. cbn.
  assert (E : (Q2R 1 * 1 + 0 = 0 + 1)%R) by (unfold Q2R; cbn; lra).
  split; [f_equal; exact E|]. split; [reflexivity|]. intros [= H]. lra.
Qed.
