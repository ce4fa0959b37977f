(** The operator of LRTRSR1 in exact arithmetic: the compact product is the symmetric rank-one
    recursion. *)
From Coq Require Import QArith Reals List Bool Arith Lia Lra.
From Verif Require Import Arith QuasiNewtonModel QuasiNewtonSpec QNMemProofs LSR1Model LSR1Spec LSR1Proofs.
Import ListNotations.
Local Open Scope R_scope.

(** ** Sums *)
Lemma sum_ext k f g : (forall i, (i < k)%nat -> f i = g i) -> sum k f = sum k g.
Proof. induction k as [|k IH]; intros H; cbn; [reflexivity|]. rewrite IH by (intros; apply H; lia). now rewrite H by lia. Qed.
Lemma sum_add k f g : sum k (fun i => f i + g i) = sum k f + sum k g.
Proof. induction k as [|k IH]; cbn; [ring|]. rewrite IH. ring. Qed.
Lemma sum_scal k c f : sum k (fun i => c * f i) = c * sum k f.
Proof. induction k as [|k IH]; cbn; [ring|]. rewrite IH. ring. Qed.
Lemma sum_zero k f : (forall i, (i < k)%nat -> f i = 0) -> sum k f = 0.
Proof. intros H. rewrite (sum_ext k f (fun _ => 0)) by exact H. clear. induction k; cbn; lra. Qed.
Lemma sum_swap k h (f : nat -> nat -> R) : sum k (fun i => sum h (fun j => f i j)) = sum h (fun j => sum k (fun i => f i j)).
Proof.
  induction k as [|k IH]; cbn.
  - symmetry. now apply sum_zero.
  - rewrite IH, <- sum_add. reflexivity.
Qed.
Lemma sum_one k n (f : nat -> R) : (n < k)%nat -> (forall i, (i < k)%nat -> i <> n -> f i = 0) -> sum k f = f n.
Proof.
  induction k as [|k IH]; intros Hn H; [lia|]. cbn. destruct (Nat.eq_dec n k) as [->|Hne].
  - rewrite sum_zero; [ring|]. intros i Hi. apply H; lia.
  - rewrite IH, (H k) by (try lia; intros; apply H; lia). ring.
Qed.

Section exact.
Context {big eps : R}.
Notation A := (R_arith big eps).
Context (G : qspace A) (HG : qn_space G).
Notation V := (QV A G).
Notation ip := (ip G).
Context (gamma : R).

Definition bb (cs : list (V * V)) (v : V) (i : nat) : R :=
  match nth_error cs i with Some (s, y) => ip y v - gamma * ip s v | None => 0 end.
Definition MM (cs : list (V * V)) : nat -> nat -> R := entry (middle G gamma cs).
Definition nonsing (cs : list (V * V)) : Prop :=
  forall x, solution (length cs) (middle G gamma cs) (fun _ => 0) x -> forall i, (i < length cs)%nat -> x i = 0.

Lemma MM_sym cs i j : MM cs i j = MM cs j i.
Proof.
  unfold MM, entry, middle. destruct (nth_error cs i) as [[s y]|] eqn:Ei, (nth_error cs j) as [[s' y']|] eqn:Ej; try reflexivity.
  cbn [fsub fmul R_arith]. change (qmet A G) with ip. rewrite (ip_sym G HG s' s).
  destruct (Nat.leb_spec j i), (Nat.leb_spec i j); try reflexivity; [|lia].
  assert (i = j) by lia. subst j. rewrite Ei in Ej. now injection Ej as -> ->.
Qed.

(** The last column is the right-hand side for the last step. *)
Lemma MM_last cs s y i : (i < S (length cs))%nat -> MM (cs ++ [(s, y)]) i (length cs) = bb (cs ++ [(s, y)]) s i.
Proof.
  intros Hi. unfold MM, entry, middle, bb. assert (E0 : nth_error (cs ++ [(s, y)]) (length cs) = Some (s, y)) by (rewrite nth_error_app2, Nat.sub_diag by lia; reflexivity).
  rewrite E0. destruct (nth_error (cs ++ [(s, y)]) i) as [[si yi]|] eqn:Ei; [|reflexivity].
  cbn [fsub fmul R_arith]. change (qmet A G) with ip.
  destruct (Nat.leb_spec (length cs) i) as [H|H]; [|now rewrite (ip_sym G HG yi s)].
  assert (i = length cs) by lia. subst i. rewrite nth_error_app2, Nat.sub_diag in Ei by lia. injection Ei as <- <-.
  now rewrite (ip_sym G HG y s).
Qed.
Lemma MM_old cs c i j : (i < length cs)%nat -> (j < length cs)%nat -> MM (cs ++ [c]) i j = MM cs i j.
Proof. intros Hi Hj. unfold MM, entry, middle. now rewrite !nth_error_app1 by assumption. Qed.
Lemma bb_old cs c v i : (i < length cs)%nat -> bb (cs ++ [c]) v i = bb cs v i.
Proof. intros Hi. unfold bb. now rewrite nth_error_app1 by assumption. Qed.
Lemma bb_new cs s y v : bb (cs ++ [(s, y)]) v (length cs) = ip y v - gamma * ip s v.
Proof. unfold bb. rewrite nth_error_app2, Nat.sub_diag by lia. reflexivity. Qed.

Lemma swap_solution cs b c x w : solution (length cs) (middle G gamma cs) b x -> solution (length cs) (middle G gamma cs) c w ->
  sum (length cs) (fun i => b i * w i) = sum (length cs) (fun i => c i * x i).
Proof.
  intros Hx Hw. set (k := length cs) in *.
  rewrite (sum_ext k (fun i => b i * w i) (fun i => sum k (fun j => MM cs i j * x j * w i))).
  - rewrite sum_swap. apply sum_ext. intros j Hj. rewrite <- (Hw j Hj).
    rewrite Rmult_comm, <- sum_scal. apply sum_ext. intros i Hi. fold (MM cs). rewrite (MM_sym cs i j). ring.
  - intros i Hi. rewrite <- (Hx i Hi). rewrite Rmult_comm, <- sum_scal. apply sum_ext. intros j Hj. fold (MM cs). ring.
Qed.

Lemma recursion cs : sr1_defined G gamma (rev cs) ->
  nonsing cs /\
  forall v, exists x, solution (length cs) (middle G gamma cs) (bb cs v) x /\
    forall u, ip (sr1_rec G gamma (rev cs) v) u = gamma * ip v u + sum (length cs) (fun i => x i * bb cs u i).
Proof.
  induction cs as [|[s y] cs IH] using rev_ind.
  - intros _. split; [intros x _ i Hi; cbn in Hi; lia|]. intros v. exists (fun _ => 0). split; [intros i Hi; cbn in Hi; lia|].
    intros u. cbn. change (ip (qscal A G gamma v) u = gamma * ip v u + 0). rewrite (ip_scal G HG). ring.
  - rewrite rev_app_distr. cbn [rev app sr1_defined sr1_rec]. intros [D Hden]. destruct (IH D) as [NS EX]. clear IH.
    destruct (EX s) as (xs & Sxs & Bs).
    set (z := qaxpy A G (-1) (sr1_rec G gamma (rev cs) s) y) in *.
    set (k := length cs) in *.
    assert (Hz : forall u, ip z u = bb (cs ++ [(s, y)]) u k - sum k (fun i => xs i * bb cs u i)).
    { intros u. unfold z. rewrite (ip_axpy G HG), Bs. unfold k. rewrite bb_new. ring. }
    rewrite app_length. cbn [length]. fold k. rewrite Nat.add_1_r.
    assert (Hcol : forall i, (i < k)%nat -> MM (cs ++ [(s, y)]) i k = bb cs s i).
    { intros i Hi. unfold k. rewrite MM_last by (fold k; lia). now apply bb_old. }
    assert (row : forall x i, (i < k)%nat -> sum (S k) (fun j => entry (middle G gamma (cs ++ [(s, y)])) i j * x j) =
                              sum k (fun j => MM cs i j * x j) + bb cs s i * x k).
    { intros x i Hi. cbn [sum]. fold (MM (cs ++ [(s, y)])). rewrite Hcol by assumption. f_equal.
      apply sum_ext. intros j Hj. now rewrite MM_old. }
    assert (rowk : forall x, sum (S k) (fun j => entry (middle G gamma (cs ++ [(s, y)])) k j * x j) =
                             sum k (fun j => bb cs s j * x j) + bb (cs ++ [(s, y)]) s k * x k).
    { intros x. cbn [sum]. fold (MM (cs ++ [(s, y)])). unfold k at 4. rewrite MM_last by (fold k; lia). fold k. f_equal.
      apply sum_ext. intros j Hj. now rewrite MM_sym, Hcol. }
    split.
    + intros x Hx. unfold nonsing in *. rewrite app_length in Hx. cbn [length] in Hx. rewrite Nat.add_1_r in Hx. fold k in Hx.
      assert (H1 : forall j, (j < k)%nat -> x j + x k * xs j = 0).
      { apply (NS (fun j => x j + x k * xs j)). intros i Hi.
        pose proof (Hx i ltac:(lia)) as E. rewrite row in E by exact Hi.
        rewrite (sum_ext _ _ (fun j => MM cs i j * x j + x k * (MM cs i j * xs j))) by (intros; unfold MM; ring).
        rewrite sum_add, sum_scal. pose proof (Sxs i Hi) as K2. change (entry (middle G gamma cs)) with (MM cs) in K2. fold k in K2 |- *.
        rewrite K2. lra. }
      pose proof (Hx k ltac:(lia)) as E. rewrite rowk in E.
      assert (E2 : sum k (fun j => bb cs s j * x j) = - x k * sum k (fun i => xs i * bb cs s i)).
      { rewrite <- sum_scal. apply sum_ext. intros j Hj. pose proof (H1 j Hj) as K. replace (x j) with (- (x k * xs j)) by lra. ring. }
      rewrite E2 in E. assert (E3 : x k * ip z s = 0) by (rewrite Hz; lra).
      apply Rmult_integral in E3. destruct E3 as [E3|E3]; [|contradiction].
      intros i Hi. rewrite app_length in Hi. cbn [length] in Hi. fold k in Hi. destruct (Nat.eq_dec i k) as [->|]; [exact E3|].
      pose proof (H1 i ltac:(lia)) as K. rewrite E3 in K. lra.
    + intros v. destruct (EX v) as (xv & Sxv & Bv). set (t := ip z v / ip z s).
      exists (fun j => if Nat.eqb j k then t else xv j - t * xs j).
      assert (Ek : (if Nat.eqb k k then t else xv k - t * xs k) = t) by now rewrite Nat.eqb_refl.
      assert (Ej : forall j, (j < k)%nat -> (if Nat.eqb j k then t else xv j - t * xs j) = xv j - t * xs j).
      { intros j Hj. destruct (Nat.eqb_spec j k); [lia|reflexivity]. }
      split.
      * intros i Hi. destruct (Nat.eq_dec i k) as [->|Hne].
        -- rewrite rowk, Ek. rewrite (sum_ext _ _ (fun j => bb cs s j * xv j + - t * (xs j * bb cs s j))) by (intros j Hj; rewrite Ej by exact Hj; ring).
           rewrite sum_add, sum_scal. pose proof (swap_solution cs _ _ _ _ Sxs Sxv) as K. fold k in K. rewrite K.
           rewrite (sum_ext k (fun i => bb cs v i * xs i) (fun i => xs i * bb cs v i)) by (intros; ring).
           assert (Et : t * ip z s = ip z v) by (unfold t; field; exact Hden). rewrite (Hz s), (Hz v) in Et. lra.
        -- rewrite row, Ek by lia. rewrite (sum_ext _ _ (fun j => MM cs i j * xv j + - t * (MM cs i j * xs j))) by (intros j Hj; rewrite Ej by exact Hj; ring).
           rewrite sum_add, sum_scal. pose proof (Sxv i ltac:(lia)) as K1. pose proof (Sxs i ltac:(lia)) as K2. fold (MM cs) in K1, K2. fold k in K1, K2.
           change (entry (middle G gamma cs)) with (MM cs) in K1, K2. rewrite K1, K2. rewrite bb_old by lia. ring.
      * intros u. rewrite (ip_axpy G HG), Bv. fold t. rewrite (Hz u). cbn [sum]. rewrite Ek.
        assert (E : sum k (fun i => (if Nat.eqb i k then t else xv i - t * xs i) * bb (cs ++ [(s, y)]) u i) =
                    sum k (fun i => xv i * bb cs u i + - t * (xs i * bb cs u i))).
        { apply sum_ext. intros i Hi. rewrite Ej, bb_old by exact Hi. ring. }
        rewrite E, sum_add, sum_scal. fold k. ring.
Qed.

(** ** The product *)
Lemma nth_bb cs v i : nth i (map (fun u => qmet A G u v) (map (fun c => qaxpy A G (- gamma) (fst c) (snd c)) cs)) 0 = bb cs v i.
Proof.
  unfold bb. revert i. induction cs as [|[s y] cs IH]; intros [|i]; cbn; try reflexivity.
  - change (ip (qaxpy A G (- gamma) s y) v = ip y v - gamma * ip s v). rewrite (ip_axpy G HG). ring.
  - apply IH.
Qed.

Lemma sum_shift k f : sum (S k) f = f O + sum k (fun i => f (S i)).
Proof. induction k as [|k IH]; [cbn; ring|]. change (sum (S (S k)) f) with (sum (S k) f + f (S k)). rewrite IH. cbn [sum]. ring. Qed.

Lemma fold_ip cs u : forall x r, length x = length cs ->
  ip (fold_left (fun r vu => qaxpy A G (fst vu) (snd vu) r) (combine x (map (fun c => qaxpy A G (- gamma) (fst c) (snd c)) cs)) r) u =
  ip r u + sum (length cs) (fun i => nth i x 0 * bb cs u i).
Proof.
  induction cs as [|[s y] cs IH]; intros [|x0 x] r Hx; try discriminate; [cbn; ring|].
  cbn [map combine fold_left length]. rewrite IH by (now injection Hx). rewrite sum_shift. cbn [nth fst snd].
  rewrite !(ip_axpy G HG). change (bb ((s, y) :: cs) u O) with (ip y u - gamma * ip s u).
  change (sum (length cs) (fun i => nth i x 0 * bb ((s, y) :: cs) u (S i))) with (sum (length cs) (fun i => nth i x 0 * bb cs u i)). ring.
Qed.

Context (L : nat) (solve : (nat -> nat -> option R) -> list R -> list R).

Definition hvB (m : smem A G) cs (v : V) : V :=
  let c := map (fun c => qaxpy A G (- gamma) (fst c) (snd c)) cs in
  fold_left (fun r vu => qaxpy A G (fst vu) (snd vu) r) (combine (solve (pmgq A G L m) (map (fun u => qmet A G u v) c)) c)
    (qscal A G gamma v).

Lemma hv_value m cs v : represents G L m gamma cs -> hv_lsr1 A G L solve m v = Some (hvB m cs v).
Proof. intros (E1 & E2 & E3 & _). unfold hv_lsr1. rewrite E3, E2. reflexivity. Qed.

Lemma solution_ext k M N b c x : (forall i j, (i < k)%nat -> (j < k)%nat -> entry M i j = entry N i j) ->
  (forall i, (i < k)%nat -> b i = c i) -> solution k M b x -> solution k N c x.
Proof. intros H Hb K i Hi. rewrite <- Hb, <- (K i Hi) by exact Hi. apply sum_ext. intros j Hj. now rewrite H. Qed.

Lemma hv_solution m cs v : represents G L m gamma cs -> solves solve (length cs) (pmgq A G L m) -> nonsing cs -> exists x,
  solution (length cs) (middle G gamma cs) (bb cs v) x /\
  forall u, ip (hvB m cs v) u = gamma * ip v u + sum (length cs) (fun i => x i * bb cs u i).
Proof.
  intros (E1 & E2 & E3 & E4) Hsolve NS.
  set (b := map (fun u => qmet A G u v) (map (fun c => qaxpy A G (- gamma) (fst c) (snd c)) cs) : list R).
  assert (Lb : length b = length cs) by (unfold b; now rewrite !map_length).
  destruct (Hsolve b Lb) as [Lx Sx].
  assert (EM : forall i j, (i < length cs)%nat -> (j < length cs)%nat -> entry (pmgq A G L m) i j = entry (middle G gamma cs) i j).
  { intros i j Hi Hj. unfold entry. now rewrite E4. }
  exists (fun i => nth i (solve (pmgq A G L m) b) 0). split.
  - eapply solution_ext; [exact EM| |apply Sx].
    + intros i Hi. apply nth_bb.
    + intros x Hx. apply NS. eapply solution_ext; [exact EM| |exact Hx]. reflexivity.
  - intros u. unfold hvB. fold b. rewrite fold_ip by exact Lx. rewrite (ip_scal G HG). reflexivity.
Qed.

Lemma unique cs b x w : nonsing cs -> solution (length cs) (middle G gamma cs) b x -> solution (length cs) (middle G gamma cs) b w ->
  forall i, (i < length cs)%nat -> x i = w i.
Proof.
  intros NS Hx Hw i Hi. assert (E : x i - w i = 0); [|lra]. apply (NS (fun i => x i - w i)); [|exact Hi]. clear i Hi.
  intros i Hi. rewrite (sum_ext _ _ (fun j => entry (middle G gamma cs) i j * x j + -1 * (entry (middle G gamma cs) i j * w j))) by (intros; ring).
  rewrite sum_add, sum_scal, (Hx i Hi), (Hw i Hi). ring.
Qed.

Lemma hv_symmetric m cs : represents G L m gamma cs -> solves solve (length cs) (pmgq A G L m) -> nonsing cs -> symmetric G (hvB m cs).
Proof.
  intros H HS NS v w. destruct (hv_solution m cs v H HS NS) as (x & Sx & Ex). destruct (hv_solution m cs w H HS NS) as (x' & Sx' & Ex').
  rewrite Ex, (ip_sym G HG v (hvB m cs w)), Ex', (ip_sym G HG w v). f_equal.
  pose proof (swap_solution cs _ _ _ _ Sx Sx') as K.
  transitivity (sum (length cs) (fun i => bb cs w i * x i)); [apply sum_ext; intros; ring|].
  rewrite <- K. apply sum_ext. intros. ring.
Qed.

Lemma hv_secant m cs s y : represents G L m gamma (cs ++ [(s, y)]) -> solves solve (length (cs ++ [(s, y)])) (pmgq A G L m) -> nonsing (cs ++ [(s, y)]) -> maps G (hvB m (cs ++ [(s, y)])) s y.
Proof.
  intros H HS NS u. destruct (hv_solution m _ s H HS NS) as (x & Sx & Ex). rewrite Ex.
  assert (S1 : solution (length (cs ++ [(s, y)])) (middle G gamma (cs ++ [(s, y)])) (bb (cs ++ [(s, y)]) s) (fun i => if Nat.eqb i (length cs) then 1 else 0)).
  { intros i Hi. rewrite app_length in *. cbn [length] in *. rewrite (sum_one _ (length cs)) by (try lia; intros j Hj Hne; apply Nat.eqb_neq in Hne; rewrite Hne; ring).
    rewrite Nat.eqb_refl. fold (MM (cs ++ [(s, y)]) i (length cs)). rewrite MM_last by lia. ring. }
  rewrite (sum_one _ (length cs)).
  - rewrite (unique _ _ _ _ NS Sx S1) by (rewrite app_length; cbn; lia). rewrite Nat.eqb_refl, bb_new. ring.
  - rewrite app_length. cbn. lia.
  - intros i Hi Hne. rewrite (unique _ _ _ _ NS Sx S1) by exact Hi. apply Nat.eqb_neq in Hne. rewrite Hne. ring.
Qed.

Lemma hv_recursion m cs v : represents G L m gamma cs -> solves solve (length cs) (pmgq A G L m) -> sr1_defined G gamma (rev cs) -> same G (hvB m cs v) (sr1_rec G gamma (rev cs) v).
Proof.
  intros H HS D u. destruct (recursion cs D) as [NS EX]. destruct (EX v) as (x & Sx & Ex).
  destruct (hv_solution m cs v H HS NS) as (x' & Sx' & Ex'). rewrite Ex, Ex'. f_equal.
  apply sum_ext. intros i Hi. now rewrite (unique cs _ _ _ NS Sx' Sx i Hi).
Qed.
End exact.

(** ** Every run *)
Theorem run_operator {big eps : R} (G : qspace (R_arith big eps)) (L : nat) (restart u : bool) l solve :
  qn_space G -> isometric G l -> exists m, passes (R_arith big eps) G L restart 0 (smem0 (R_arith big eps) G L u) l = Some m /\
  let cs := kept G L restart l in let gamma := gamma_of G l in
  (solves solve (length cs) (pmgq (R_arith big eps) G L m) -> exists H, (forall v, hv_lsr1 (R_arith big eps) G L solve m v = Some (H v)) /\
   (nonsingular (length cs) (middle G gamma cs) ->
      symmetric G H /\ forall older s y, cs = older ++ [(s, y)] -> maps G H s y) /\
   (sr1_defined G gamma (rev cs) -> nonsingular (length cs) (middle G gamma cs) /\ forall v, same G (H v) (sr1_rec G gamma (rev cs) v))).
Proof.
  intros HG HT. destruct (run_represents G L restart (ip_sym G HG) u l HT) as (m & E & Hr). exists m. split; [exact E|].
  fold (gamma_of G l). set (cs := kept G L restart l) in *. set (gamma := gamma_of G l) in *. clearbody cs gamma.
  intros cs' gamma' HS. subst cs' gamma'. exists (hvB G gamma L solve m cs). split; [intros v; now apply hv_value|]. split.
  - intros NS. split; [now apply hv_symmetric|]. intros older s y Ec. subst cs. now apply hv_secant.
  - intros D. split; [now apply (recursion G HG gamma cs)|]. intros v. now apply hv_recursion.
Qed.
