(** Proofs about the arithmetic of MatOpsModel.v over the real numbers. *)
From Coq Require Import List Arith Lia QArith Reals Lra Qreals.
From Verif Require Import Arith MatOpsModel MatOpsSpec MatOpsProofs.
Import ListNotations.
Local Open Scope R_scope.
Local Open Scope list_scope.

Section reals.
Variables big eps : R.
Notation A := (R_arith big eps).
Implicit Types (a b m l r : list R) (zs ws : list complex).

Lemma q1 : Q2R 1 = 1. Proof. unfold Q2R. cbn. lra. Qed.
Lemma q0 : Q2R 0 = 0. Proof. unfold Q2R. cbn. lra. Qed.
Lemma qm1 : Q2R (-1) = -1. Proof. unfold Q2R. cbn. lra. Qed.

Lemma zip_c (f : R -> R -> R) (g : complex -> complex -> complex) :
  (forall x y z w, g (x, y) (z, w) = (f x z, f y w)) ->
  forall l zs, stands_for l zs -> forall r ws, stands_for r ws -> length zs = length ws ->
  stands_for (zip (A := A) f l r) (zipc g zs ws).
Proof.
  intros H l zs Hl. induction Hl as [|x y l zs Hl IH]; intros r ws Hr E.
  - constructor.
  - destruct Hr as [|z w r ws Hr]; [discriminate E|]. cbn. rewrite H. constructor. apply IH; [exact Hr|].
    cbn in E. congruence.
Qed.
Lemma pairs_c (f : R -> R -> R * R) (g : complex -> complex) : (forall x y, g (x, y) = f x y) ->
  forall l zs, stands_for l zs -> stands_for (pairs (A := A) f l) (map g zs).
Proof.
  intros H l zs Hl. induction Hl as [|x y l zs Hl IH]; [constructor|].
  cbn. rewrite H. destruct (f x y) as (u & v). constructor. exact IH.
Qed.
Lemma zip_pairs_c (f : R -> R -> R -> R -> R * R) (g : complex -> complex -> complex) :
  (forall x y z w, g (x, y) (z, w) = f x y z w) ->
  forall l zs, stands_for l zs -> forall r ws, stands_for r ws -> length zs = length ws ->
  stands_for (zip_pairs (A := A) f l r) (zipc g zs ws).
Proof.
  intros H l zs Hl. induction Hl as [|x y l zs Hl IH]; intros r ws Hr E.
  - constructor.
  - destruct Hr as [|z w r ws Hr]; [discriminate E|]. cbn. rewrite H. destruct (f x y z w) as (u & v).
    constructor. apply IH; [exact Hr|]. cbn in E. congruence.
Qed.

Lemma pair_eq (x y z w : R) : x = z -> y = w -> (x, y) = (z, w).
Proof. congruence. Qed.

Lemma add_c l zs r ws : stands_for l zs -> stands_for r ws -> length zs = length ws ->
  stands_for (add (A := A) l r) (zipc cadd zs ws).
Proof.
  intros. unfold add. eapply zip_c; eauto. intros x y z w. unfold cadd. cbn. rewrite q1. apply pair_eq; ring.
Qed.
Lemma sub_c l zs r ws : stands_for l zs -> stands_for r ws -> length zs = length ws ->
  stands_for (sub (A := A) l r) (zipc csub zs ws).
Proof.
  intros. unfold sub. eapply zip_c; eauto. intros x y z w. unfold csub. cbn. rewrite qm1. apply pair_eq; ring.
Qed.
Lemma cadd_val_c l zs vr vi : stands_for l zs ->
  stands_for (cadd_val (A := A) l vr vi) (map (fun z => cadd z (vr, vi)) zs).
Proof. intro. unfold cadd_val. apply pairs_c; [reflexivity|assumption]. Qed.
Lemma csub_val_c l zs vr vi : stands_for l zs ->
  stands_for (csub_val (A := A) l vr vi) (map (fun z => csub z (vr, vi)) zs).
Proof. intro. unfold csub_val. apply pairs_c; [reflexivity|assumption]. Qed.
Lemma cval_sub_c l zs vr vi : stands_for l zs ->
  stands_for (cval_sub (A := A) vr vi l) (map (fun z => csub (vr, vi) z) zs).
Proof. intro. unfold cval_sub. apply pairs_c; [reflexivity|assumption]. Qed.
Lemma cscale_c l zs vr vi : stands_for l zs ->
  stands_for (cscale (A := A) vr vi l) (map (cmul (vr, vi)) zs).
Proof. intro. unfold cscale. apply pairs_c; [reflexivity|assumption]. Qed.
Lemma scale_c l zs v : stands_for l zs -> stands_for (scale (A := A) v l) (map (cmul (v, 0)) zs).
Proof.
  induction 1 as [|x y l zs H IH]; [constructor|]. cbn [scale map]. unfold cmul. cbn [fst snd].
  replace (v * x - 0 * y) with (v * x) by ring. replace (v * y + 0 * x) with (v * y) by ring. constructor. exact IH.
Qed.
Lemma conj_c l zs : stands_for l zs -> stands_for (conj_ (A := A) l) (map cconj zs).
Proof. intro. unfold conj_. apply pairs_c; [intros; unfold cconj; cbn; rewrite qm1; apply pair_eq; ring|assumption]. Qed.
Lemma chadamard_c l zs r ws : stands_for l zs -> stands_for r ws -> length zs = length ws ->
  stands_for (chadamard (A := A) l r) (zipc cmul zs ws).
Proof.
  intros. unfold chadamard. eapply zip_pairs_c; eauto. intros. unfold cmul. cbn. apply pair_eq; ring.
Qed.

Lemma stands_fun l zs zs' : stands_for l zs -> stands_for l zs' -> zs = zs'.
Proof.
  intro H. revert zs'. induction H as [|x y l zs H IH]; intros zs' H'; inversion H'; subst; [reflexivity|].
  f_equal. apply IH. assumption.
Qed.
Lemma map_id_in {B} (f : B -> B) (l : list B) : (forall x, In x l -> f x = x) -> map f l = l.
Proof. induction l as [|x l IH]; cbn; intro H; [reflexivity|]. rewrite H, IH by auto. reflexivity. Qed.

Definition nsq (z : complex) : R := fst z * fst z + snd z * snd z.
Lemma nsq_pos z : z <> czero -> nsq z <> 0.
Proof.
  destruct z as (x & y). unfold nsq, czero. cbn. intros N E. apply N.
  assert (x * x = 0 /\ y * y = 0) as (E1 & E2) by (split; nra).
  apply pair_eq; [apply Rsqr_0_uniq|apply Rsqr_0_uniq]; unfold Rsqr; assumption.
Qed.
Definition cquot (z w : complex) : complex :=
  ((fst w * fst z + snd w * snd z) / nsq w, (fst w * snd z - snd w * fst z) / nsq w).
Lemma cquot_mul z w : w <> czero -> cmul (cquot z w) w = z.
Proof.
  intro H. apply nsq_pos in H. destruct z as (x & y). destruct w as (u & v). unfold cmul, cquot, nsq in *. cbn in *.
  apply pair_eq; field; exact H.
Qed.

Lemma cdiv_val_c l zs vr vi : stands_for l zs -> (vr, vi) <> czero ->
  exists qs, stands_for (cdiv_val (A := A) l vr vi) qs /\ map (fun z => cmul z (vr, vi)) qs = zs.
Proof.
  intros H N. exists (map (fun z => cquot z (vr, vi)) zs). split.
  - unfold cdiv_val. apply pairs_c; [reflexivity|assumption].
  - rewrite map_map. apply map_id_in. intros z _. apply cquot_mul. exact N.
Qed.
Lemma cval_div_c l zs vr vi : stands_for l zs -> Forall (fun z => z <> czero) zs ->
  exists qs, stands_for (cval_div (A := A) vr vi l) qs /\ zipc cmul qs zs = repeat (vr, vi) (length zs).
Proof.
  intros H N. exists (map (fun z => cquot (vr, vi) z) zs). split.
  - unfold cval_div. apply pairs_c; [|assumption]. intros x y. unfold cquot, nsq. cbn. apply pair_eq; unfold Rdiv; ring.
  - clear H. induction N as [|z zs Hz N IH]; [reflexivity|]. cbn [map zipc repeat length]. apply f_equal2; [apply cquot_mul; exact Hz|exact IH].
Qed.
Lemma chdivide_c l zs r ws : stands_for l zs -> stands_for r ws -> length zs = length ws ->
  Forall (fun z => z <> czero) ws ->
  exists qs, stands_for (chdivide (A := A) l r) qs /\ zipc cmul qs ws = zs.
Proof.
  intros Hl Hr E N. exists (zipc cquot zs ws). split.
  - unfold chdivide. eapply zip_pairs_c; eauto. intros x y z w. unfold cquot, nsq. cbn. apply pair_eq; unfold Rdiv; ring.
  - clear Hl Hr. revert zs E. induction N as [|w ws Hw N IH]; intros [|z zs] E; try discriminate; [reflexivity|].
    cbn [zipc]. apply f_equal2; [apply cquot_mul; exact Hw|apply IH; cbn in E; congruence].
Qed.

(** ** Real arrays *)
Lemma zip_ext (f g : R -> R -> R) l r : (forall x y, f x y = g x y) -> zip (A := A) f l r = zipc g l r.
Proof. intro H. revert r. induction l as [|x l IH]; intros [|y r]; cbn; try reflexivity. rewrite H, IH. reflexivity. Qed.

Lemma real_ops a b v :
  add (A := A) a b = zipc Rplus a b /\ sub (A := A) a b = zipc Rminus a b /\
  add_val (A := A) a v = map (fun x => x + v) a /\ sub_val (A := A) a v = map (fun x => x - v) a /\
  val_sub (A := A) v a = map (fun x => v - x) a /\ scale (A := A) v a = map (Rmult v) a /\
  div_val (A := A) a v = map (fun x => x / v) a /\ val_div (A := A) v a = map (fun x => v / x) a /\
  hadamard (A := A) a b = zipc Rmult a b /\ hdivide (A := A) a b = zipc Rdiv a b /\
  max_ (A := A) a b = zipc Rmax a b /\ min_ (A := A) a b = zipc Rmin a b /\
  max_val (A := A) a v = map (Rmax v) a /\ min_val (A := A) a v = map (Rmin v) a.
Proof.
  assert (Mx : forall x y, (if Rltb y x then x else y) = Rmax x y).
  { intros x y. unfold Rmax. destruct (Rltb y x) eqn:E; [apply Rltb_true in E|apply Rltb_false in E];
      destruct (Rle_dec x y); lra. }
  assert (Mn : forall x y, (if Rltb x y then x else y) = Rmin x y).
  { intros x y. unfold Rmin. destruct (Rltb x y) eqn:E; [apply Rltb_true in E|apply Rltb_false in E];
      destruct (Rle_dec x y); lra. }
  repeat match goal with |- _ /\ _ => split end.
  - apply zip_ext. intros. cbn. rewrite q1. ring.
  - apply zip_ext. intros. cbn. rewrite qm1. ring.
  - reflexivity.
  - reflexivity.
  - reflexivity.
  - reflexivity.
  - reflexivity.
  - reflexivity.
  - apply zip_ext. intros. cbn. ring.
  - apply zip_ext. reflexivity.
  - apply zip_ext. intros. cbn. apply Mx.
  - apply zip_ext. intros. cbn. apply Mn.
  - unfold max_val. apply map_ext. intro x. cbn. rewrite Mx. apply Rmax_comm.
  - unfold min_val. apply map_ext. intro x. cbn. rewrite Mn. apply Rmin_comm.
Qed.

(** ** Norms *)
Lemma dotp_app (x y u v : list R) : length x = length y ->
  dotp (A := A) (x ++ u) (y ++ v) = dotp (A := A) x y + dotp (A := A) u v.
Proof.
  revert y. induction x as [|p x IH]; intros [|q y] E; try discriminate E; cbn.
  - rewrite q0. symmetry. apply Rplus_0_l.
  - rewrite IH by (cbn in E; congruence). symmetry. apply Rplus_assoc.
Qed.
Lemma col_dots_sum n k : forall (x y : list R), length x = (n * k)%nat -> length y = (n * k)%nat ->
  sum (col_dots (A := A) n k x y) = dotp (A := A) x y.
Proof.
  unfold col_dots.
  assert (G : forall k (x y : list R), length x = (n * k)%nat -> length y = (n * k)%nat ->
     forall o (X Y : list R), length X = (o * n)%nat -> length Y = (o * n)%nat ->
     sum (map (fun i => dotp (A := A) (col (A := A) n i (X ++ x)) (col (A := A) n i (Y ++ y))) (seq o k)) = dotp (A := A) x y).
  { clear k. induction k as [|k IH]; intros x y Lx Ly o X Y LX LY.
    - assert (x = []) by (destruct x; [reflexivity|cbn in Lx; lia]). subst. cbn. symmetry. apply q0.
    - cbn [seq map sum fold_right].
      assert (Sx : x = firstn n x ++ skipn n x) by (symmetry; apply firstn_skipn).
      assert (Sy : y = firstn n y ++ skipn n y) by (symmetry; apply firstn_skipn).
      assert (C : forall Z z : list R, length Z = (o * n)%nat -> col (A := A) n o (Z ++ z) = firstn n z).
      { intros Z z LZ. unfold col. rewrite skipn_app, LZ, Nat.sub_diag. rewrite skipn_all2 by (rewrite LZ; lia). reflexivity. }
      rewrite (C X x LX), (C Y y LY).
      assert (Fx : length (firstn n x) = n) by (rewrite firstn_length; nia).
      assert (Fy : length (firstn n y) = n) by (rewrite firstn_length; nia).
      assert (T := IH (skipn n x) (skipn n y) ltac:(rewrite skipn_length; nia) ltac:(rewrite skipn_length; nia)
        (S o) (X ++ firstn n x) (Y ++ firstn n y) ltac:(rewrite app_length, LX, Fx; lia) ltac:(rewrite app_length, LY, Fy; lia)).
      rewrite <- !app_assoc, !firstn_skipn in T.
      assert (D : dotp (A := A) x y = dotp (A := A) (firstn n x) (firstn n y) + dotp (A := A) (skipn n x) (skipn n y)).
      { rewrite <- dotp_app by congruence. rewrite !firstn_skipn. reflexivity. }
      rewrite D, <- T. reflexivity. }
  intros x y Lx Ly. exact (G k x y Lx Ly 0%nat [] [] eq_refl eq_refl).
Qed.
Lemma dotp_nonneg (x : list R) : 0 <= dotp (A := A) x x.
Proof. induction x as [|p x IH]; cbn; [rewrite q0; lra|nra]. Qed.
Lemma norms_sum n k (x : list R) : length x = (n * k)%nat ->
  sum (col_norms (A := A) n k x) = Fnorm (A := A) x * Fnorm (A := A) x /\
  col_norms (A := A) n k x = col_dots (A := A) n k x x /\ 0 <= Fnorm (A := A) x.
Proof.
  intro L. split; [|split; [reflexivity|apply sqrt_pos]].
  change (col_norms (A := A) n k x) with (col_dots (A := A) n k x x). rewrite col_dots_sum by exact L.
  unfold Fnorm. cbn. symmetry. apply sqrt_sqrt. apply dotp_nonneg.
Qed.
End reals.
