(** Splines: SplineSlopes, SplineUniformSlopes and the coefficient loops, for any arithmetic. *)
From Coq Require Import QArith ZArith List Bool Arith Lia.
From Verif Require Import Arith SplineModel SplineSpec SplineProofs.
Import ListNotations.
Local Open Scope nat_scope.

Ltac rdm := repeat (rewrite upd_other by lia).

Section gen.
Context {A : arith}.
Notation F := (F A).
Notation mem := (mem A).
Notation arr := (@holds_array A).
Notation upd := (upd A).
Notation lit q := (@fq A q).
Implicit Types (m c : mem).

Definition nt (l : list F) (i : nat) : F := nth i l (lit 0).
Lemma at_nt l i : i < length l -> at_ A l i = Some (nt l i).
Proof. intros H. unfold at_. now apply nth_error_nth'. Qed.
Lemma upd_eq m i j v : j = i -> upd m i v j = Some v.
Proof. intros ->. apply upd_same. Qed.

(** ** Coefficients *)
Section coefs.
Context (nn : nat) (X Y : list F) (h : F) (s : nat) (m : mem) (S' : nat -> F).
Context (Hs : arr m s (nn + 1) S').

Definition c0_of (hi : F) i : F := fdiv (fdiv (fsub (S' (i + 1)) (S' i)) (lit 6)) hi.
Definition c1_of i : F := fdiv (S' i) (lit 2).
Definition c2_of (hi : F) i : F :=
  fsub (fadd (fdiv (fmul (fopp (S' i)) hi) (lit 2)) (fdiv (fsub (nt Y (i + 1)) (nt Y i)) hi))
       (fdiv (fmul hi (fsub (S' (i + 1)) (S' i))) (lit 6)).
Definition c3_of (hi : F) i : F :=
  fadd (fdiv (fmul (fmul (S' i) hi) hi) (lit 6)) (fsub (nt Y i) (fdiv (fmul (fmul (S' i) hi) hi) (lit 6))).

Lemma coef_uniform_spec : nn < length Y ->
  exists c, for_ nn 0 (coef_uniform A nn Y h s m) (fresh A) = Some c /\
  forall i, i < nn -> c (0 * nn + i) = Some (c0_of h i) /\ c (1 * nn + i) = Some (c1_of i) /\
                      c (2 * nn + i) = Some (c2_of h i) /\ c (3 * nn + i) = Some (nt Y i).
Proof.
  intros HY.
  destruct (for_inv (fun i c => forall j, j < i -> c (0 * nn + j) = Some (c0_of h j) /\ c (1 * nn + j) = Some (c1_of j) /\
     c (2 * nn + j) = Some (c2_of h j) /\ c (3 * nn + j) = Some (nt Y j)) (coef_uniform A nn Y h s m) nn 0 (fresh A)) as (c & E & H).
  - intros j Hj. lia.
  - intros i c _ Hi IH. unfold coef_uniform. cbv zeta. rewrite (Hs (i + 1)), (Hs i) by lia. cbn [bind].
    rewrite !at_nt by lia. cbn [bind]. rewrite wr_ok by lia. cbn [bind]. rewrite wr_ok by lia. cbn [bind].
    rewrite wr_ok by lia. cbn [bind]. rewrite wr_ok by lia. eexists. split; [reflexivity|].
    intros j Hj. destruct (Nat.eq_dec j i) as [->|Hn].
    + split; [rdm; apply upd_eq; lia|]. split; [rdm; apply upd_eq; lia|]. split; [rdm; apply upd_eq; lia|]. apply upd_eq. lia.
    + rdm. apply IH. lia.
  - exists c. split; [exact E|]. intros i Hi. apply H. lia.
Qed.

Lemma coef_general_spec : nn < length X -> nn < length Y ->
  exists c, for_ nn 0 (coef_general A nn X Y s m) (fresh A) = Some c /\
  forall i, i < nn -> let hi := fsub (nt X (i + 1)) (nt X i) in
     c (0 * nn + i) = Some (c0_of hi i) /\ c (1 * nn + i) = Some (c1_of i) /\
     c (2 * nn + i) = Some (c2_of hi i) /\ c (3 * nn + i) = Some (c3_of hi i).
Proof.
  intros HX HY.
  destruct (for_inv (fun i c => forall j, j < i -> let hi := fsub (nt X (j + 1)) (nt X j) in
     c (0 * nn + j) = Some (c0_of hi j) /\ c (1 * nn + j) = Some (c1_of j) /\
     c (2 * nn + j) = Some (c2_of hi j) /\ c (3 * nn + j) = Some (c3_of hi j)) (coef_general A nn X Y s m) nn 0 (fresh A)) as (c & E & H).
  - intros j Hj. lia.
  - intros i c _ Hi IH. unfold coef_general. cbv zeta. rewrite !at_nt by lia. cbn [bind]. rewrite (Hs (i + 1)), (Hs i) by lia. cbn [bind].
    rewrite wr_ok by lia. cbn [bind]. rewrite wr_ok by lia. cbn [bind].
    rewrite wr_ok by lia. cbn [bind]. rewrite wr_ok by lia. eexists. split; [reflexivity|].
    intros j Hj. cbv zeta. destruct (Nat.eq_dec j i) as [->|Hn].
    + split; [rdm; apply upd_eq; lia|]. split; [rdm; apply upd_eq; lia|]. split; [rdm; apply upd_eq; lia|]. apply upd_eq. lia.
    + rdm. apply IH. lia.
  - exists c. split; [exact E|]. intros i Hi. apply H. lia.
Qed.
End coefs.

(** ** Slopes *)
Section slopes.
Context (n : nat) (Y : list F) (Hn : 2 <= n) (HY : n <= length Y).
Notation nn := (n - 1).

Section system.
(** Interior rows and end rows of the system. *)
Context (Li Ui Vi : nat -> F) (d0 u0 v0 dn ln vn : F).
Definition sysD i : F := if Nat.eqb i 0 then d0 else if Nat.eqb i nn then dn else lit 2.
Definition sysU i : F := if Nat.eqb i 0 then u0 else Ui i.
Definition sysL i : F := if Nat.eqb i (nn - 1) then ln else Li (i + 1).
Definition sysV i : F := if Nat.eqb i 0 then v0 else if Nat.eqb i nn then vn else Vi i.

Definition fill_inv (i : nat) (m : mem) : Prop := forall j, 1 <= j -> j < i ->
  m j = Some (lit 2) /\ m (n + j) = Some (Ui j) /\ m (2 * n - 1 + (j - 1)) = Some (Li j) /\ m (3 * n - 2 + j) = Some (Vi j).

Lemma system_filled m : fill_inv nn m ->
  let mm := upd (upd (upd (upd (upd (upd m (0 + 0) d0) (n + 0) u0) (3 * n - 2 + 0) v0) (0 + nn) dn) (2 * n - 1 + (nn - 1)) ln) (3 * n - 2 + nn) vn in
  exists m' ok, tridiagonal A (5 * n - 2) 0 n (2 * n - 1) (3 * n - 2) (4 * n - 2) n mm = Some (m', ok) /\
    (ok = true <-> forall i, i < n -> flt (fabs (pd sysD sysU sysL i)) fepsv = false) /\
    (ok = true -> arr m' (4 * n - 2) n (sol nn sysD sysU sysL sysV)).
Proof.
  intros Hf mm. unfold mm. clear mm.
  assert (En : S nn = n) by lia.
  pose proof (tridiagonal_spec (5 * n - 2) 0 n (2 * n - 1) (3 * n - 2) (4 * n - 2) nn sysD sysU sysL sysV) as K.
  rewrite En in K. apply K; try lia;
    try (unfold disjoint; intros; lia).
  - intros j Hj. unfold sysD. destruct (Nat.eqb_spec j 0); [subst; rdm; apply upd_eq; lia|].
    destruct (Nat.eqb_spec j nn); [subst; rdm; apply upd_eq; lia|]. rdm. apply (Hf j); lia.
  - intros j Hj. unfold sysV. destruct (Nat.eqb_spec j 0); [subst; rdm; apply upd_eq; lia|].
    destruct (Nat.eqb_spec j nn); [subst; rdm; apply upd_eq; lia|]. rdm. apply (Hf j); lia.
  - intros j Hj. unfold sysU. destruct (Nat.eqb_spec j 0); [subst; rdm; apply upd_eq; lia|].
    rdm. apply (Hf j); lia.
  - intros j Hj. unfold sysL. destruct (Nat.eqb_spec j (nn - 1)); [subst; rdm; apply upd_eq; lia|].
    rdm. replace j with (j + 1 - 1) at 1 by lia. apply (Hf (j + 1)); lia.
Qed.
End system.

(** The routine with uniform spacing. *)
Section uniform.
Context (h : F).
Definition uV i : F := fmul (fdiv (lit 3) h) (fsub (fdiv (fsub (nt Y (i + 1)) (nt Y i)) h) (fdiv (fsub (nt Y i) (nt Y (i - 1))) h)).
Definition u_end (i : nat) : F := fdiv (fsub (nt Y (i + 1)) (nt Y i)) h.
Definition uD := sysD (fdiv h (lit 3)) (fdiv h (lit 3)).
Definition uU := sysU (fun _ => lit (1#2)) (fdiv h (lit 6)).
Definition uL := sysL (fun _ => lit (1#2)) (fdiv h (lit 6)).
Definition uVV := sysV uV (fsub (u_end 0) (u_end 0)) (fsub (u_end (nn - 1)) (u_end (nn - 1))).

Lemma uniform_slopes_spec :
  exists c ok, uniform_slopes A Y n h = Some (c, ok) /\
  (ok = true <-> forall i, i < n -> flt (fabs (pd uD uU uL i)) fepsv = false) /\
  (ok = true -> let S' := sol nn uD uU uL uVV in
     forall i, i < nn -> c (0 * nn + i) = Some (c0_of S' h i) /\ c (1 * nn + i) = Some (c1_of S' i) /\
                         c (2 * nn + i) = Some (c2_of Y S' h i) /\ c (3 * nn + i) = Some (nt Y i)).
Proof.
  unfold uniform_slopes. cbv zeta. destruct (Nat.ltb_spec n 2); [lia|].
  destruct (for_inv (fill_inv (fun _ => lit (1#2)) (fun _ => lit (1#2)) uV) (fill_uniform A n Y h) (nn - 1) 1 (fresh A)) as (m & E & Hf).
  - intros j H1 H2. lia.
  - intros i m Hi1 Hi2 IH. unfold fill_uniform. cbv zeta. rewrite wr_ok by lia. cbn [bind]. rewrite wr_ok by lia. cbn [bind].
    rewrite wr_ok by lia. cbn [bind]. rewrite !at_nt by lia. cbn [bind]. rewrite wr_ok by lia. eexists. split; [reflexivity|].
    intros j Hj1 Hj2. destruct (Nat.eq_dec j i) as [->|Hne].
    + split; [rdm; apply upd_eq; lia|]. split; [rdm; apply upd_eq; lia|]. split; [rdm; apply upd_eq; lia|]. apply upd_eq. lia.
    + rdm. apply IH; lia.
  - rewrite E. cbn [bind]. rewrite !at_nt by lia. cbn [bind].
    replace (1 + (nn - 1)) with nn in Hf by lia.
    repeat (rewrite wr_ok by lia; cbn [bind]). 
    destruct (system_filled (fun _ => lit (1#2)) (fun _ => lit (1#2)) uV (fdiv h (lit 3)) (fdiv h (lit 6)) (fsub (u_end 0) (u_end 0))
       (fdiv h (lit 3)) (fdiv h (lit 6)) (fsub (u_end (nn - 1)) (u_end (nn - 1))) m Hf)
       as (m' & ok & E1 & H1 & H2).
    unfold u_end in E1. replace (nn - 1 + 1) with nn in E1 by lia. cbv zeta in E1. change (0 + 1) with 1 in E1. rewrite E1. cbn [bind]. destruct ok.
    + destruct (coef_uniform_spec nn Y h (4 * n - 2) m' (sol nn uD uU uL uVV)) as (c & E2 & H3); [|lia|].
      { replace (nn + 1) with n by lia. now apply H2. }
      rewrite E2. cbn [bind]. exists c, true. split; [reflexivity|]. split; [exact H1|]. intros _. exact H3.
    + exists (fresh A), false. split; [reflexivity|]. split; [exact H1|discriminate].
Qed.
End uniform.

Section general.
Context (X : list F) (HX : n <= length X).
Definition gh i : F := fsub (nt X (i + 1)) (nt X i).
Definition gw i : F := fsub (nt X (i + 1)) (nt X (i - 1)).
Definition gq i : F := fdiv (fsub (nt Y (i + 1)) (nt Y i)) (gh i).
Definition gL i : F := fdiv (fsub (nt X i) (nt X (i - 1))) (gw i).
Definition gU i : F := fdiv (gh i) (gw i).
Definition gV i : F := fmul (fdiv (lit 6) (gw i)) (fsub (gq i) (fdiv (fsub (nt Y i) (nt Y (i - 1))) (fsub (nt X i) (nt X (i - 1))))).
Definition gDD := sysD (fdiv (gh 0) (lit 3)) (fdiv (gh (nn - 1)) (lit 3)).
Definition gUU := sysU gU (fdiv (gh 0) (lit 6)).
Definition gLL := sysL gL (fdiv (gh (nn - 1)) (lit 6)).
Definition gVV := sysV gV (fsub (gq 0) (gq 0)) (fsub (gq (nn - 1)) (gq (nn - 1))).

Lemma slopes_spec :
  exists c ok, slopes A X Y n = Some (c, ok) /\
  (ok = true <-> forall i, i < n -> flt (fabs (pd gDD gUU gLL i)) fepsv = false) /\
  (ok = true -> let S' := sol nn gDD gUU gLL gVV in
     forall i, i < nn -> let hi := gh i in
                         c (0 * nn + i) = Some (c0_of S' hi i) /\ c (1 * nn + i) = Some (c1_of S' i) /\
                         c (2 * nn + i) = Some (c2_of Y S' hi i) /\ c (3 * nn + i) = Some (c3_of Y S' hi i)).
Proof.
  unfold slopes. cbv zeta. destruct (Nat.ltb_spec n 2); [lia|].
  destruct (for_inv (fill_inv gL gU gV) (fill_general A n X Y) (nn - 1) 1 (fresh A)) as (m & E & Hf).
  - intros j H1 H2. lia.
  - intros i m Hi1 Hi2 IH. unfold fill_general. cbv zeta. rewrite !at_nt by lia. cbn [bind].
    rewrite wr_ok by lia. cbn [bind]. rewrite wr_ok by lia. cbn [bind].
    rewrite wr_ok by lia. cbn [bind]. rewrite wr_ok by lia. eexists. split; [reflexivity|].
    intros j Hj1 Hj2. destruct (Nat.eq_dec j i) as [->|Hne].
    + split; [rdm; apply upd_eq; lia|]. split; [rdm; apply upd_eq; lia|]. split; [rdm; apply upd_eq; lia|]. apply upd_eq. lia.
    + rdm. apply IH; lia.
  - rewrite E. cbn [bind]. rewrite !at_nt by lia. cbn [bind].
    replace (1 + (nn - 1)) with nn in Hf by lia.
    repeat (rewrite wr_ok by lia; cbn [bind]). 
    destruct (system_filled gL gU gV (fdiv (gh 0) (lit 3)) (fdiv (gh 0) (lit 6)) (fsub (gq 0) (gq 0))
       (fdiv (gh (nn - 1)) (lit 3)) (fdiv (gh (nn - 1)) (lit 6)) (fsub (gq (nn - 1)) (gq (nn - 1))) m Hf)
       as (m' & ok & E1 & H1 & H2).
    unfold gq, gh in E1. replace (nn - 1 + 1) with nn in E1 by lia. cbv zeta in E1. change (0 + 1) with 1 in E1. rewrite E1. cbn [bind]. destruct ok.
    + destruct (coef_general_spec nn X Y (4 * n - 2) m' (sol nn gDD gUU gLL gVV)) as (c & E2 & H3); [|lia|lia|].
      { replace (nn + 1) with n by lia. now apply H2. }
      rewrite E2. cbn [bind]. exists c, true. split; [reflexivity|]. split; [exact H1|]. intros _. exact H3.
    + exists (fresh A), false. split; [reflexivity|]. split; [exact H1|discriminate].
Qed.
End general.
End slopes.
End gen.
