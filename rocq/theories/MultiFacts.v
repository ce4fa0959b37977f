(** Consequences and witnesses for products of manifolds. *)
From Coq Require Import List Arith Bool QArith Reals Lia Lra.
From Verif Require Import Arith MultiModel MultiSpec MultiProofs MultiTran.
Import ListNotations.

Section facts.
Context {A : arith} {E : Type}.
Notation mani := (mani A E).
Variables (ms : list mani) (flags : list bool) (cs : list nat).
Hypothesis L1 : length ms = length cs.
Hypothesis L2 : length ms = length flags.
Notation comps := (components ms flags cs).
Notation pr b := (mkProd ms flags (pows_from 0 cs) b).

Lemma map2_len {C X Y Z} (f : C -> X -> Y -> Z) : forall c x y, length x = length c -> length y = length c -> length (map2 f c x y) = length c.
Proof. induction c as [|k c IH]; intros [|a x] [|b y]; cbn; intros; try discriminate; auto. Qed.
Lemma map4_len {C X Z} (f : C -> X -> X -> X -> X -> Z) : forall c x y z w,
  length x = length c -> length y = length c -> length z = length c -> length w = length c -> length (map4 f c x y z w) = length c.
Proof. induction c as [|k c IH]; intros [|a x] [|b y] [|d z] [|e w]; cbn; intros; try discriminate; auto. Qed.
Lemma comps_in c : In c comps -> In (fst c) ms.
Proof.
  clear L1 L2. revert flags cs. induction ms as [|m l IH]; intros [|b bs] [|k ks]; cbn; try tauto.
  intros H. apply in_app_or in H as [H|H]; [left; apply repeat_spec in H; subst; reflexivity|right; eauto].
Qed.
(** The metric is symmetric when every component's is. *)
Lemma metric_sym b st x eta xi xs es zs :
  (forall m f a u v, In m ms -> m_metric m f a u v = m_metric m f a v u) ->
  st x = full xs -> st eta = full es -> st xi = full zs ->
  length xs = length comps -> length es = length comps -> length zs = length comps ->
  prod_metric (pr b) st x eta xi = prod_metric (pr b) st x xi eta.
Proof.
  intros HS Hx He Hz Lx Le Lz.
  rewrite (metric_ok ms flags cs L1 L2 b st x eta xi xs es zs Hx He Hz Lx Le Lz).
  rewrite (metric_ok ms flags cs L1 L2 b st x xi eta xs zs es Hx Hz He Lx Lz Le).
  do 2 f_equal. assert (HC := fun c => comps_in c). clear Hx He Hz. revert HC xs es zs Lx Le Lz. generalize comps.
  clear - HS. induction l as [|c l IH]; intros HC xs es zs; [reflexivity|].
  destruct xs as [|a xs]; [discriminate|]. destruct es as [|u es]; [discriminate|]. destruct zs as [|v zs]; [discriminate|].
  cbn [length combine map2 fst snd]. intros. f_equal.
  - apply HS. apply HC. left. reflexivity.
  - apply (IH (fun c H => HC c (or_intror H)) xs es zs); cbn in *; lia.
Qed.
(** The product transport is isometric when every component's is. *)
Lemma vt_isometry b st x eta y xi zeta r1 r2 xs es ys us vs :
  (forall m f a e d u v, In m ms -> m_metric m f d (m_vt m f a e d u) (m_vt m f a e d v) = m_metric m f a u v) ->
  NoDup [x; eta; y; r1; r2] -> ~ In xi [r1; r2] -> zeta <> r1 ->
  st x = full xs -> st eta = full es -> st y = full ys -> st xi = full us -> st zeta = full vs ->
  length xs = length comps -> length es = length comps -> length ys = length comps ->
  length us = length comps -> length vs = length comps -> length (st r1) = length comps -> length (st r2) = length comps ->
  let st1 := prod_vt (pr b) st x eta y xi r1 in
  let st2 := prod_vt (pr b) st1 x eta y zeta r2 in
  prod_metric (pr b) st2 y r1 r2 = prod_metric (pr b) st x xi zeta.
Proof.
  intros HI ND Nx Nz Hx He Hy Hu Hv Lx Le Ly Lu Lv Lr1 Lr2 st1 st2.
  assert (N : x <> r1 /\ x <> r2 /\ eta <> r1 /\ eta <> r2 /\ y <> r1 /\ y <> r2 /\ r1 <> r2).
  { repeat match goal with H : NoDup (_ :: _) |- _ => inversion_clear H end. cbn in *. repeat split; intros ->; tauto. }
  destruct N as (N1 & N2 & N3 & N4 & N5 & N6 & N7).
  pose proof (op4_loop ms flags cs L1 L2 m_vt b st x eta y (st xi) r1 xs es ys us N1 N3 N5 Hx He Hy Hu Lx Le Ly Lu Lr1) as S1.
  change (forall k, st1 k = if Nat.eqb k r1 then full (map4 (fun c => m_vt (fst c) (snd c)) comps xs es ys us) else st k) in S1.
  assert (K : forall k, k <> r1 -> st1 k = st k).
  { intros k Hk. rewrite S1. destruct (Nat.eqb_spec k r1); [contradiction|reflexivity]. }
  pose proof (op4_loop ms flags cs L1 L2 m_vt b st1 x eta y (st1 zeta) r2 xs es ys vs N2 N4 N6
    (eq_trans (K x N1) Hx) (eq_trans (K eta N3) He) (eq_trans (K y N5) Hy) (eq_trans (K zeta Nz) Hv) Lx Le Ly Lv
    (eq_trans (f_equal (@length _) (K r2 (not_eq_sym N7))) Lr2)) as S2.
  change (forall k, st2 k = if Nat.eqb k r2 then full (map4 (fun c => m_vt (fst c) (snd c)) comps xs es ys vs) else st1 k) in S2.
  assert (Ey : st2 y = full ys) by (rewrite S2; destruct (Nat.eqb_spec y r2); [contradiction|rewrite (K y N5); exact Hy]).
  assert (E1 : st2 r1 = full (map4 (fun c => m_vt (fst c) (snd c)) comps xs es ys us)).
  { rewrite S2. destruct (Nat.eqb_spec r1 r2); [contradiction|]. rewrite S1, Nat.eqb_refl. reflexivity. }
  assert (E2 : st2 r2 = full (map4 (fun c => m_vt (fst c) (snd c)) comps xs es ys vs)) by (rewrite S2, Nat.eqb_refl; reflexivity).
  rewrite (metric_ok ms flags cs L1 L2 b st2 y r1 r2 ys _ _ Ey E1 E2 Ly) by (apply map4_len; assumption).
  rewrite (metric_ok ms flags cs L1 L2 b st x xi zeta xs us vs Hx Hu Hv Lx Lu Lv).
  do 2 f_equal. assert (HC := fun c => comps_in c). clear - HI HC Lx Le Ly Lu Lv.
  revert HC xs es ys us vs Lx Le Ly Lu Lv. generalize comps.
  induction l as [|c l IH]; intros HC xs es ys us vs; [reflexivity|].
  destruct xs as [|a xs]; [discriminate|]. destruct es as [|e es]; [discriminate|]. destruct ys as [|d ys]; [discriminate|].
  destruct us as [|u us]; [discriminate|]. destruct vs as [|v vs]; [discriminate|].
  cbn [length combine map2 map4 fst snd]. intros. f_equal.
  - apply HI. apply HC. left. reflexivity.
  - apply (IH (fun c H => HC c (or_intror H))); cbn in *; lia.
Qed.
Lemma settings_true f st x eta result i : (i < length flags)%nat -> (0 < nth i cs 0)%nat ->
  nth i (p_flags (fst (prod_op2 A E f (pr false) st x eta result))) false = true.
Proof.
  intros Hi Hc. destruct (extr_flags ms flags cs L1 f st x eta result) as (_ & _ & _ & _ & H).
  rewrite (H i Hi). apply Nat.ltb_lt in Hc. rewrite Hc. apply orb_true_r.
Qed.
Lemma coords_ok (h : mani -> E -> E -> E) b st x eta result xs es :
  x <> result -> eta <> result -> st x = full xs -> st eta = full es ->
  length xs = length comps -> length es = length comps -> length (st result) = length comps ->
  forall k, ploop A E (pr b) (fun i m j st => st_write E st result j
      (if flag A E (pr b) i then op2 E (h m) (comp E (st x) j) (comp E (st eta) j) else comp E (st eta) j))
    (new_memory E st result) k =
  if Nat.eqb k result then full (map2 (fun (c : mani * bool) a e => if snd c then h (fst c) a e else e) comps xs es) else st k.
Proof.
  intros N1 N2 Hx He Lx Le Lr k.
  refine (op2_loop' ms flags cs L1 L2 (fun (c : mani * bool) a e => if snd c then op2 E (h (fst c)) a e else e)
    (fun (c : mani * bool) a e => if snd c then h (fst c) a e else e) b st x eta result xs es _ N1 N2 Hx He Lx Le Lr k).
  intros [m v] a e. destruct v; reflexivity.
Qed.
End facts.

(** ** Witnesses *)
(** The real line with the metric  u v  in extrinsic and  4 u v  in intrinsic coordinates
    (coordinates are half the vector), and x + eta as retraction. *)
Definition line (A : arith) : mani A (F A) := mkMani
  (fun b _ u v => if b then fmul (fq 4) (fmul u v) else fmul u v)
  (fun a d => fsub a d)
  (fun _ _ u => u) (fun _ u => u)
  (fun b a u => if b then fadd a (fmul (fq 2) u) else fadd a u)
  (fun b a d => if b then fmul (fq (1 # 2)) (fsub d a) else fsub d a)
  (fun _ _ _ _ u => u) (fun _ _ _ _ u => u) (fun _ _ _ _ u => u) (fun _ _ _ _ u => u)
  (fun _ u => fmul (fq (1 # 2)) u) (fun _ u => fmul (fq 2) u) 1%nat 1%nat.
Definition wst (A : arith) : store (F A) := fun k =>
  match k with
  | 0%nat => full [fq 1; fq 2]
  | 1%nat => full [fq 3; fq 5]
  | 2%nat => full [fq 7; fq 11]
  | _ => full [fq 0; fq 0]
  end.
Lemma settings_change : forall A : arith,
  p_flags (fst (prod_retr (mkProd [line A] [false] (pows_from 0 [2%nat]) false) (wst A) 0 1 3)) = [true].
Proof. reflexivity. Qed.
Lemma alias_wit : forall A : arith, exists (m : mani A (F A)) (st : store (F A)), forall b f,
  st 1%nat = full [fq 3; fq 5] /\
  snd (prod_retr (mkProd [m] [f] (pows_from 0 [2%nat]) b) st 0 1 1) 1%nat = [None; None].
Proof. intros A. exists (line A), (wst A). intros b f. split; [reflexivity|]. destruct b, f; reflexivity. Qed.
Local Open Scope R_scope.
Lemma metric_change big eps :
  let p := mkProd [line (R_arith big eps)] [false] (pows_from 0 [2%nat]) false in
  let st := wst (R_arith big eps) in
  prod_metric p st 0 1 2 <> prod_metric (fst (prod_retr p st 0 1 3)) st 0 1 2.
Proof.
  cbv zeta. cbn. unfold Q2R. cbn. intros H. injection H. lra.
Qed.
(** The output of TranHInvTran with result different from Hx. *)
Lemma tran_ignores {A E mat} hinv tranh (p : MultiModel.prod A E) lens (st st' : mstore mat) Hx result :
  Hx <> result -> st result = st' result ->
  prod_tran hinv tranh p lens st Hx result result = prod_tran hinv tranh p lens st' Hx result result.
Proof. intros _ H. unfold prod_tran. rewrite Nat.eqb_refl, H. reflexivity. Qed.
