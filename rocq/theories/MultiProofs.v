(** Proofs about products of manifolds. *)
From Coq Require Import List Arith Bool QArith Reals Lia Lra.
From Verif Require Import Arith MultiModel MultiSpec.
Import ListNotations.

Section loops.
Context {A : arith} {E : Type}.
Notation mani := (mani A E).
Notation prod := (MultiModel.prod A E).
(** The steps of the nested loops: type, manifold, component. *)
Fixpoint steps (ms : list mani) (i s : nat) (counts : list nat) : list (nat * mani * nat) :=
  match ms, counts with
  | m :: ms, c :: cs => map (fun j => (i, m, j)) (seq s c) ++ steps ms (S i) (s + c) cs
  | _, _ => []
  end.
Lemma pows_nth pre cs s k : nth (length pre + k) (pre ++ pows_from s cs) 0%nat = nth k (pows_from s cs) 0%nat.
Proof. rewrite app_nth2_plus. reflexivity. Qed.
Lemma pows0 s cs : nth 0 (pows_from s cs) 0%nat = s.
Proof. destruct cs; reflexivity. Qed.
Lemma ploop_gen {S} (p : prod) (body : nat -> mani -> nat -> S -> S) : forall ms cs pre pp s0 s,
  length ms = length cs -> length pre = length pp ->
  p_manis p = pre ++ ms -> p_pows p = pp ++ pows_from s0 cs ->
  fold_left (fun s i =>
      match nth_error (p_manis p) i with
      | Some m => fold_left (fun s j => body i m j s)
                    (range (nth i (p_pows p) 0%nat) (nth (i + 1) (p_pows p) 0%nat)) s
      | None => s
      end) (seq (length pre) (length ms)) s =
  fold_left (fun s t => body (fst (fst t)) (snd (fst t)) (snd t) s) (steps ms (length pre) s0 cs) s.
Proof.
  induction ms as [|m ms IH]; intros cs pre pp s0 s L1 L2 Hm Hp; [reflexivity|].
  destruct cs as [|c cs]; [discriminate|]. cbn [seq length fold_left steps].
  rewrite fold_left_app.
  assert (E1 : nth_error (p_manis p) (length pre) = Some m).
  { rewrite Hm, nth_error_app2, Nat.sub_diag by lia. reflexivity. }
  rewrite E1.
  assert (E2 : nth (length pre) (p_pows p) 0%nat = s0).
  { rewrite Hp, L2, <- (Nat.add_0_r (length pp)), pows_nth. reflexivity. }
  assert (E3 : nth (length pre + 1) (p_pows p) 0%nat = (s0 + c)%nat).
  { rewrite Hp, L2, pows_nth. cbn [pows_from nth]. apply pows0. }
  rewrite E2, E3. unfold range. replace (s0 + c - s0)%nat with c by lia.
  assert (EF : forall l s, fold_left (fun s j => body (length pre) m j s) l s =
     fold_left (fun s t => body (fst (fst t)) (snd (fst t)) (snd t) s) (map (fun j => (length pre, m, j)) l) s).
  { induction l as [|a l IHl]; intros; cbn; [reflexivity|apply IHl]. }
  rewrite EF.
  specialize (IH cs (pre ++ [m]) (pp ++ [s0]) (s0 + c)%nat).
  rewrite !app_length in IH. cbn [length] in IH. rewrite Nat.add_1_r in IH.
  apply IH.
  - cbn in L1. lia.
  - lia.
  - rewrite <- app_assoc. exact Hm.
  - rewrite <- app_assoc. exact Hp.
Qed.
Lemma ploop_steps {S} ms flags cs intr (body : nat -> mani -> nat -> S -> S) s : length ms = length cs ->
  ploop A E (mkProd ms flags (pows_from 0 cs) intr) body s =
  fold_left (fun s t => body (fst (fst t)) (snd (fst t)) (snd t) s) (steps ms 0 0 cs) s.
Proof.
  intros L. unfold ploop.
  exact (ploop_gen (mkProd ms flags (pows_from 0 cs) intr) body ms cs [] [] 0 s L eq_refl eq_refl eq_refl).
Qed.
Lemma steps_index : forall ms i s cs, length ms = length cs ->
  map snd (steps ms i s cs) = seq s (length (steps ms i s cs)).
Proof.
  induction ms as [|m ms IH]; intros i s cs L; destruct cs as [|c cs]; try discriminate; [reflexivity|].
  cbn [steps]. rewrite map_app, map_map. cbn [snd]. rewrite map_id, app_length, map_length, seq_length, seq_app.
  rewrite IH by (cbn in L; lia). reflexivity.
Qed.
Lemma steps_components : forall ms pre flags cs s, length ms = length cs -> length ms = length flags ->
  map (fun t => (snd (fst t), nth (fst (fst t)) (pre ++ flags) false)) (steps ms (length pre) s cs) = components ms flags cs.
Proof.
  induction ms as [|m ms IH]; intros pre flags cs s L L2; destruct cs as [|c cs]; destruct flags as [|b bs]; try discriminate; [reflexivity|].
  cbn [steps components]. rewrite map_app, map_map. cbn [fst snd]. f_equal.
  - rewrite app_nth2, Nat.sub_diag by lia. cbn [nth].
    clear. revert s. induction c as [|c IHc]; intros s; cbn; [reflexivity|]. f_equal. apply IHc.
  - specialize (IH (pre ++ [b]) bs cs (s + c)%nat). rewrite app_length in IH. cbn [length] in IH.
    rewrite Nat.add_1_r, <- app_assoc in IH. cbn [app] in IH. apply IH; cbn in *; lia.
Qed.
Lemma components_length : forall ms flags cs s i, length ms = length cs -> length ms = length flags ->
  length (steps ms i s cs) = length (components ms flags cs).
Proof.
  induction ms as [|m ms IH]; intros flags cs s i L L2; destruct cs as [|c cs]; destruct flags as [|b bs]; try discriminate; [reflexivity|].
  cbn [steps components]. rewrite !app_length, map_length, seq_length, repeat_length.
  f_equal. apply IH; cbn in *; lia.
Qed.

Lemma list_upd_length {T} (l : list T) j v : length (list_upd l j v) = length l.
Proof. revert j. induction l as [|a l IH]; intros [|j]; cbn; auto. Qed.
Lemma list_upd_app {T} (l r : list T) a v : list_upd (l ++ a :: r) (length l) v = l ++ v :: r.
Proof. induction l as [|b l IH]; cbn; [reflexivity|]. f_equal. exact IH. Qed.
(** A loop that writes component j of [result] from data it does not write. *)
Lemma write_loop (read : nat * mani * nat -> store E -> option E) (result : nat) :
  (forall t st j v, read t (st_write E st result j v) = read t st) ->
  forall L s st pre post, map snd L = seq s (length L) -> st result = pre ++ post ->
    length pre = s -> length post = length L ->
  forall k, fold_left (fun st t => st_write E st result (snd t) (read t st)) L st k =
    if Nat.eqb k result then pre ++ map (fun t => read t st) L else st k.
Proof.
  intros HR. induction L as [|t L IH]; intros s st pre post Hi Hst Hl Hp k.
  - cbn. destruct (Nat.eqb_spec k result) as [->|]; [|reflexivity].
    destruct post; [exact Hst|discriminate].
  - cbn [fold_left]. cbn in Hi. injection Hi as Hi0 Hi1.
    destruct post as [|o post]; [discriminate|].
    assert (E1 : st_write E st result (snd t) (read t st) result = (pre ++ [read t st]) ++ post).
    { unfold st_write, st_set. rewrite Nat.eqb_refl, Hst, Hi0, <- Hl, list_upd_app, <- app_assoc. reflexivity. }
    rewrite (IH (S s) _ (pre ++ [read t st]) post); auto.
    + destruct (Nat.eqb_spec k result) as [->|N].
      * rewrite <- app_assoc. cbn [map app]. f_equal. f_equal. apply map_ext. intros u. apply HR.
      * unfold st_write, st_set. apply Nat.eqb_neq in N. rewrite N. reflexivity.
    + rewrite app_length. cbn. lia.
Qed.
Lemma write_loop0 (read : nat * mani * nat -> store E -> option E) (result : nat) ms cs st :
  (forall t st j v, read t (st_write E st result j v) = read t st) ->
  length ms = length cs -> length (st result) = length (steps ms 0 0 cs) ->
  forall k, fold_left (fun st t => st_write E st result (snd t) (read t st)) (steps ms 0 0 cs) st k =
    if Nat.eqb k result then map (fun t => read t st) (steps ms 0 0 cs) else st k.
Proof.
  intros HR L Hl k. rewrite (write_loop read result HR _ 0 st [] (st result)); auto.
  apply steps_index. exact L.
Qed.
Lemma new_memory_other st k j : k <> j -> new_memory E st j k = st k.
Proof. intros N. unfold new_memory, st_set. apply Nat.eqb_neq in N. rewrite N. reflexivity. Qed.
Lemma write_other st k r j v : k <> r -> st_write E st r j v k = st k.
Proof. intros N. unfold st_write, st_set. apply Nat.eqb_neq in N. rewrite N. reflexivity. Qed.

(** From steps with indices to lists of components. *)
Fixpoint indexed {C} (s : nat) (cs : list C) : list (C * nat) :=
  match cs with [] => [] | c :: cs => (c, s) :: indexed (S s) cs end.
Lemma steps_map {Z} (g : mani * bool -> nat -> Z) ms flags cs : length ms = length cs -> length ms = length flags ->
  map (fun t => g (snd (fst t), nth (fst (fst t)) flags false) (snd t)) (steps ms 0 0 cs) =
  map (fun c => g (fst c) (snd c)) (indexed 0 (components ms flags cs)).
Proof.
  intros L1 L2. pose proof (steps_components ms [] flags cs 0 L1 L2) as HC. cbn [length app] in HC.
  pose proof (steps_index ms 0 0 cs L1) as HI. revert HC HI.
  generalize (components ms flags cs). generalize (steps ms 0 0 cs). generalize 0%nat.
  intros s L. revert s. induction L as [|t L IH]; intros s C HC HI; cbn in HC; subst C; [reflexivity|].
  cbn in HI. injection HI as HI0 HI1. cbn [map indexed fst snd]. f_equal; [rewrite HI0; reflexivity|].
  apply (IH (S s)); auto.
Qed.
Lemma full_nth (p r : list E) a : nth (length p) (full (p ++ a :: r)) None = Some a.
Proof. unfold full. rewrite map_app, app_nth2; rewrite map_length; [|lia]. rewrite Nat.sub_diag. reflexivity. Qed.
Lemma full_cons {T} (a : T) l : full (a :: l) = Some a :: full l.
Proof. reflexivity. Qed.
Lemma indexed_map2 {Z} (f : mani * bool -> E -> E -> Z) (g : mani * bool -> option E -> option E -> option Z) :
  (forall c a b, g c (Some a) (Some b) = Some (f c a b)) ->
  forall cs px py xs ys, length py = length px -> length xs = length cs -> length ys = length cs ->
  map (fun c => g (fst c) (comp E (full (px ++ xs)) (snd c)) (comp E (full (py ++ ys)) (snd c)))
      (indexed (length px) cs) = full (map2 f cs xs ys).
Proof.
  intros Hg. induction cs as [|c cs IH]; intros px py xs ys Hp Hx Hy; [reflexivity|].
  destruct xs as [|x xs]; [discriminate|]. destruct ys as [|y ys]; [discriminate|].
  cbn [indexed map map2 fst snd]. rewrite (full_cons (f c x y)). f_equal.
  - unfold comp. rewrite full_nth, <- Hp, full_nth. apply Hg.
  - specialize (IH (px ++ [x]) (py ++ [y]) xs ys). rewrite !app_length in IH. cbn [length] in IH.
    rewrite <- !app_assoc, !Nat.add_1_r in IH. cbn [app] in IH. apply IH; cbn in *; lia.
Qed.
Lemma indexed_map4 (f : mani * bool -> E -> E -> E -> E -> E) :
  forall cs p1 p2 p3 p4 a b c d, length p2 = length p1 -> length p3 = length p1 -> length p4 = length p1 ->
   length a = length cs -> length b = length cs -> length c = length cs -> length d = length cs ->
  map (fun k => op4 E (f (fst k)) (comp E (full (p1 ++ a)) (snd k)) (comp E (full (p2 ++ b)) (snd k))
         (comp E (full (p3 ++ c)) (snd k)) (comp E (full (p4 ++ d)) (snd k)))
      (indexed (length p1) cs) = full (map4 f cs a b c d).
Proof.
  induction cs as [|k cs IH]; intros p1 p2 p3 p4 a b c d H2 H3 H4 Ha Hb Hc Hd; [reflexivity|].
  destruct a as [|a1 a]; [discriminate|]. destruct b as [|b1 b]; [discriminate|].
  destruct c as [|c1 c]; [discriminate|]. destruct d as [|d1 d]; [discriminate|].
  cbn [indexed map map4 fst snd]. rewrite (full_cons (f k a1 b1 c1 d1)). f_equal.
  - unfold comp. rewrite full_nth. rewrite <- H2 at 1. rewrite full_nth. rewrite <- H3 at 1. rewrite full_nth.
    rewrite <- H4. rewrite full_nth. reflexivity.
  - specialize (IH (p1 ++ [a1]) (p2 ++ [b1]) (p3 ++ [c1]) (p4 ++ [d1]) a b c d).
    rewrite !app_length in IH. cbn [length] in IH.
    rewrite <- !app_assoc, !Nat.add_1_r in IH. cbn [app] in IH. apply IH; cbn in *; lia.
Qed.

(** ** The operations *)
Section ops.
Variables (ms : list mani) (flags : list bool) (cs : list nat).
Hypothesis L1 : length ms = length cs.
Hypothesis L2 : length ms = length flags.
Notation comps := (components ms flags cs).
Notation pr b := (mkProd ms flags (pows_from 0 cs) b).

Lemma op2_loop (f : mani -> bool -> E -> E -> E) b st x (ineta : list (option E)) result xs es :
  x <> result -> st x = full xs -> ineta = full es ->
  length xs = length comps -> length es = length comps -> length (st result) = length comps ->
  forall k, ploop A E (pr b) (fun i m j st => st_write E st result j
      (op2 E (f m (flag A E (pr b) i)) (comp E (st x) j) (comp E ineta j))) (new_memory E st result) k =
    if Nat.eqb k result then full (map2 (fun c => f (fst c) (snd c)) comps xs es) else st k.
Proof.
  intros N Hx He Lx Le Lr k. rewrite ploop_steps by exact L1.
  rewrite (write_loop0 (fun t st => op2 E (f (snd (fst t)) (nth (fst (fst t)) flags false)) (comp E (st x) (snd t)) (comp E ineta (snd t)))).
  - destruct (Nat.eqb_spec k result) as [->|Nk]; [|apply new_memory_other; exact Nk].
    rewrite (new_memory_other st x result N), Hx, He.
    etransitivity; [exact (steps_map (fun c j => op2 E (f (fst c) (snd c)) (comp E (full xs) j) (comp E (full es) j)) ms flags cs L1 L2)|].
    exact (indexed_map2 (fun c => f (fst c) (snd c)) (fun c => op2 E (f (fst c) (snd c))) (fun _ _ _ => eq_refl) comps [] [] xs es eq_refl Lx Le).
  - intros t st' j v. rewrite write_other by exact N. reflexivity.
  - exact L1.
  - unfold new_memory, st_set. rewrite Nat.eqb_refl, map_length, Lr. symmetry. apply components_length; assumption.
Qed.

Lemma op4_loop (f : mani -> bool -> E -> E -> E -> E -> E) b st x eta y (inxi : list (option E)) result xs es ys zs :
  x <> result -> eta <> result -> y <> result ->
  st x = full xs -> st eta = full es -> st y = full ys -> inxi = full zs ->
  length xs = length comps -> length es = length comps -> length ys = length comps -> length zs = length comps ->
  length (st result) = length comps ->
  forall k, ploop A E (pr b) (fun i m j st => st_write E st result j
      (op4 E (f m (flag A E (pr b) i)) (comp E (st x) j) (comp E (st eta) j) (comp E (st y) j) (comp E inxi j))) (new_memory E st result) k =
    if Nat.eqb k result then full (map4 (fun c => f (fst c) (snd c)) comps xs es ys zs) else st k.
Proof.
  intros N N2 N3 Hx He Hy Hz Lx Le Ly Lz Lr k. rewrite ploop_steps by exact L1.
  rewrite (write_loop0 (fun t st => op4 E (f (snd (fst t)) (nth (fst (fst t)) flags false)) (comp E (st x) (snd t)) (comp E (st eta) (snd t)) (comp E (st y) (snd t)) (comp E inxi (snd t)))).
  - destruct (Nat.eqb_spec k result) as [->|Nk]; [|apply new_memory_other; exact Nk].
    rewrite !new_memory_other by assumption. rewrite Hx, He, Hy, Hz.
    etransitivity; [exact (steps_map (fun c j => op4 E (f (fst c) (snd c)) (comp E (full xs) j) (comp E (full es) j) (comp E (full ys) j) (comp E (full zs) j)) ms flags cs L1 L2)|].
    exact (indexed_map4 (fun c => f (fst c) (snd c)) comps [] [] [] [] xs es ys zs eq_refl eq_refl eq_refl Lx Le Ly Lz).
  - intros t st' j v. rewrite !write_other by assumption. reflexivity.
  - exact L1.
  - unfold new_memory, st_set. rewrite Nat.eqb_refl, map_length, Lr. symmetry. apply components_length; assumption.
Qed.
(** Both vectors read from the store: neither may be the result. *)
Lemma op2_loop' (g : mani * bool -> option E -> option E -> option E) (f : mani * bool -> E -> E -> E) b st x eta result xs es :
  (forall c a e, g c (Some a) (Some e) = Some (f c a e)) ->
  x <> result -> eta <> result -> st x = full xs -> st eta = full es ->
  length xs = length comps -> length es = length comps -> length (st result) = length comps ->
  forall k, ploop A E (pr b) (fun i m j st => st_write E st result j
      (g (m, flag A E (pr b) i) (comp E (st x) j) (comp E (st eta) j))) (new_memory E st result) k =
    if Nat.eqb k result then full (map2 f comps xs es) else st k.
Proof.
  intros Hg N N2 Hx He Lx Le Lr k. rewrite ploop_steps by exact L1.
  rewrite (write_loop0 (fun t st => g (snd (fst t), nth (fst (fst t)) flags false) (comp E (st x) (snd t)) (comp E (st eta) (snd t)))).
  - destruct (Nat.eqb_spec k result) as [->|Nk]; [|apply new_memory_other; exact Nk].
    rewrite !new_memory_other by assumption. rewrite Hx, He.
    etransitivity; [exact (steps_map (fun c j => g c (comp E (full xs) j) (comp E (full es) j)) ms flags cs L1 L2)|].
    exact (indexed_map2 f g Hg comps [] [] xs es eq_refl Lx Le).
  - intros t st' j v. rewrite !write_other by assumption. reflexivity.
  - exact L1.
  - unfold new_memory, st_set. rewrite Nat.eqb_refl, map_length, Lr. symmetry. apply components_length; assumption.
Qed.

(** Numbers: a left fold over the components. *)
Lemma fold_option (h : mani * bool -> nat -> option (F A)) (upd : F A -> F A -> F A) : forall (l : list (mani * bool * nat)) vs acc,
  map (fun c => h (fst c) (snd c)) l = full vs ->
  fold_left (fun a c => match a, h (fst c) (snd c) with Some a, Some v => Some (upd a v) | _, _ => None end) l (Some acc) =
  Some (fold_left upd vs acc).
Proof.
  induction l as [|c l IH]; intros vs acc H; destruct vs as [|v vs]; try discriminate; [reflexivity|].
  cbn in H. injection H as H0 H1. cbn. rewrite H0. apply IH. exact H1.
Qed.
Lemma fold_steps {S} (body : mani * bool -> nat -> S -> S) (s : S) :
  fold_left (fun s t => body (snd (fst t), nth (fst (fst t)) flags false) (snd t) s) (steps ms 0 0 cs) s =
  fold_left (fun s c => body (fst c) (snd c) s) (indexed 0 comps) s.
Proof.
  pose proof (steps_map pair ms flags cs L1 L2) as H.
  assert (G : forall l s, fold_left (fun s t => body (snd (fst t), nth (fst (fst t)) flags false) (snd t) s) l s =
     fold_left (fun s c => body (fst c) (snd c) s) (map (fun t => ((snd (fst t), nth (fst (fst t)) flags false), snd t)) l) s).
  { induction l as [|t l IH]; intros; cbn; [reflexivity|apply IH]. }
  rewrite G, H. f_equal. clear. generalize 0%nat. induction comps as [|c C IH]; intros n; cbn; [reflexivity|]. f_equal. apply IH.
Qed.
Lemma metric_ok b st x eta xi xs es zs : st x = full xs -> st eta = full es -> st xi = full zs ->
  length xs = length comps -> length es = length comps -> length zs = length comps ->
  prod_metric (pr b) st x eta xi =
  Some (total A (map2 (fun c (a : E) (ez : E * E) => m_metric (fst c) (snd c) a (fst ez) (snd ez)) comps xs (combine es zs))).
Proof.
  intros Hx He Hz Lx Le Lz. unfold prod_metric. rewrite ploop_steps by exact L1. rewrite Hx, He, Hz.
  unfold flag. cbn [p_flags].
  etransitivity; [exact (fold_steps (fun c j acc => match acc, num3 A E (m_metric (fst c) (snd c)) (comp E (full xs) j) (comp E (full es) j) (comp E (full zs) j) with Some a, Some v => Some (fadd a v) | _, _ => None end) _)|].
  unfold total. apply (fold_option (fun c j => num3 A E (m_metric (fst c) (snd c)) (comp E (full xs) j) (comp E (full es) j) (comp E (full zs) j)) fadd).
  assert (G : forall C px pe pz xs es zs, length pe = length px -> length pz = length px ->
     length xs = length C -> length es = length C -> length zs = length C ->
     map (fun c : mani * bool * nat => num3 A E (m_metric (fst (fst c)) (snd (fst c))) (comp E (full (px ++ xs)) (snd c)) (comp E (full (pe ++ es)) (snd c)) (comp E (full (pz ++ zs)) (snd c))) (indexed (length px) C) =
     full (map2 (fun c (a : E) (ez : E * E) => m_metric (fst c) (snd c) a (fst ez) (snd ez)) C xs (combine es zs))).
  { clear. induction C as [|c C IH]; intros px pe pz xs es zs Hp Hq Hx He Hz; [reflexivity|].
    destruct xs as [|a xs]; [discriminate|]. destruct es as [|e es]; [discriminate|]. destruct zs as [|z zs]; [discriminate|].
    cbn [indexed map map2 combine fst snd]. rewrite (full_cons (m_metric (fst c) (snd c) a e z)). f_equal.
    - unfold comp. rewrite full_nth. rewrite <- Hp at 1. rewrite full_nth. rewrite <- Hq. rewrite full_nth. reflexivity.
    - specialize (IH (px ++ [a]) (pe ++ [e]) (pz ++ [z]) xs es zs). rewrite !app_length in IH. cbn [length] in IH.
      rewrite <- !app_assoc, !Nat.add_1_r in IH. cbn [app] in IH. apply IH; cbn in *; lia. }
  apply (G comps [] [] [] xs es zs); auto.
Qed.
Lemma dist_ok b st x1 x2 xs ys : st x1 = full xs -> st x2 = full ys ->
  length xs = length comps -> length ys = length comps ->
  prod_dist (pr b) st x1 x2 =
  Some (fsqrt (total A (map2 (fun c a d => fmul (m_dist (fst c) a d) (m_dist (fst c) a d)) comps xs ys))).
Proof.
  intros Hx Hy Lx Ly. unfold prod_dist. rewrite ploop_steps by exact L1. rewrite Hx, Hy.
  match goal with |- match ?X with _ => _ end = _ => assert (EX : X =
    Some (total A (map2 (fun c a d => fmul (m_dist (fst c) a d) (m_dist (fst c) a d)) comps xs ys))) end.
  { etransitivity; [exact (fold_steps (fun c j acc => match acc, num2 A E (m_dist (fst c)) (comp E (full xs) j) (comp E (full ys) j) with Some a, Some tmp => Some (fadd a (fmul tmp tmp)) | _, _ => None end) _)|].
    rewrite (fold_option (fun c j => num2 A E (m_dist (fst c)) (comp E (full xs) j) (comp E (full ys) j)) (fun a tmp => fadd a (fmul tmp tmp)) _
     (map2 (fun c a d => m_dist (fst c) a d) comps xs ys)).
    - unfold total. f_equal. generalize (fq 0 : F A). clear.
      generalize comps. intros C. revert xs ys. induction C as [|c C IH]; intros xs ys q; [reflexivity|].
      destruct xs as [|a xs]; [reflexivity|]. destruct ys as [|d ys]; [reflexivity|].
      cbn [map2 fold_left]. apply IH.
    - exact (indexed_map2 (fun c => m_dist (fst c)) (fun c => num2 A E (m_dist (fst c))) (fun _ _ _ => eq_refl) comps [] [] xs ys eq_refl Lx Ly). }
  rewrite EX. reflexivity.
Qed.
End ops.
End loops.
