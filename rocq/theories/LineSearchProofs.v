(** Proofs about the line searches. *)
From Coq Require Import QArith Reals List Bool Lra Lia Arith Qreals.
From Verif Require Import Arith LineSearchModel LineSearchSpec.
Import ListNotations.

Lemma Some_inv {T : Type} {a b : T} : Some a = Some b -> a = b.
Proof. congruence. Qed.

(** ** Any arithmetic *)
Section any.
Context (A : arith) (G : geometry A) (p : lsparams A) (c : lsctx A G).
Notation F := (F A).
Notation ls := (ls A G).
Notation ss := (ss A G). Notation f2 := (f2 A G). Notation x2 := (x2 A G).
Notation eta2 := (eta2 A G). Notation gf2 := (gf2 A G). Notation status := (status A G).
Notation newslope := (newslope A G).
Notation h := (h A G c). Notation dh := (dh A G c). Notation grad2 := (grad2 A G).
Notation set_ss := (set_ss A G). Notation set_status := (set_status A G).

Definition cons (s : ls) : Prop := point_at c s (ss s).
Definition gcons (s : ls) : Prop := cons s /\ grad_at c s (ss s).
Definition scons (s : ls) : Prop := gcons s /\ newslope s = dphi c (ss s).

Lemma cons_h s : cons (h s).
Proof. repeat split. Qed.
Lemma scons_dh s : cons s -> scons (dh s).
Proof.
  intros (H1 & H2 & H3). destruct s as [a b d e f g i j]; simpl in *.
  unfold scons, gcons, cons, point_at, grad_at, dphi. simpl in *. subst.
  repeat split.
Qed.
Lemma gcons_grad2 s : cons s -> gcons (grad2 s).
Proof.
  intros (H1 & H2 & H3). destruct s as [a b d e f g i j]; simpl in *.
  unfold gcons, cons, point_at, grad_at. simpl in *. subst. repeat split.
Qed.
Lemma cons_status s v : cons s -> cons (set_status s v).
Proof. destruct s; exact (fun x => x). Qed.
Lemma gcons_status s v : gcons s -> gcons (set_status s v).
Proof. destruct s; exact (fun x => x). Qed.
Lemma scons_status s v : scons s -> scons (set_status s v).
Proof. destruct s; exact (fun x => x). Qed.
Lemma scons_cons s : scons s -> cons s.
Proof. now intros [[? ?] ?]. Qed.

(** *** Armijo *)
Notation armijo_fails := (armijo_fails A G p c).

Lemma backtrack_spec fuel : forall mp s s',
  backtrack A G p c fuel mp s = Some s' -> cons s -> status s = SUCCESS ->
  (status s' = SUCCESS /\ cons s' /\ armijo_fails mp s' = false) \/
  (status s' = MINSTEPSIZE /\ (exists t, point_at c s' t) /\ flt (ss s') (Minstepsize A p) = true).
Proof.
  induction fuel as [|k IH]; intros mp s s' H Hc Hs; simpl in H; [discriminate|].
  destruct (armijo_fails mp s) eqn:E.
  - destruct (flt (fmul (ss s) (LS_ratio1 A p)) (Minstepsize A p)) eqn:Em.
    + injection H as <-. right. destruct s; simpl in *. repeat split; auto.
      exists ss. exact Hc.
    + apply IH in H; auto. apply cons_h.
  - injection H as <-. left. auto.
Qed.

Lemma interpolate_spec fuel : forall mp pre pre2 fp s s',
  interpolate A G p c fuel mp pre pre2 fp s = Some s' -> cons s -> status s = SUCCESS ->
  (status s' = SUCCESS /\ cons s' /\ armijo_fails mp s' = false) \/
  (status s' = MINSTEPSIZE /\ (exists t, point_at c s' t) /\ flt (ss s') (Minstepsize A p) = true).
Proof.
  induction fuel as [|k IH]; intros mp pre pre2 fp s s' H Hc Hs; cbn [interpolate] in H; [discriminate|].
  destruct (armijo_fails mp s) eqn:E.
  - set (t := clamp _ _ _ _) in H. cbn [LineSearchModel.ss LineSearchModel.set_ss] in H.
    destruct (flt t (Minstepsize A p)) eqn:Em.
    + injection H as <-. right. destruct s; simpl in *. repeat split; auto.
      exists ss. exact Hc.
    + apply IH in H; auto. apply cons_h.
  - injection H as <-. left. auto.
Qed.

Lemma armijo_fails_dh mp s : armijo_fails mp (dh s) = armijo_fails mp s.
Proof. reflexivity. Qed.

Lemma point_dh s t : point_at c s t -> point_at c (dh s) t /\ grad_at c (dh s) t.
Proof.
  intros (H1 & H2 & H3). destruct s as [a b d e f g i j]; simpl in *.
  unfold point_at, grad_at. simpl in *. subst. repeat split.
Qed.

Lemma armijo_spec fuel pre num s0 s' :
  armijo A G p c fuel pre num s0 = Some s' ->
  (status s' = SUCCESS /\ gcons s' /\ armijo_fails (maxpref A G c pre num) s' = false) \/
  (status s' = MINSTEPSIZE /\ (exists t, point_at c s' t /\ grad_at c s' t) /\ flt (ss s') (Minstepsize A p) = true).
Proof.
  unfold armijo. intros H.
  assert (Hb : forall s, (status s = SUCCESS /\ cons s /\ armijo_fails (maxpref A G c pre num) s = false) \/
    (status s = MINSTEPSIZE /\ (exists t, point_at c s t) /\ flt (ss s) (Minstepsize A p) = true) ->
     forall s', ss s' = ss s -> f2 s' = f2 s -> eta2 s' = eta2 s -> x2 s' = x2 s -> status s' = status s ->
     gf2 s' = grad A G (x2 s) ->
    (status s' = SUCCESS /\ gcons s' /\ armijo_fails (maxpref A G c pre num) s' = false) \/
    (status s' = MINSTEPSIZE /\ (exists t, point_at c s' t /\ grad_at c s' t) /\ flt (ss s') (Minstepsize A p) = true)).
  { intros s Hs s1 H1 H2 H3 H4 H5 H6.
    destruct Hs as [(Ha & Hc & Hf)|(Ha & (t & Hc) & Hf)]; [left|right].
    - destruct Hc as (C1 & C2 & C3). split; [congruence|]. split.
      + unfold gcons, cons, point_at, grad_at. rewrite H1, H2, H3, H4, H6, C2. rewrite <- C3. auto.
      + unfold LineSearchModel.armijo_fails in *. rewrite H1, H2. auto.
    - destruct Hc as (C1 & C2 & C3). split; [congruence|]. split; [|congruence]. exists t.
      unfold point_at, grad_at. rewrite H2, H3, H4, H6, C2. auto. }
  destruct (fle (LS_ratio2 A p) (LS_ratio1 A p)).
  - destruct (backtrack _ _ _ _ _ _ _) eqn:E; [|discriminate]. injection H as <-.
    apply backtrack_spec in E; [|apply cons_h|reflexivity].
    eapply Hb; eauto.
  - destruct (armijo_fails _ (h _)) eqn:Ef.
    + destruct (interpolate _ _ _ _ _ _ _ _ _ _) eqn:E; [|discriminate]. injection H as <-.
      apply interpolate_spec in E; [|apply cons_h|reflexivity].
      eapply Hb; eauto.
    + destruct (interpolate _ _ _ _ _ _ _ _ _ _) eqn:E; [|discriminate]. injection H as <-.
      apply interpolate_spec in E; [|apply cons_h|reflexivity].
      eapply Hb; eauto.
Qed.

(** *** Exact *)
Lemma exact_inner_spec fuel : forall a1 dir sf1 sgf1 ms t s s' t',
  exact_inner A G p c fuel a1 dir sf1 sgf1 ms t s = Some (s', t') -> cons s -> status s = SUCCESS ->
  cons s' /\ (status s' = NONEXACT /\ scons s' \/ status s' = SUCCESS).
Proof.
  induction fuel as [|k IH]; intros a1 dir sf1 sgf1 ms t s s' t' H Hc Hs; cbn [exact_inner] in H; [discriminate|].
  destruct (flt _ (f2 s)) eqn:E.
  - destruct (flt (fmul (fmul t (LS_ratio1 A p)) (LS_ratio1 A p)) ms) eqn:Em.
    + injection H as H Ht. subst t'.
      set (s1 := h _) in H.
      assert (C1 : scons (dh s1)) by apply scons_dh, cons_h.
      destruct (_ && _) in H; subst s'.
      * split; [apply scons_cons, scons_status, C1|left; split; [reflexivity|apply scons_status, C1]].
      * split; [apply scons_cons, C1|right]. simpl. auto.
    + apply IH in H; auto. apply cons_h.
  - injection H as <- <-. auto.
Qed.

Lemma exact_outer_spec fuel k : forall a1 sgf1 sf1 B ms s s',
  exact_outer A G p c fuel k a1 sgf1 sf1 B ms s = Some s' -> (k = O -> scons s) -> status s = SUCCESS ->
  scons s' /\ (status s' = NONEXACT \/ status s' = SUCCESS).
Proof.
  induction k as [|k IH]; intros a1 sgf1 sf1 B ms s s' H Hc Hs; cbn [exact_outer] in H.
  { injection H as <-. auto. }
  destruct (exact_inner _ _ _ _ _ _ _ _ _ _ _ _) as [[s2 t]|] eqn:E; [|discriminate].
  apply exact_inner_spec in E; [|apply cons_h|destruct s; simpl in *; auto].
  destruct E as [C [[E1 E2]|E1]]; rewrite E1 in H.
  - injection H as <-. auto.
  - assert (C1 : scons (dh s2)) by now apply scons_dh.
    destruct (flt (fabs _) ms); [injection H as <-; auto|].
    destruct (flt (fabs _) _); [injection H as <-; auto|].
    apply IH in H; auto.
Qed.

Lemma exact_spec fuel s0 s' : exact A G p c fuel s0 = Some s' -> scons s'.
Proof.
  unfold exact. destruct (exact_outer _ _ _ _ _ _ _ _ _ _ _ _) eqn:E; [|discriminate].
  apply exact_outer_spec in E; [|discriminate|reflexivity]. destruct E as [E _].
  intros [= <-].
  destruct (fle (ss l) _); destruct (fle _ _); try apply scons_status; try apply scons_status; auto.
Qed.

(** *** Strong Wolfe *)
Definition sw_ok (s : ls) : Prop :=
  flt (fadd (lf1 A G c) (fmul (fmul (LS_alpha A p) (ss s)) (lslope A G c))) (f2 s) = false /\
  fle (fabs (newslope s)) (fmul (fopp (LS_beta A p)) (lslope A G c)) = true.

Lemma zoom_spec k : forall xlo fxlo xls xhi fxhi s,
  status s = SUCCESS -> (exists t, point_at c s t) ->
  let s' := zoom A G p c k xlo fxlo xls xhi fxhi s in
  (status s' = SUCCESS /\ scons s' /\ sw_ok s') \/
  (status s' = MINSTEPSIZE /\ cons s') \/
  (status s' = LSERROR /\ exists t, point_at c s' t).
Proof.
  induction k as [|k IH]; intros xlo fxlo xls xhi fxhi s Hs Hp; cbn [zoom].
  { right. right. split; [reflexivity|]. destruct Hp as [t Hp]. exists t. destruct s; exact Hp. }
  set (t := fadd xlo _). set (s2 := h _).
  assert (C2 : cons s2) by apply cons_h.
  assert (S2 : status s2 = SUCCESS) by (destruct s; exact Hs).
  clearbody s2. clear t.
  destruct (flt _ (f2 s2)) eqn:E1; cbn [orb].
  { destruct (fle (ss s2) _); [right; left; split; [reflexivity|now apply cons_status]|].
    apply IH; eauto. }
  destruct (fle fxlo (f2 s2)).
  { destruct (fle (ss s2) _); [right; left; split; [reflexivity|now apply cons_status]|].
    apply IH; eauto. }
  assert (C3 : scons (dh s2)) by now apply scons_dh.
  destruct (fle (fabs (newslope (dh s2))) _) eqn:E2.
  { left. repeat split; try apply C3; auto. }
  destruct (if fle _ (fmul (newslope (dh s2)) _) then _ else _) as [xhi' fxhi'].
  destruct (fle (ss (dh s2)) _); [right; left; split; [reflexivity|apply cons_status, scons_cons, C3]|].
  apply IH; [auto|]. exists (ss (dh s2)). apply C3.
Qed.

Definition sw_result (s' : ls) : Prop :=
  (status s' = SUCCESS /\ scons s' /\ sw_ok s') \/
  (status s' = MINSTEPSIZE /\ cons s') \/
  (status s' = MAXSTEPSIZE /\ scons s') \/
  (status s' = LSERROR /\ exists t, point_at c s' t).

Lemma sw_loop_spec fuel : forall pre fpre sp s s',
  status s = SUCCESS -> sw_loop A G p c fuel pre fpre sp s = Some s' -> sw_result s'.
Proof.
  induction fuel as [|k IH]; intros pre fpre sp s s' Hs H; cbn [sw_loop] in H; [discriminate|].
  set (s2 := h s) in H.
  assert (C2 : cons s2) by apply cons_h.
  assert (S2 : status s2 = SUCCESS) by exact Hs.
  clearbody s2.
  assert (Z : forall a b d e f t, status t = SUCCESS -> cons t -> s' = zoom A G p c 9 a b d e f t -> sw_result s').
  { unfold sw_result. intros a b d e f t Ht Hc ->. destruct (zoom_spec 9 a b d e f t Ht (ex_intro _ (ss t) Hc)) as [?|[?|?]]; auto. }
  destruct (flt _ (f2 s2)) eqn:E1; cbn [orb] in H.
  { apply Some_inv in H. eapply Z; [| |symmetry; exact H]; auto. }
  destruct (fle fpre (f2 s2)).
  { apply Some_inv in H. eapply Z; [| |symmetry; exact H]; auto. }
  assert (C3 : scons (dh s2)) by now apply scons_dh.
  destruct (fle (fabs (newslope (dh s2))) _) eqn:E2.
  { apply Some_inv in H; subst s'. left. repeat split; try apply C3; auto. }
  destruct (fle _ (newslope (dh s2))).
  { apply Some_inv in H. eapply Z; [| |symmetry; exact H]; auto. }
  destruct (feq _ _).
  { apply Some_inv in H; subst s'. right. right. left. split; [reflexivity|apply scons_status, C3]. }
  eapply IH; [|exact H]. auto.
Qed.

Lemma strong_wolfe_spec fuel s0 s' :
  strong_wolfe A G p c fuel s0 = Some s' -> sw_result s'.
Proof. apply sw_loop_spec. reflexivity. Qed.

(** *** Wolfe *)
Notation decr_ok := (decr_ok A G p c). Notation decr_bad := (decr_bad A G p c).
Notation low_slope := (low_slope A G p c).

Lemma doubling_cons k : forall pre fp s s' pre' fp',
  doubling A G p c k pre fp s = (s', pre', fp') -> cons s -> cons s'.
Proof.
  induction k as [|k IH]; intros pre fp s s' pre' fp' H Hc; cbn [doubling] in H; [congruence|].
  destruct (_ && _) in H; [|congruence].
  apply IH in H; auto.
  destruct (decr_ok (h _)); [apply scons_cons, scons_dh|]; apply cons_h.
Qed.

Lemma bisect_cons k : forall lo diff flo fhi s, cons s -> cons (bisect A G p c k lo diff flo fhi s).
Proof.
  induction k as [|k IH]; intros lo diff flo fhi s Hc; cbn [bisect]; [auto|].
  destruct (_ && _); [|auto].
  destruct (decr_bad (h _)); [apply IH, cons_h|].
  destruct (low_slope (dh (h _))); apply IH, scons_cons, scons_dh, cons_h.
Qed.

Lemma wolfe_loop_cons fuel : forall pre fp s s', wolfe_loop A G p c fuel pre fp s = Some s' -> cons s'.
Proof.
  induction fuel as [|k IH]; intros pre fp s s' H; cbn [wolfe_loop] in H; [discriminate|].
  destruct (decr_ok (h s)).
  - destruct (low_slope (dh (h s))).
    + destruct (doubling _ _ _ _ _ _ _ _) as [[s3 p3] fp3] eqn:Ed.
      apply doubling_cons in Ed; [|apply scons_cons, scons_dh, cons_h].
      destruct (fle (Maxstepsize A p) (ss s3)).
      { apply Some_inv in H; subst s'. apply cons_status. now apply gcons_grad2. }
      destruct (negb _ && _).
      * destruct (if flt (ss s3) p3 then _ else _) as [flo fhi].
        set (s4 := bisect _ _ _ _ _ _ _ _ _ _) in H.
        destruct (low_slope s4); apply Some_inv in H; subst s'.
        -- apply cons_status, scons_cons, scons_dh, cons_h.
        -- apply cons_status. subst s4. now apply bisect_cons.
      * apply Some_inv in H; subst s'. now apply cons_status.
    + apply Some_inv in H; subst s'. apply cons_status, scons_cons, scons_dh, cons_h.
  - destruct (fle (ss (h s)) _).
    + apply Some_inv in H; subst s'. apply cons_status, scons_cons, scons_dh, cons_h.
    + eapply IH; exact H.
Qed.

Lemma wolfe_cons fuel s0 s' : wolfe A G p c fuel s0 = Some s' -> cons s'.
Proof. apply wolfe_loop_cons. Qed.
End any.
