(** Concrete elements for FieldsProps.v. *)
From Coq Require Import String List.
From Verif Require Import FieldsModel FieldsSpec FieldsProofs.
Import ListNotations.
Local Open Scope string_scope.
Local Open Scope list_scope.

Definition vec (l : list nat) fs : elem nat := Elem (mkMeta [length l; 1; 1] (length l) false) (Some l) [] [] fs.
Definition mat r c (l : list nat) fs : elem nat := Elem (mkMeta [r; c; 1] (r * c) false) (Some l) [] [] fs.

(** A product of two vectors; the first carries a cached factor. *)
Definition two (l1 l2 : list nat) fs1 fs : elem nat :=
  Elem (mkMeta [length l1 + length l2; 1; 1] (length l1 + length l2) false) (Some (l1 ++ l2)) [1; 1]
    [vec l1 fs1; vec l2 []] fs.
Definition cached := [("HHR", vec [7; 7] [("tau", vec [9] [])])].

Definition src := two [1; 2] [3] [] [("EGrad", vec [5] [])].
Definition dst := two [4; 4] [4] cached [("old", vec [6] [])].

Ltac proper := repeat first [apply proper_mk | reflexivity | (intro; discriminate) | tauto
                            | (cbn; intuition discriminate) | constructor | progress cbn].

Lemma src_proper : proper src.
Proof. unfold src, two, vec. proper. Qed.
Lemma dst_proper : proper dst.
Proof. unfold dst, two, vec, cached. proper. Qed.

Lemma same_comp n (a b ca cb : elem nat) : same a b -> nth_error (comps a) n = Some ca -> nth_error (comps b) n = Some cb -> same ca cb.
Proof.
  intros H. destruct H as [a b _ _ _ F _ _]. revert n. induction F as [|x y l l' Hx F IH]; intros [|n]; cbn; try discriminate.
  - intros [= <-] [= <-]. exact Hx.
  - apply IH.
Qed.

Lemma same_meta (a b : elem nat) : same a b -> meta a = meta b.
Proof. intro H. destruct H. assumption. Qed.
Lemma same_absent (a b : elem nat) : same a b -> forall n, get n (fields a) = None -> get n (fields b) = None.
Proof. intro H. destruct H. assumption. Qed.
Lemma same_present (a b : elem nat) : same a b -> forall n x, get n (fields a) = Some x ->
  exists y, get n (fields b) = Some y /\ same x y.
Proof. intro H. destruct H. assumption. Qed.

Lemma stale : ~ same src (copy_to src dst) /\
  get "HHR" (fields (vec [1; 2] [])) = None /\
  (exists c, nth_error (comps (copy_to src dst)) 0 = Some c /\ data c = Some [1; 2] /\
             field "HHR" c = Some (vec [7; 7] [("tau", vec [9] [])])).
Proof.
  split; [|split; [reflexivity|eexists; split; [reflexivity|split; reflexivity]]].
  intro H. apply (same_comp 0 _ _ (vec [1; 2] []) (vec [1; 2] cached)) in H; try reflexivity.
  assert (N := same_absent _ _ H "HHR" eq_refl). discriminate N.
Qed.

(** A product one of whose components is a product, with something attached to the inner one. *)
Definition deep : elem nat :=
  Elem (mkMeta [3; 1; 1] 3 false) (Some [1; 2; 3]) [1] [two [1; 2] [3] cached []] [].
Lemma deep_proper : proper deep.
Proof. unfold deep, two, vec, cached. proper. Qed.
Lemma deep_lost : ~ same deep (copy_new deep) /\
  exists c cc, nth_error (comps (copy_new deep)) 0 = Some c /\ nth_error (comps c) 0 = Some cc /\ field "HHR" cc = None.
Proof.
  split; [|do 2 eexists; split; [reflexivity|split; reflexivity]].
  intro H. apply (same_comp 0 _ _ (two [1; 2] [3] cached []) (two [1; 2] [3] [] [])) in H; try reflexivity.
  apply (same_comp 0 _ _ (vec [1; 2] cached) (vec [1; 2] [])) in H; try reflexivity.
  destruct (same_present _ _ H "HHR" _ eq_refl) as (y & E & _). discriminate E.
Qed.

(** Components of equal length and different shape. *)
Definition one_mat r c l : elem nat := Elem (mkMeta [length l; 1; 1] (length l) false) (Some l) [1] [mat r c l []] [].
Lemma one_mat_proper1 : proper (one_mat 2 3 [1; 2; 3; 4; 5; 6]).
Proof. unfold one_mat, mat. proper. Qed.
Lemma one_mat_proper2 : proper (one_mat 3 2 [0; 0; 0; 0; 0; 0]).
Proof. unfold one_mat, mat. proper. Qed.
Lemma shape_kept : let b := copy_to (one_mat 2 3 [1; 2; 3; 4; 5; 6]) (one_mat 3 2 [0; 0; 0; 0; 0; 0]) in
  ~ same (one_mat 2 3 [1; 2; 3; 4; 5; 6]) b /\
  (exists c, nth_error (comps b) 0 = Some c /\ em_size (meta c) = [3; 2; 1] /\ data c = Some [1; 2; 3; 4; 5; 6]).
Proof.
  cbv zeta. split; [|eexists; split; [reflexivity|split; reflexivity]].
  intro H. apply (same_comp 0 _ _ (mat 2 3 [1; 2; 3; 4; 5; 6] []) (mat 3 2 [1; 2; 3; 4; 5; 6] [])) in H; try reflexivity.
  apply same_meta in H. discriminate H.
Qed.

(** A plain element with fields two deep, assigned over a product. *)
Definition nested : elem nat := vec [1; 2] [("Q", vec [3] [("R", vec [4] [])]); ("S", vec [5] [])].
Lemma nested_ok : plain nested /\ proper nested /\ proper dst /\
  copy_to nested dst = vec [1; 2] [("Q", vec [3] [("R", vec [4] [])]); ("S", vec [5] [])].
Proof.
  split; [repeat constructor|]. split; [unfold nested, vec; proper|]. split; [exact dst_proper|reflexivity].
Qed.

(** A product of the same kind whose components carry nothing more. *)
Definition dst2 := two [4; 4] [4] [] [("old", vec [6] [])].
Definition src2 := two [1; 2] [3] cached [("EGrad", vec [5] [])].
Lemma dst2_proper : proper dst2.
Proof. unfold dst2, two, vec. proper. Qed.
Lemma src2_proper : proper src2.
Proof. unfold src2, two, vec, cached. proper. Qed.
Lemma src2_flat : flat src2.
Proof. unfold src2, two, vec, cached. repeat constructor. Qed.
