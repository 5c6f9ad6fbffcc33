(** * Property C102: what the transform constructors do to points *)
From Coq Require Import ZArith List Bool Reals Lra Lia.
From Verif Require Import Num Vec Affine RBase VecFacts VecFacts2 SpecGeom SpecAffine AffineFacts.
Import ListNotations.
Local Open Scope R_scope.

Theorem C102_translation_scale : forall (o s p : pt) (k : R),
  aapply aidentity p = p /\
  aapply (atranslation o) p = mkV (vx p + vx o) (vy p + vy o) /\
  aapply (ascale_scalar k) p = mkV (k * vx p) (k * vy p) /\
  aapply (ascale s) p = mkV (vx s * vx p) (vy s * vy p) /\
  det (atranslation o) = 1 /\ det (ascale_scalar k) = k * k /\ det (ascale s) = vx s * vy s.
Proof.
  intros [ox oy] [sx sy] [x y] k. rewrite !aapply_R, aidentity_R. unfold img, det, idmat, atranslation, ascale, ascale_scalar. rnum. cbn [aa ab ac ad ae af vx vy].
  repeat split; try (vext; ring); ring.
Qed.
Print Assumptions C102_translation_scale.

(** Shearing along the x axis by an angle moves (x, y) by y * tan in x, and
    correspondingly along the y axis; degrees. *)
Theorem C102_shear : forall (ax ay : R) (p : pt),
  exists m, ashear ax ay = Ok m /\
    aapply m p = mkV (vx p + tan (ax * PI / 180) * vy p) (vy p + tan (ay * PI / 180) * vx p) /\
    det m = 1 - tan (ax * PI / 180) * tan (ay * PI / 180).
Proof.
  intros ax ay [x y]. eexists. split; [reflexivity|]. rewrite aapply_R. unfold img, det. rnum. cbn [aa ab ac ad ae af vx vy].
  replace (ax * (PI / 180)) with (ax * PI / 180) by field. replace (ay * (PI / 180)) with (ay * PI / 180) by field.
  split; [vext; ring|ring].
Qed.
Print Assumptions C102_shear.

(** is_identity: exactly the transforms whose entries are within EPSILON of
    those of the identity; such a transform moves no point by more than
    EPSILON * (|x| + |y| + 1) along either axis. *)
Theorem C102_is_identity : forall (E : R) (m : affine R), 0 < E ->
  (is_identity E m = true <->
   Rabs (aa m - 1) < E /\ Rabs (ab m) < E /\ Rabs (ac m) < E /\ Rabs (ad m) < E /\ Rabs (ae m - 1) < E /\ Rabs (af m) < E) /\
  (is_identity E m = true -> forall p, Rabs (vx (aapply m p) - vx p) <= E * (Rabs (vx p) + Rabs (vy p) + 1) /\
                                       Rabs (vy (aapply m p) - vy p) <= E * (Rabs (vx p) + Rabs (vy p) + 1)) /\
  is_identity E idmat = true.
Proof.
  intros E m HE.
  assert (A : forall m, is_identity E m = true <->
   Rabs (aa m - 1) < E /\ Rabs (ab m) < E /\ Rabs (ac m) < E /\ Rabs (ad m) < E /\ Rabs (ae m - 1) < E /\ Rabs (af m) < E).
  { clear m. intro m. unfold is_identity, affine_almost_equals. rewrite aidentity_R. unfold idmat. rnum. cbn [aa ab ac ad ae af]. rewrite !Rminus_0_r.
    repeat match goal with |- context [Rleb ?x ?y] => destruct (Rleb_spec x y) end; split; intro K; try discriminate K; try lra; auto; repeat split; auto; lra. }
  split; [apply A|]. split.
  - intro H. apply A in H. destruct H as (H1 & H2 & H3 & H4 & H5 & H6). intros [x y]. rewrite aapply_R. unfold img. cbn [vx vy].
    assert (G : forall u v e1 e2 e3 : R, Rabs e1 < E -> Rabs e2 < E -> Rabs e3 < E -> Rabs (u * e1 + v * e2 + e3) <= E * (Rabs u + Rabs v + 1)).
    { intros u v e1 e2 e3 K1 K2 K3. eapply Rle_trans; [apply Rabs_triang|]. eapply Rle_trans; [apply Rplus_le_compat_r, Rabs_triang|].
      rewrite !Rabs_mult. pose proof (Rabs_pos u). pose proof (Rabs_pos v).
      assert (Rabs u * Rabs e1 <= Rabs u * E) by (apply Rmult_le_compat_l; lra).
      assert (Rabs v * Rabs e2 <= Rabs v * E) by (apply Rmult_le_compat_l; lra). lra. }
    split.
    + replace (x * aa m + y * ad m + ac m - x) with (x * (aa m - 1) + y * ad m + ac m) by ring. apply G; auto.
    + replace (x * ab m + y * ae m + af m - y) with (x * ab m + y * (ae m - 1) + af m) by ring. apply G; auto.
  - apply A. unfold idmat. cbn [aa ab ac ad ae af]. rewrite Rminus_eq_0, Rabs_R0. repeat split; exact HE.
Qed.
Print Assumptions C102_is_identity.

(** The column vectors as the transform uses them: the coordinates of the image
    are the dot products with the first two, plus the third. *)
Theorem C102_column_vectors : forall (m : affine R) (p : pt),
  let '(u, v, w) := column_vectors m in
  aapply m p = mkV (vx p * vx u + vy p * vy u + vx w) (vx p * vx v + vy p * vy v + vy w) /\
  aapply m (mkV 0 0) = w /\ det m = vx u * vy v - vx v * vy u.
Proof.
  intros [a b c d e f] [x y]. unfold column_vectors, vec2. rewrite !aapply_R. unfold img, det. rnum. cbn [aa ab ac ad ae af vx vy].
  repeat split; try (vext; ring); ring.
Qed.
Print Assumptions C102_column_vectors.

(** They are not the images of the axes (the usual meaning), unless the matrix
    is symmetric. *)
Definition axes_are_columns (m : affine R) : Prop :=
  let '(u, v, w) := column_vectors m in
  psub (aapply m (mkV 1 0)) (aapply m (mkV 0 0)) = u /\ psub (aapply m (mkV 0 1)) (aapply m (mkV 0 0)) = v.
Theorem C102_axes_partial : forall m : affine R, axes_are_columns m <-> ab m = ad m.
Proof.
  intros [a b c d e f]. unfold axes_are_columns, column_vectors, vec2, psub. rewrite !aapply_R. unfold img. rnum. cbn [aa ab ac ad ae af vx vy]. split.
  - intros [H _]. injection H. intros. lra.
  - intros ->. split; vext; ring.
Qed.
Print Assumptions C102_axes_partial.
Theorem C102_axes_refuted : exists m : affine R, det m = 1 /\ ~ axes_are_columns m.
Proof.
  exists (mkA 0 1 0 (-1) 0 0). split; [unfold det; cbn; ring|]. rewrite C102_axes_partial. cbn. lra.
Qed.
Print Assumptions C102_axes_refuted.

Example C102_ex : is_identity (/ 100) (mkA (1 + / 200) 0 0 (- / 300) 1 (/ 400)) = true /\
  aapply (atranslation (mkV 3 4)) (mkV 1 1) = mkV 4 5.
Proof.
  split.
  - apply C102_is_identity; [lra|]. cbn [aa ab ac ad ae af]. repeat split; apply Rabs_def1; lra.
  - destruct (C102_translation_scale (mkV 3 4) (mkV 0 0) (mkV 1 1) 0) as (_ & -> & _). cbn [vx vy]. vext; ring.
Qed.
