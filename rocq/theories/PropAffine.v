(** * Properties C17 - C28: transforms *)
From Coq Require Import ZArith List Bool Reals Lra Lia.
From Verif Require Import Num Vec Affine AffineCache RBase VecFacts VecFacts2 SpecGeom SpecAffine AffineFacts.
Import ListNotations.
Local Open Scope R_scope.

(** ** C17 *)
Theorem C17_monoid : forall a b c : affine R,
  amul (amul a b) c = amul a (amul b c) /\ amul idmat a = a /\ amul a idmat = a /\
  det (amul a b) = det a * det b.
Proof. exact monoid. Qed.
Print Assumptions C17_monoid.

Theorem C17_inverse : forall (E : R) (m : affine R), 0 < E -> E <= Rabs (det m) ->
  exists i, ainvert E m = Ok i /\ amul m i = idmat /\ amul i m = idmat /\
    (E <= Rabs (/ det m) -> ainvert E i = Ok m).
Proof. exact inverse_spec. Qed.
Print Assumptions C17_inverse.

(** A non-trivial transform meets the hypotheses. *)
Example C17_ex : let m := mkA 2 1 5 3 4 (-7) in
  / 100000 <= Rabs (det m) /\ / 100000 <= Rabs (/ det m).
Proof. cbv zeta; unfold det; cbn [aa ab ac ad ae af]. rewrite !Rabs_pos_eq; lra. Qed.

(** ** C18 *)
Theorem C18_invert_fails_iff : forall (E : R) (m : affine R), 0 < E ->
  (ainvert E m = Err TransformNotInvertibleError <-> Rabs (det m) < E) /\
  (forall e, ainvert E m = Err e -> e = TransformNotInvertibleError) /\
  (is_degenerate E m = true <-> Rabs (det m) < E).
Proof. exact invert_fails_iff. Qed.
Print Assumptions C18_invert_fails_iff.

(** With EPSILON <= 0 singular transforms raise ZeroDivisionError instead. *)
Theorem C18_zero_epsilon : forall (E : R) (m : affine R), E <= 0 ->
  (ainvert E m = Err ZeroDivisionError <-> det m = 0) /\
  (det m <> 0 -> exists i, ainvert E m = Ok i).
Proof. exact invert_zero_epsilon. Qed.
Print Assumptions C18_zero_epsilon.

(** ** C19: full statement: forall a b p, (a * b) * p = a * (b * p) *)
Theorem C19_composition_refuted : exists (a b : affine R) (p : pt),
  aapply (amul a b) p <> aapply a (aapply b p).
Proof. exact composition_bad. Qed.
Print Assumptions C19_composition_refuted.

(** The exact extent of the agreement. *)
Theorem C19_composition_iff_partial : forall a b : affine R,
  (forall p, aapply (amul a b) p = aapply a (aapply b p)) <->
  (ab a * ad b = ab b * ad a /\
   (aa a - ae a) * ab b = (aa b - ae b) * ab a /\
   (aa a - ae a) * ad b = (aa b - ae b) * ad a /\
   (ab a - ad a) * ac b = 0 /\ (ab a - ad a) * af b = 0).
Proof. exact composition_iff. Qed.
Print Assumptions C19_composition_iff_partial.

(** ** C20: full statement: forall m p, ~m * (m * p) = p *)
Theorem C20_inverse_points_refuted : exists (E : R) (m i : affine R) (p : pt),
  0 < E /\ ainvert E m = Ok i /\ aapply i (aapply m p) <> p.
Proof. exact inverse_points_bad. Qed.
Print Assumptions C20_inverse_points_refuted.

(** It holds exactly for symmetric linear parts or without translation. *)
Theorem C20_inverse_points_iff_partial : forall (E : R) (m i : affine R), 0 < E -> ainvert E m = Ok i ->
  ((forall p, aapply i (aapply m p) = p) <-> (ab m = ad m \/ (ac m = 0 /\ af m = 0))).
Proof. exact inverse_points_iff. Qed.
Print Assumptions C20_inverse_points_iff_partial.

(** ** C21 *)
Theorem C21_diagonal : forall (E : R) (a b : affine R) (p : pt), 0 < E ->
  ab a = 0 -> ad a = 0 -> ab b = 0 -> ad b = 0 ->
  aapply (amul a b) p = aapply a (aapply b p) /\
  ab (amul a b) = 0 /\ ad (amul a b) = 0 /\
  (forall i, ainvert E a = Ok i -> aapply i (aapply a p) = p /\ aapply a (aapply i p) = p).
Proof. exact diagonal_ok. Qed.
Print Assumptions C21_diagonal.

Theorem C21_translation_scale_diagonal : forall (o s : pt) (k : R),
  (ab (atranslation o) = 0 /\ ad (atranslation o) = 0) /\
  (ab (ascale s) = 0 /\ ad (ascale s) = 0) /\ (ab (ascale_scalar k) = 0 /\ ad (ascale_scalar k) = 0).
Proof. exact translation_scale_diagonal. Qed.
Print Assumptions C21_translation_scale_diagonal.

Theorem C21_application_closed : forall a b : affine R,
  exists c, (forall p, aapply a (aapply b p) = aapply c p) /\ det c = det a * det b.
Proof. exact application_closed. Qed.
Print Assumptions C21_application_closed.

(** What the constructors do to points. *)
Theorem C21_constructors : forall (o s p : pt) (k x y : R),
  aapply (atranslation o) p = padd p o /\
  aapply (ascale s) p = mkV (vx s * vx p) (vy s * vy p) /\
  aapply (ascale_scalar k) p = pscale k p /\
  rmap (fun m => aapply m p) (ashear x y) = Ok (mkV (vx p + tan (deg x) * vy p) (tan (deg y) * vx p + vy p)) /\
  aapply aidentity p = p.
Proof. exact constructors_img. Qed.
Print Assumptions C21_constructors.

(** ** C22 *)
Theorem C22_area_factor : forall (m : affine R) (l : list pt) (p q r : pt),
  area2 (map (aapply m) l) = determinant m * area2 l /\
  orient (aapply m p) (aapply m q) (aapply m r) = determinant m * orient p q r.
Proof. exact area_img_both. Qed.
Print Assumptions C22_area_factor.

Example C22_ex : area2 [mkV 0 0; mkV 1 0; mkV 1 1; mkV 0 1] = 2.
Proof. unfold area2, rsum, pcross; cbn. ring. Qed.

(** ** C23 *)
Theorem C23_affine_ratios : forall (m : affine R) (q r : pt) (t : R),
  aapply m (between q r t) = between (aapply m q) (aapply m r) t /\
  (forall p s k, psub s r = pscale k (psub q p) ->
     psub (aapply m s) (aapply m r) = pscale k (psub (aapply m q) (aapply m p))).
Proof. exact img_ratio. Qed.
Print Assumptions C23_affine_ratios.

(** ** C24 (and the last clause of C09) *)
Theorem C24_rotation_pivot : forall (t : R) (c p q : pt),
  aapply (arotation t (Some c)) c = c /\
  aapply (arotation t (Some c)) p = padd c (prot t (psub p c)) /\
  aapply (arotation t None) p = prot t p /\
  rotated p t = aapply (arotation t None) p /\
  dist (aapply (arotation t (Some c)) p) (aapply (arotation t (Some c)) q) = dist p q.
Proof. exact rotation_pivot_spec. Qed.
Print Assumptions C24_rotation_pivot.
(** The last part of C09: the transform and [Vec2.rotated] are the same map. *)
Theorem C09_affine_rotation : forall (t : R) (v w : pt),
  aapply (arotation t None) v = rotated v t /\
  pdot (aapply (arotation t None) v) (aapply (arotation t None) w) = pdot v w /\
  pcross (aapply (arotation t None) v) (aapply (arotation t None) w) = pcross v w.
Proof.
  intros t v w. destruct (rotation_pivot_spec t porigin v v) as (_ & _ & _ & H & _).
  destruct (rotation_pivot_spec t porigin w w) as (_ & _ & _ & H' & _).
  rewrite <- H, <- H'. destruct (rotated_isometry v w t) as (K1 & K2 & _). auto.
Qed.
Print Assumptions C09_affine_rotation.

(** ** C25 *)
Theorem C25_orthonormal_distances : forall (E : R) (m : affine R) (p q : pt), is_orthonormal E m = true ->
  (1 - 2 * E) * (dist p q * dist p q) <= dist (aapply m p) (aapply m q) * dist (aapply m p) (aapply m q)
  <= (1 + 2 * E) * (dist p q * dist p q).
Proof. exact orthonormal_distances. Qed.
Print Assumptions C25_orthonormal_distances.

Theorem C25_orthonormal_exact : forall m : affine R,
  aa m * ab m + ad m * ae m = 0 -> aa m * aa m + ad m * ad m = 1 -> ab m * ab m + ae m * ae m = 1 ->
  (forall p q, dist (aapply m p) (aapply m q) = dist p q) /\ (determinant m = 1 \/ determinant m = -1) /\
  (forall E, 0 < E -> is_orthonormal E m = true).
Proof. exact orthonormal_exact. Qed.
Print Assumptions C25_orthonormal_exact.

Theorem C25_orthonormal_det : forall (E : R) (m : affine R), is_orthonormal E m = true -> E <= 1 ->
  1 - 2 * E < determinant m * determinant m < (1 + E) * (1 + E).
Proof. exact orthonormal_det. Qed.
Print Assumptions C25_orthonormal_det.

Theorem C25_rigid_motions : forall (E t : R) (c : option pt) (o : pt), 0 < E ->
  is_orthonormal E (arotation t c) = true /\ is_orthonormal E (atranslation o) = true.
Proof. exact rigid_orthonormal. Qed.
Print Assumptions C25_rigid_motions.

Example C25_ex : is_orthonormal (/ 100000) (arotation 30 (Some (mkV 5 6))) = true.
Proof. apply (C25_rigid_motions _ 30 _ (mkV 0 0)). lra. Qed.

(** ** C26: full statement: is_conformal E m = true -> perpendicular
    displacements stay perpendicular.  A non-uniform scale refutes it, and so
    does a transform that does not even keep the axes perpendicular. *)
Theorem C26_conformal_refuted : exists m : affine R, (forall E, 0 < E -> is_conformal E m = true) /\
  exists u v : pt, pdot u v = 0 /\ pdot (psub (aapply m u) (aapply m porigin)) (psub (aapply m v) (aapply m porigin)) <> 0.
Proof. exact conformal_bad. Qed.
Print Assumptions C26_conformal_refuted.

Theorem C26_conformal_axes_refuted : exists m : affine R, (forall E, 0 < E -> is_conformal E m = true) /\
  pdot (psub (aapply m (mkV 1 0)) (aapply m porigin)) (psub (aapply m (mkV 0 1)) (aapply m porigin)) <> 0.
Proof. exact conformal_shear_bad. Qed.
Print Assumptions C26_conformal_axes_refuted.

(** With equal column lengths the claim holds. *)
Theorem C26_conformal_equal_columns_partial : forall (m : affine R) (k : R),
  aa m * ab m + ad m * ae m = 0 -> aa m * aa m + ad m * ad m = k -> ab m * ab m + ae m * ae m = k ->
  (forall E, 0 < E -> is_conformal E m = true) /\
  forall o u v, pdot (psub (aapply m u) (aapply m o)) (psub (aapply m v) (aapply m o)) = k * pdot (psub u o) (psub v o).
Proof. exact conformal_equal_columns. Qed.
Print Assumptions C26_conformal_equal_columns_partial.

(** ** C27 *)
Theorem C27_itransform : forall (m : affine R) (l : list pt),
  itransform m l = map (img m) l /\ map (aapply m) l = map (img m) l /\
  length (itransform m l) = length l.
Proof.
  intros m l. rewrite itransform_R, map_length. repeat split. apply map_ext, aapply_R.
Qed.
Print Assumptions C27_itransform.

(** ** C28: full statement: after any interleaving, a read gives the value for
    the current EPSILON. *)
Theorem C28_cached_stale_refuted : exists (m : affine R) (E e : R), 0 < e /\ 0 < E /\
  fst (aread m PDegenerate (arun m (afresh E) [ORead PDegenerate; OSetEps e]))
    <> fst (aread m PDegenerate (afresh e)) /\
  fst (ainvert_cached m (arun m (afresh E) [ORead PDegenerate; OSetEps e])) <> ainvert e m.
Proof. exact cached_stale. Qed.
Print Assumptions C28_cached_stale_refuted.

(** Over any number system: correct for every history that does not call
    set_epsilon, and for set_epsilon calls that precede the first read. *)
Theorem C28_constant_epsilon_partial : forall (T : Type) (N : Num T) (E : T) (m : affine T) (os : list (aop T)) (p : apred),
  Forall (fun o => match o with OSetEps _ => False | _ => True end) os ->
  fst (aread m p (arun m (afresh E) os)) = fst (aread m p (afresh E)) /\
  fst (ainvert_cached m (arun m (afresh E) os)) = ainvert E m.
Proof. intros T N. exact cached_constant_epsilon. Qed.
Print Assumptions C28_constant_epsilon_partial.

Theorem C28_epsilon_before_reads_partial : forall (T : Type) (N : Num T) (E : T) (m : affine T) (es : list T) (e : T),
  arun m (afresh E) (map OSetEps (es ++ [e])) = afresh e.
Proof. intros T N. exact cached_epsilon_before. Qed.
Print Assumptions C28_epsilon_before_reads_partial.
