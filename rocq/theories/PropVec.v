(** * Properties C01 - C12: vectors, over the real numbers *)
From Coq Require Import ZArith List Bool Reals Lra Lia.
From Verif Require Import Num Vec Affine RBase VecFacts VecFacts2 SpecGeom.
Import ListNotations.
Local Open Scope R_scope.

(** ** C01 *)
Theorem C01_cos_sin_deg_exact : forall d : R,
  cos_sin_deg d = (cos (deg d), sin (deg d)).
Proof. exact cos_sin_deg_R. Qed.
Print Assumptions C01_cos_sin_deg_exact.

Theorem C01_cos_sin_deg_periodic : forall (d : R) (k : Z),
  cos_sin_deg (d + 360 * IZR k) = cos_sin_deg d.
Proof. exact cos_sin_deg_periodic. Qed.
Print Assumptions C01_cos_sin_deg_periodic.

Theorem C01_cos_sin_deg_unit : forall d : R,
  fst (cos_sin_deg d) * fst (cos_sin_deg d) + snd (cos_sin_deg d) * snd (cos_sin_deg d) = 1.
Proof. exact cos_sin_deg_unit. Qed.
Print Assumptions C01_cos_sin_deg_unit.

(** The right-angle special case is reached also from a negative angle. *)
Example C01_ex : cos_sin_deg (-270) = (0, 1).
Proof. exact cos_sin_deg_m270. Qed.

(** ** C02 *)
Theorem C02_polar_length : forall a r : R, norm (vec_polar a r) = Rabs r.
Proof. exact polar_length. Qed.
Print Assumptions C02_polar_length.

Theorem C02_polar_angle : forall a r : R, 0 < r ->
  exists k : Z, angle (vec_polar a r) = a + 360 * IZR k.
Proof. exact polar_angle. Qed.
Print Assumptions C02_polar_angle.

Theorem C02_polar_of_angle_length : forall v : pt, vec_polar (angle v) (norm v) = v.
Proof. exact polar_angle_length. Qed.
Print Assumptions C02_polar_of_angle_length.

Theorem C02_angle_range : forall v : pt, -180 < angle v <= 180.
Proof. exact angle_range. Qed.
Print Assumptions C02_angle_range.

Example C02_ex : angle (vec_polar 450 2) = 90.
Proof. exact polar_450. Qed.

(** ** C03 *)
Theorem C03_angle_to_points : forall a b : pt, a <> porigin -> b <> porigin ->
  exists k, 0 < k /\ rotated a (angle_to a b) = pscale k b.
Proof. exact angle_to_multiple. Qed.
Print Assumptions C03_angle_to_points.

Example C03_ex : exists k, 0 < k /\ rotated (mkV 1 2) (angle_to (mkV 1 2) (mkV (-3) 4)) = pscale k (mkV (-3) 4).
Proof. apply C03_angle_to_points; intro H; injection H; lra. Qed.

(** ** C04: the documented range is not respected *)
Theorem C04_angle_to_range_refuted : exists a b : pt,
  a <> porigin /\ b <> porigin /\ ~ (-180 < angle_to a b <= 180).
Proof. exact angle_to_range_bad. Qed.
Print Assumptions C04_angle_to_range_refuted.

(** What does hold: the value is within a full turn either way.  Missing: the
    reduction to (-180, 180]. *)
Theorem C04_angle_to_range_partial : forall a b : pt, -360 < angle_to a b < 360.
Proof. exact angle_to_wide_range. Qed.
Print Assumptions C04_angle_to_range_partial.

(** ** C05 *)
Theorem C05_normalized : forall (E : R) (v : pt), 0 <= E ->
  (norm v <= E -> normalized E v = Ok porigin) /\
  (E < norm v -> exists u k, normalized E v = Ok u /\ norm u = 1 /\ 0 < k /\ u = pscale k v).
Proof. exact normalized_spec. Qed.
Print Assumptions C05_normalized.

Theorem C05_normalized_idempotent : forall (E : R) (v u : pt), 0 <= E < 1 ->
  normalized E v = Ok u -> normalized E u = Ok u.
Proof. exact normalized_idem. Qed.
Print Assumptions C05_normalized_idempotent.

Example C05_ex : normalized (/ 100000) (mkV 3 4) = Ok (mkV (3 / 5) (4 / 5)).
Proof. exact normalized_34. Qed.

(** ** C06 *)
Theorem C06_scaled_to : forall (E r : R) (v : pt), 0 <= E ->
  (norm v <= E -> scaled_to E v r = Ok porigin) /\
  (E < norm v -> exists w, scaled_to E v r = Ok w /\ norm w = Rabs r /\ w = pscale (r / norm v) v).
Proof. exact scaled_to_spec. Qed.
Print Assumptions C06_scaled_to.

(** Bounds may be absent ([None]); a present bound is non-negative. *)
Theorem C06_clamped : forall (E : R) (v : pt) (lo hi : option R), 0 <= E -> E < norm v ->
  (forall a, lo = Some a -> 0 <= a) -> (forall b, hi = Some b -> 0 <= b) ->
  (forall a b, lo = Some a -> hi = Some b -> a <= b) ->
  exists w k, clamped E v lo hi = Ok w /\ 0 <= k /\ w = pscale k v /\
    (forall a, lo = Some a -> a <= norm w) /\ (forall b, hi = Some b -> norm w <= b) /\
    ((forall a, lo = Some a -> a <= norm v) -> (forall b, hi = Some b -> norm v <= b) -> w = v).
Proof. exact clamped_spec. Qed.
Print Assumptions C06_clamped.

Theorem C06_clamped_small : forall (E : R) (v : pt) (lo hi : option R), norm v <= E ->
  (forall a b, lo = Some a -> hi = Some b -> a <= b) ->
  exists w, clamped E v lo hi = Ok w /\ dist v w <= E /\ (w = v \/ w = porigin).
Proof. exact clamped_small. Qed.
Print Assumptions C06_clamped_small.

Theorem C06_clamped_bad_bounds : forall (E : R) (v : pt) (lo hi : option R),
  clamped E v lo hi = Err ValueError <-> exists a b, lo = Some a /\ hi = Some b /\ b < a.
Proof. exact clamped_bad. Qed.
Print Assumptions C06_clamped_bad_bounds.

Example C06_ex : exists w, clamped (/ 100000) (mkV 3 4) (Some 1) (Some 2) = Ok w /\ norm w <= 2.
Proof. exact clamped_34. Qed.

(** ** C07: negative bounds are accepted and reverse the vector *)
Theorem C07_clamped_direction_refuted : exists (E : R) (v w : pt) (lo hi : option R) (k : R),
  0 < E /\ E < norm v /\ clamped E v lo hi = Ok w /\ k < 0 /\ w = pscale k v.
Proof. exact clamped_reverses. Qed.
Print Assumptions C07_clamped_direction_refuted.

(** ** C08 *)
Theorem C08_project : forall (E : R) (a b : pt), 0 <= E ->
  (norm a <= E -> vec_project E a b = Ok porigin) /\
  (E < norm a -> exists p k, vec_project E a b = Ok p /\ p = pscale k a /\
     pdot a (psub b p) = 0 /\ vec_project E a p = Ok p).
Proof. exact project_spec. Qed.
Print Assumptions C08_project.

Theorem C08_reflect : forall (E : R) (v w : pt), 0 <= E ->
  (norm w <= E -> vec_reflect E v w = Ok porigin) /\
  (E < norm w -> exists m, vec_reflect E v w = Ok m /\ norm m = norm v /\
     pdot w m = pdot w v /\ pcross w m = - pcross w v /\ vec_reflect E m w = Ok v).
Proof. exact reflect_spec. Qed.
Print Assumptions C08_reflect.

Example C08_ex : vec_project (/ 100000) (mkV 2 0) (mkV 3 4) = Ok (mkV 3 0) /\
                 vec_reflect (/ 100000) (mkV 3 4) (mkV 2 0) = Ok (mkV 3 (-4)).
Proof. exact project_reflect_ex. Qed.

(** ** C09 *)
Theorem C09_rotated_isometry : forall (v w : pt) (t : R),
  pdot (rotated v t) (rotated w t) = pdot v w /\
  pcross (rotated v t) (rotated w t) = pcross v w /\
  dist (rotated v t) (rotated w t) = dist v w.
Proof. exact rotated_isometry. Qed.
Print Assumptions C09_rotated_isometry.

Theorem C09_rotated_is_rotation : forall (v : pt) (t : R), rotated v t = prot t v.
Proof. exact rotated_R. Qed.
Print Assumptions C09_rotated_is_rotation.

Theorem C09_rotated_compose : forall (v : pt) (s t : R) (k : Z),
  rotated (rotated v s) t = rotated v (s + t) /\ rotated v (360 * IZR k) = v.
Proof. exact rotated_compose. Qed.
Print Assumptions C09_rotated_compose.

Theorem C09_polar_direction : forall (t r : R), vec_polar t r = rotated (mkV r 0) t.
Proof. exact polar_rotated. Qed.
Print Assumptions C09_polar_direction.

(** ** C10 *)
Theorem C10_lerp : forall (a b : pt) (t : R),
  lerp a b t = between a b t /\ lerp a b 0 = a /\ lerp a b 1 = b /\
  lerp a b t = lerp b a (1 - t) /\ dist a (lerp a b t) = Rabs t * dist a b.
Proof. exact lerp_spec. Qed.
Print Assumptions C10_lerp.

Theorem C10_lerp_on_segment : forall (a b : pt) (t : R), 0 <= t <= 1 ->
  on_segment a b (lerp a b t) /\ dist a (lerp a b t) + dist (lerp a b t) b = dist a b.
Proof. exact lerp_segment. Qed.
Print Assumptions C10_lerp_on_segment.

(** ** C11 *)
Theorem C11_order_is_length : forall a b : pt,
  (vec_lt a b = true <-> norm a < norm b) /\ (vec_le a b = true <-> norm a <= norm b) /\
  (vec_gt a b = true <-> norm a > norm b) /\ (vec_ge a b = true <-> norm a >= norm b).
Proof. exact vec_order. Qed.
Print Assumptions C11_order_is_length.

Theorem C11_equality : forall a b : pt,
  (vec_eqb a b = true <-> a = b) /\ (vec_neb a b = true <-> a <> b) /\ vec_neb a b = negb (vec_eqb a b).
Proof. exact vec_equality. Qed.
Print Assumptions C11_equality.

(** ** C12 *)
Theorem C12_almost_equals : forall (E : R) (a b : pt), 0 < E ->
  (vec_almost_equals E a b = true <-> dist a b < E) /\
  vec_almost_equals E a a = true /\
  vec_almost_equals E a b = vec_almost_equals E b a /\
  (is_null E a = true <-> norm a < E).
Proof. exact almost_equals_spec. Qed.
Print Assumptions C12_almost_equals.

Theorem C12_almost_equals_two : forall (E : R) (a b c : pt), 0 < E ->
  vec_almost_equals E a c = true -> vec_almost_equals E b c = true -> dist a b < 2 * E.
Proof. exact almost_equals_two. Qed.
Print Assumptions C12_almost_equals_two.

Example C12_ex : vec_almost_equals 1 (mkV 0 0) (mkV (1/2) (1/2)) = true /\
                 vec_almost_equals 1 (mkV 0 0) (mkV 1 0) = false.
Proof. exact almost_equals_ex. Qed.
