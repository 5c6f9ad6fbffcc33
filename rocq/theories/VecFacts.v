(** * Lemmas about Vec2 over the reals *)
From Coq Require Import ZArith List Bool Reals Lra Lia Psatz.
From Verif Require Import Num Vec Affine RBase.
Import ListNotations.
Local Open Scope R_scope.

(** ** cos_sin_deg *)

Lemma Rfloor_mod (d : R) : exists k : Z, d - 360 * Rfloor (d / 360) = d - 360 * IZR k.
Proof. unfold Rfloor. eexists; eauto. Qed.

Lemma cos_sin_deg_R (d : R) :
  cos_sin_deg d = (cos (d * PI / 180), sin (d * PI / 180)).
Proof.
  unfold cos_sin_deg; rnum. unfold Rfloor. set (k := Int_part (d / 360)).
  assert (Hc : forall r, d - 360 * IZR k = r ->
             d * PI / 180 = r * (PI / 180) + 2 * IZR k * PI) by (intros; subst; field).
  assert (H90 : cos (90 * (PI / 180)) = 0 /\ sin (90 * (PI / 180)) = 1).
  { replace (90 * (PI / 180)) with (PI / 2) by field. split; [apply cos_PI2 | apply sin_PI2]. }
  assert (H180 : cos (180 * (PI / 180)) = -1 /\ sin (180 * (PI / 180)) = 0).
  { replace (180 * (PI / 180)) with PI by field. split; [apply cos_PI | apply sin_PI]. }
  assert (H270 : cos (270 * (PI / 180)) = 0 /\ sin (270 * (PI / 180)) = -1).
  { replace (270 * (PI / 180)) with (3 * (PI / 2)) by field.
    split; [apply cos_3PI2 | apply sin_3PI2]. }
  destruct (Reqb_spec (d - 360 * IZR k) 90) as [H|_];
  [| destruct (Reqb_spec (d - 360 * IZR k) 180) as [H|_];
  [| destruct (Reqb_spec (d - 360 * IZR k) 270) as [H|_]]].
  4: specialize (Hc _ eq_refl).
  1-3: specialize (Hc _ H).
  all: rewrite Hc, cos_period_Z, sin_period_Z; auto.
  - destruct H90 as [-> ->]; auto.
  - destruct H180 as [-> ->]; auto.
  - destruct H270 as [-> ->]; auto.
Qed.

(** ** atan2 *)

Lemma Ratan2_range (y x : R) : - PI < Ratan2 y x <= PI.
Proof.
  unfold Ratan2. pose proof (atan_bound (y / x)). pose proof PI_pos.
  destruct (Rlt_dec 0 x); [lra|].
  destruct (Rlt_dec x 0) as [Hx|].
  - destruct (Rle_dec 0 y) as [Hy|Hy].
    + split; [lra|].
      assert (y / x <= 0).
      { unfold Rdiv. pose proof (Rinv_lt_0_compat _ Hx). nra. }
      destruct (Rle_lt_or_eq_dec _ _ H1) as [H2|H2].
      * pose proof (atan_increasing _ _ H2). rewrite atan_0 in H3. lra.
      * rewrite H2, atan_0. lra.
    + assert (0 < y / x).
      { unfold Rdiv. pose proof (Rinv_lt_0_compat _ Hx). nra. }
      pose proof (atan_increasing _ _ H1). rewrite atan_0 in H2. lra.
  - destruct (Rlt_dec 0 y); [lra|]. destruct (Rlt_dec y 0); lra.
Qed.

Lemma sqrt_factor (x y : R) : 0 < x ->
  sqrt (x * x + y * y) = x * sqrt (1 + (y / x) * (y / x)).
Proof.
  intro Hx. apply sqrt_unique_sq.
  - apply Rmult_le_pos; [lra | apply sqrt_pos].
  - replace (x * sqrt (1 + y / x * (y / x)) * (x * sqrt (1 + y / x * (y / x))))
      with (x * x * (sqrt (1 + y / x * (y / x)) * sqrt (1 + y / x * (y / x)))) by ring.
    rewrite sqrt_sqrt by nra. field. lra.
Qed.

Lemma Ratan2_polar (y x : R) : ~ (x = 0 /\ y = 0) ->
  x = sqrt (x * x + y * y) * cos (Ratan2 y x) /\
  y = sqrt (x * x + y * y) * sin (Ratan2 y x).
Proof.
  intro Hnz. unfold Ratan2.
  assert (Hs : 0 < sqrt (1 + (y / x) * (y / x))) by (apply sqrt_lt_R0; nra).
  assert (Hca : cos (atan (y / x)) = 1 / sqrt (1 + (y / x) * (y / x))) by apply cos_atan.
  assert (Hsa : sin (atan (y / x)) = (y / x) / sqrt (1 + (y / x) * (y / x))) by apply sin_atan.
  destruct (Rlt_dec 0 x) as [Hx|Hx].
  { rewrite sqrt_factor by auto. rewrite Hca, Hsa. split; field; lra. }
  destruct (Rlt_dec x 0) as [Hx'|Hx'].
  - assert (Hf : sqrt (x * x + y * y) = (- x) * sqrt (1 + (y / x) * (y / x))).
    { replace (x * x + y * y) with ((- x) * (- x) + y * y) by ring.
      rewrite sqrt_factor by lra. do 3 f_equal.
      field; lra. }
    rewrite Hf.
    destruct (Rle_dec 0 y).
    + rewrite neg_cos, neg_sin, Hca, Hsa. split; field; lra.
    + replace (atan (y / x) - PI) with (atan (y / x) + PI + 2 * IZR (-1) * PI) by (cbn; ring).
      rewrite cos_period_Z, sin_period_Z, neg_cos, neg_sin, Hca, Hsa. split; field; lra.
  - assert (x = 0) by lra. subst x.
    assert (y <> 0) by (intro; apply Hnz; auto).
    destruct (Rlt_dec 0 y).
    + rewrite cos_PI2, sin_PI2. replace (0*0+y*y) with (y*y) by ring.
      rewrite sqrt_square by lra. split; ring.
    + destruct (Rlt_dec y 0); [| lra].
      rewrite cos_neg, sin_neg, cos_PI2, sin_PI2.
      replace (0*0+y*y) with ((-y)*(-y)) by ring.
      rewrite sqrt_square by lra. split; ring.
Qed.

Lemma angle_R (v : vec R) : angle v = Ratan2 (vy v) (vx v) * (180 / PI).
Proof. reflexivity. Qed.

Lemma angle_range (v : vec R) : -180 < angle v <= 180.
Proof.
  rewrite angle_R. pose proof (Ratan2_range (vy v) (vx v)) as [H1 H2].
  pose proof PI_pos.
  assert (0 < 180 / PI) by (apply Rdiv_lt_0_compat; lra).
  assert (PI * (180 / PI) = 180) by (field; lra).
  split.
  - assert (0 < (Ratan2 (vy v) (vx v) + PI) * (180 / PI)) by (apply Rmult_lt_0_compat; lra).
    lra.
  - assert (0 <= (PI - Ratan2 (vy v) (vx v)) * (180 / PI)) by (apply Rmult_le_pos; lra).
    lra.
Qed.

Lemma vec_polar_R (a r : R) :
  vec_polar a r = mkV (cos (a * PI / 180) * r) (sin (a * PI / 180) * r).
Proof. unfold vec_polar. rewrite cos_sin_deg_R. reflexivity. Qed.

Lemma angle_trig (v : vec R) : v <> mkV 0 0 ->
  vx v = vlength v * cos (angle v * PI / 180) /\ vy v = vlength v * sin (angle v * PI / 180).
Proof.
  intro Hv. rewrite angle_R.
  replace (Ratan2 (vy v) (vx v) * (180 / PI) * PI / 180) with (Ratan2 (vy v) (vx v))
    by (field; pose proof PI_pos; lra).
  rewrite vlength_R. apply Ratan2_polar.
  intros [H1 H2]. apply Hv. apply vec_ext; auto.
Qed.

Lemma polar_angle_length (v : vec R) : vec_polar (angle v) (vlength v) = v.
Proof.
  rewrite vec_polar_R.
  destruct (Req_EM_T (vlength v) 0) as [H|H].
  - rewrite H. apply vlength_zero in H. subst. f_equal; ring.
  - assert (Hv : v <> mkV 0 0) by (intro E; apply vlength_zero in E; auto).
    destruct (angle_trig v Hv) as [Hx Hy].
    apply vec_ext; cbn [vx vy]; rewrite Rmult_comm; auto.
Qed.

Lemma polar_length (a r : R) : vlength (vec_polar a r) = Rabs r.
Proof.
  rewrite vec_polar_R, vlength_R; cbn.
  apply sqrt_unique_sq; [apply Rabs_pos|].
  rewrite <- Rabs_mult. pose proof (sin_cos_sq (a * PI / 180)).
  replace (Rabs (r * r)) with (r * r) by (symmetry; apply Rabs_pos_eq; nra).
  transitivity (r * r * (sin (a * PI / 180) * sin (a * PI / 180)
                         + cos (a * PI / 180) * cos (a * PI / 180))); [rewrite H|]; ring.
Qed.

Lemma polar_angle (a r : R) : 0 < r -> exists k : Z, angle (vec_polar a r) = a + 360 * IZR k.
Proof.
  intro Hr. pose proof PI_pos.
  assert (Hl : vlength (vec_polar a r) = r) by (rewrite polar_length; apply Rabs_pos_eq; lra).
  assert (Hv : vec_polar a r <> mkV 0 0) by (intro E; apply vlength_zero in E; lra).
  destruct (angle_trig _ Hv) as [Hx Hy]. rewrite Hl in *.
  set (b := angle (vec_polar a r)) in *. clearbody b.
  rewrite vec_polar_R in Hx, Hy. cbn [vx vy] in Hx, Hy.
  destruct (cos_sin_same (b * PI / 180) (a * PI / 180)) as [k Hk];
    [apply (Rmult_eq_reg_l r); lra | apply (Rmult_eq_reg_l r); lra |].
  exists k.
  apply (Rmult_eq_reg_r (PI / 180)); [| intro; lra].
  replace (b * (PI / 180)) with (b * PI / 180) by field. rewrite Hk. field.
Qed.

(** ** rotated *)

Lemma rotated_R (v : vec R) (a : R) :
  rotated v a = mkV (vx v * cos (a * PI / 180) - vy v * sin (a * PI / 180))
                    (vx v * sin (a * PI / 180) + vy v * cos (a * PI / 180)).
Proof. unfold rotated. rewrite cos_sin_deg_R. reflexivity. Qed.

Lemma rotated_dot (v w : vec R) a : dot (rotated v a) (rotated w a) = dot v w.
Proof.
  rewrite !rotated_R; unfold dot; rnum.
  pose proof (sin_cos_sq (a * PI / 180)) as H.
  set (c := cos (a * PI / 180)) in *. set (s := sin (a * PI / 180)) in *.
  transitivity ((vx v * vx w + vy v * vy w) * (s * s + c * c)); [ring | rewrite H; ring].
Qed.
Lemma rotated_cross (v w : vec R) a : cross (rotated v a) (rotated w a) = cross v w.
Proof.
  rewrite !rotated_R; unfold cross; rnum.
  pose proof (sin_cos_sq (a * PI / 180)) as H.
  set (c := cos (a * PI / 180)) in *. set (s := sin (a * PI / 180)) in *.
  transitivity ((vx v * vy w - vy v * vx w) * (s * s + c * c)); [ring | rewrite H; ring].
Qed.
Lemma length2_dot (v : vec R) : length2 v = dot v v.
Proof. reflexivity. Qed.
Lemma rotated_length2 (v : vec R) a : length2 (rotated v a) = length2 v.
Proof. rewrite !length2_dot; apply rotated_dot. Qed.
Lemma rotated_length (v : vec R) a : vlength (rotated v a) = vlength v.
Proof. unfold vlength; rewrite rotated_length2; auto. Qed.
Lemma rotated_add (v : vec R) a b : rotated (rotated v a) b = rotated v (a + b).
Proof.
  rewrite !rotated_R; cbn [vx vy].
  replace ((a + b) * PI / 180) with (a * PI / 180 + b * PI / 180) by field.
  rewrite cos_plus, sin_plus. apply vec_ext; cbn [vx vy]; ring.
Qed.
Lemma rotated_turns (v : vec R) (k : Z) : rotated v (360 * IZR k) = v.
Proof.
  rewrite rotated_R.
  replace (360 * IZR k * PI / 180) with (0 + 2 * IZR k * PI) by field.
  rewrite cos_period_Z, sin_period_Z, cos_0, sin_0. apply vec_ext; cbn [vx vy]; ring.
Qed.

Lemma angle_to_rotates (a b : vec R) : a <> mkV 0 0 -> b <> mkV 0 0 ->
  vscale (rotated a (angle_to a b)) (vlength b) = vscale b (vlength a).
Proof.
  intros Ha Hb.
  destruct (angle_trig a Ha) as [Hax Hay]. destruct (angle_trig b Hb) as [Hbx Hby].
  rewrite rotated_R. unfold angle_to; rnum. unfold vscale; rnum.
  replace ((angle b - angle a) * PI / 180) with (angle b * PI / 180 - angle a * PI / 180) by field.
  rewrite cos_minus, sin_minus.
  pose proof (sin_cos_sq (angle a * PI / 180)) as H.
  set (ca := cos (angle a * PI / 180)) in *. set (sa := sin (angle a * PI / 180)) in *.
  set (cb := cos (angle b * PI / 180)) in *. set (sb := sin (angle b * PI / 180)) in *.
  apply vec_ext; cbn [vx vy].
  - rewrite Hax, Hay, Hbx.
    transitivity (vlength a * vlength b * cb * (sa * sa + ca * ca)); [ring | rewrite H; ring].
  - rewrite Hax, Hay, Hby.
    transitivity (vlength a * vlength b * sb * (sa * sa + ca * ca)); [ring | rewrite H; ring].
Qed.

Lemma angle_to_out_of_range : angle_to (mkV (-1) (-1)) (mkV (-1) 1) = 270.
Proof.
  unfold angle_to; rnum. rewrite !angle_R; cbn [vx vy]. unfold Ratan2.
  destruct (Rlt_dec 0 (-1)); [lra|]. destruct (Rlt_dec (-1) 0); [|lra].
  destruct (Rle_dec 0 1); [|lra]. destruct (Rle_dec 0 (-1)); [lra|].
  replace (1 / -1) with (- (1)) by field. replace (-1 / -1) with 1 by field.
  rewrite atan_opp, atan_1. field. pose proof PI_pos; lra.
Qed.

(** ** normalized, scaled_to, clamped *)

Lemma normalized_big (E : R) (v : vec R) : 0 <= E -> E < vlength v ->
  normalized E v = Ok (mkV (vx v / vlength v) (vy v / vlength v)).
Proof.
  intros HE H. unfold normalized; rnum.
  destruct (Rltb_spec E (vlength v)); [|lra].
  rewrite !pydiv_R by lra. reflexivity.
Qed.
Lemma normalized_small (E : R) (v : vec R) : vlength v <= E ->
  normalized E v = Ok (mkV 0 0).
Proof.
  intros H. unfold normalized; rnum.
  destruct (Rltb_spec E (vlength v)); [lra|]. rewrite vnull_R. auto.
Qed.
Lemma unit_length (v : vec R) : 0 < vlength v ->
  vlength (mkV (vx v / vlength v) (vy v / vlength v)) = 1.
Proof.
  intro H. rewrite vlength_R; cbn [vx vy]. pose proof (vlength_sq v).
  apply sqrt_unique_sq; [lra|].
  transitivity ((vx v * vx v + vy v * vy v) / (vlength v * vlength v)).
  - rewrite <- H0. field. lra.
  - field. lra.
Qed.
Lemma normalized_unit_id (E : R) (v : vec R) : 0 <= E < 1 -> vlength v = 1 -> normalized E v = Ok v.
Proof.
  intros HE H. rewrite normalized_big by lra. rewrite H.
  f_equal. apply vec_ext; cbn [vx vy]; field.
Qed.

Lemma scaled_to_big (E : R) (v : vec R) (r : R) : 0 <= E -> E < vlength v ->
  scaled_to E v r = Ok (mkV (vx v * (r / vlength v)) (vy v * (r / vlength v))).
Proof.
  intros HE H. unfold scaled_to; rnum.
  destruct (Rltb_spec E (vlength v)); [|lra].
  rewrite !pydiv_R by lra. reflexivity.
Qed.
Lemma scaled_to_small (E : R) (v : vec R) r : vlength v <= E ->
  scaled_to E v r = Ok (mkV 0 0).
Proof.
  intros H. unfold scaled_to; rnum.
  destruct (Rltb_spec E (vlength v)); [lra|]. rewrite vnull_R. auto.
Qed.
Lemma scaled_length (v : vec R) (s : R) : vlength (mkV (vx v * s) (vy v * s)) = Rabs s * vlength v.
Proof.
  rewrite vlength_R; cbn [vx vy]. apply sqrt_unique_sq.
  - apply Rmult_le_pos; [apply Rabs_pos | apply vlength_nonneg].
  - transitivity (Rabs s * Rabs s * (vlength v * vlength v)); [ring|].
    rewrite vlength_sq, <- Rabs_mult, Rabs_pos_eq by nra. ring.
Qed.
