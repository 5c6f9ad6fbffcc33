(** * Lemmas about Vec2 over the reals, stated in the vocabulary of SpecGeom *)
From Coq Require Import ZArith List Bool Reals Lra Lia Psatz.
From Verif Require Import Num Vec Affine RBase VecFacts SpecGeom.
Import ListNotations.
Local Open Scope R_scope.

Ltac vext := apply vec_ext; cbn [vx vy].
Ltac ug := unfold orient, dist, between, psub, padd, pscale, pdot, pcross, porigin, deg in *; cbn [vx vy] in *.

Lemma norm_vlength (v : pt) : norm v = vlength v. Proof. reflexivity. Qed.
Lemma norm_nonneg (v : pt) : 0 <= norm v. Proof. apply vlength_nonneg. Qed.
Lemma norm_sq (v : pt) : norm v * norm v = vx v * vx v + vy v * vy v. Proof. apply vlength_sq. Qed.
Lemma norm_zero (v : pt) : norm v = 0 <-> v = porigin. Proof. apply vlength_zero. Qed.
Lemma norm_pos (v : pt) : v <> porigin -> 0 < norm v.
Proof.
  intro H. destruct (norm_nonneg v); auto. symmetry in H0. apply norm_zero in H0. contradiction.
Qed.
Lemma norm_scale (k : R) (v : pt) : norm (pscale k v) = Rabs k * norm v.
Proof.
  rewrite (norm_vlength v), <- (scaled_length v k). unfold norm, pscale; cbn [vx vy].
  rewrite vlength_R; cbn [vx vy]. f_equal; ring.
Qed.
Lemma norm_unique (v : pt) (d : R) : 0 <= d -> d * d = vx v * vx v + vy v * vy v -> norm v = d.
Proof. intros. unfold norm. rewrite <- H0. apply sqrt_square; auto. Qed.
Lemma norm_le_iff (v : pt) (d : R) : 0 <= d -> (norm v <= d <-> vx v * vx v + vy v * vy v <= d * d).
Proof. intro. rewrite <- norm_sq. pose proof (norm_nonneg v). rewrite sq_le_iff; tauto. Qed.
Lemma norm_lt_iff (v : pt) (d : R) : 0 <= d -> (norm v < d <-> vx v * vx v + vy v * vy v < d * d).
Proof. intro. rewrite <- norm_sq. pose proof (norm_nonneg v). rewrite sq_lt_iff; tauto. Qed.
Lemma norm_gt_iff (v : pt) (d : R) : 0 <= d -> (d < norm v <-> d * d < vx v * vx v + vy v * vy v).
Proof. intro. rewrite <- norm_sq. pose proof (norm_nonneg v). rewrite sq_lt_iff; tauto. Qed.
Lemma norm_ge_iff (v : pt) (d : R) : 0 <= d -> (d <= norm v <-> d * d <= vx v * vx v + vy v * vy v).
Proof. intro. rewrite <- norm_sq. pose proof (norm_nonneg v). rewrite sq_le_iff; tauto. Qed.
Lemma norm_eq (v w : pt) : vx v * vx v + vy v * vy v = vx w * vx w + vy w * vy w -> norm v = norm w.
Proof. intro H. unfold norm. rewrite H; auto. Qed.

Lemma cauchy (v w : pt) : pdot v w <= norm v * norm w.
Proof.
  pose proof (norm_nonneg v). pose proof (norm_nonneg w).
  pose proof (norm_sq v). pose proof (norm_sq w).
  destruct (Rle_lt_dec (pdot v w) 0) as [Hd|Hd]; [nra|].
  apply sq_le_iff; try lra; [nra|].
  replace (norm v * norm w * (norm v * norm w)) with ((norm v * norm v) * (norm w * norm w)) by ring.
  rewrite H1, H2. ug.
  assert (0 <= (vx v * vy w - vy v * vx w) * (vx v * vy w - vy v * vx w)) by apply Rle_0_sqr.
  lra.
Qed.
Lemma norm_triangle (v w : pt) : norm (padd v w) <= norm v + norm w.
Proof.
  pose proof (norm_nonneg v). pose proof (norm_nonneg w). pose proof (cauchy v w) as Hc.
  apply norm_le_iff; [lra|].
  pose proof (norm_sq v). pose proof (norm_sq w). ug. nra.
Qed.
Lemma dist_triangle (a b c : pt) : dist a c <= dist a b + dist b c.
Proof.
  unfold dist. replace (psub a c) with (padd (psub a b) (psub b c)).
  - apply norm_triangle.
  - ug. vext; ring.
Qed.
Lemma dist_sym (a b : pt) : dist a b = dist b a.
Proof. unfold dist. apply norm_eq. ug. ring. Qed.
Lemma dist_self (a : pt) : dist a a = 0.
Proof. unfold dist. apply norm_zero. ug. vext; ring. Qed.
Lemma dist_nonneg (a b : pt) : 0 <= dist a b. Proof. apply norm_nonneg. Qed.
Lemma dist_zero (a b : pt) : dist a b = 0 <-> a = b.
Proof.
  unfold dist. rewrite norm_zero. split; intro H.
  - unfold psub, porigin in H. injection H; intros. vext; lra.
  - subst; ug; vext; ring.
Qed.

(** ** C01 *)
Lemma cos_sin_deg_periodic (d : R) (k : Z) : cos_sin_deg (d + 360 * IZR k) = cos_sin_deg d.
Proof.
  rewrite !cos_sin_deg_R.
  replace ((d + 360 * IZR k) * PI / 180) with (d * PI / 180 + 2 * IZR k * PI) by field.
  rewrite cos_period_Z, sin_period_Z; auto.
Qed.
Lemma cos_sin_deg_unit (d : R) :
  fst (cos_sin_deg d) * fst (cos_sin_deg d) + snd (cos_sin_deg d) * snd (cos_sin_deg d) = 1.
Proof. rewrite cos_sin_deg_R; cbn [fst snd]. pose proof (sin_cos_sq (d * PI / 180)). lra. Qed.
Lemma cos_sin_deg_m270 : cos_sin_deg (-270) = (0, 1).
Proof.
  rewrite cos_sin_deg_R. replace (-270 * PI / 180) with (PI / 2 + 2 * IZR (-1) * PI) by (cbn; field).
  rewrite cos_period_Z, sin_period_Z, cos_PI2, sin_PI2; auto.
Qed.

(** ** C02 *)
Lemma polar_450 : angle (vec_polar 450 2) = 90.
Proof.
  rewrite vec_polar_R, angle_R; cbn [vx vy].
  replace (450 * PI / 180) with (PI / 2 + 2 * IZR 1 * PI) by (cbn; field).
  rewrite cos_period_Z, sin_period_Z, cos_PI2, sin_PI2. unfold Ratan2.
  destruct (Rlt_dec 0 (0 * 2)); [lra|]. destruct (Rlt_dec (0*2) 0); [lra|].
  destruct (Rlt_dec 0 (1*2)); [|lra]. field. pose proof PI_pos; lra.
Qed.

(** ** C03, C04 *)
Lemma angle_to_multiple (a b : pt) : a <> porigin -> b <> porigin ->
  exists k, 0 < k /\ rotated a (angle_to a b) = pscale k b.
Proof.
  intros Ha Hb. pose proof (norm_pos a Ha). pose proof (norm_pos b Hb).
  exists (norm a / norm b). split; [apply Rdiv_lt_0_compat; auto|].
  pose proof (angle_to_rotates a b Ha Hb) as H1.
  rewrite <- (norm_vlength a), <- (norm_vlength b) in H1. unfold vscale in H1; rnum.
  apply mkV_inj in H1; destruct H1 as [H3 H2]. unfold pscale; vext.
  - apply (Rmult_eq_reg_r (norm b)); [|lra]. rewrite H3. field; lra.
  - apply (Rmult_eq_reg_r (norm b)); [|lra]. rewrite H2. field; lra.
Qed.
Lemma angle_to_range_bad : exists a b : pt,
  a <> porigin /\ b <> porigin /\ ~ (-180 < angle_to a b <= 180).
Proof.
  exists (mkV (-1) (-1)), (mkV (-1) 1). unfold porigin. repeat split.
  - intro H; injection H; lra.
  - intro H; injection H; lra.
  - rewrite angle_to_out_of_range. lra.
Qed.
Lemma angle_to_wide_range (a b : pt) : -360 < angle_to a b < 360.
Proof.
  unfold angle_to; rnum. pose proof (angle_range a). pose proof (angle_range b). lra.
Qed.

(** ** C05 *)
Lemma normalized_spec (E : R) (v : pt) : 0 <= E ->
  (norm v <= E -> normalized E v = Ok porigin) /\
  (E < norm v -> exists u k, normalized E v = Ok u /\ norm u = 1 /\ 0 < k /\ u = pscale k v).
Proof.
  intro HE. rewrite norm_vlength. split; intro H.
  - apply normalized_small; auto.
  - rewrite normalized_big by auto. eexists. exists (/ vlength v). split; [eauto|].
    split; [apply unit_length; lra|]. split; [apply Rinv_0_lt_compat; lra|].
    unfold pscale. vext; unfold Rdiv; ring.
Qed.
Lemma normalized_idem (E : R) (v u : pt) : 0 <= E < 1 ->
  normalized E v = Ok u -> normalized E u = Ok u.
Proof.
  intros HE H. destruct (Rle_lt_dec (vlength v) E) as [Hs|Hs].
  - rewrite normalized_small in H by auto. injection H; intros <-.
    apply normalized_small. replace (vlength (mkV 0 0)) with 0 by (symmetry; apply vlength_zero; auto). lra.
  - rewrite normalized_big in H by lra. injection H; intros <-.
    apply normalized_unit_id; auto. apply unit_length; lra.
Qed.
Lemma norm_34 : norm (mkV 3 4) = 5.
Proof. apply norm_unique; cbn; lra. Qed.
Lemma normalized_34 : normalized (/ 100000) (mkV 3 4) = Ok (mkV (3 / 5) (4 / 5)).
Proof.
  assert (H : vlength (mkV 3 4) = 5) by exact norm_34.
  rewrite normalized_big; rewrite ?H; auto; lra.
Qed.

(** ** C06 *)
Lemma scaled_to_spec (E r : R) (v : pt) : 0 <= E ->
  (norm v <= E -> scaled_to E v r = Ok porigin) /\
  (E < norm v -> exists w, scaled_to E v r = Ok w /\ norm w = Rabs r /\ w = pscale (r / norm v) v).
Proof.
  intro HE. split; intro H.
  - apply scaled_to_small; auto.
  - rewrite scaled_to_big by (auto; rewrite <- norm_vlength; auto).
    assert (Hw : mkV (vx v * (r / vlength v)) (vy v * (r / vlength v)) = pscale (r / norm v) v)
      by (unfold pscale; vext; change (norm v) with (vlength v); ring).
    exists (pscale (r / norm v) v). split; [f_equal; exact Hw|]. split; auto.
    rewrite norm_scale. unfold Rdiv. rewrite Rabs_mult, Rabs_inv, (Rabs_pos_eq (norm v)) by lra.
    field; lra.
Qed.

Lemma length2_norm (v : pt) : length2 v = norm v * norm v.
Proof. rewrite norm_sq; reflexivity. Qed.

Lemma pscale_1 (v : pt) : pscale 1 v = v.
Proof. unfold pscale; vext; ring. Qed.

Lemma clamped_spec (E : R) (v : pt) (lo hi : option R) : 0 <= E -> E < norm v ->
  (forall a, lo = Some a -> 0 <= a) -> (forall b, hi = Some b -> 0 <= b) ->
  (forall a b, lo = Some a -> hi = Some b -> a <= b) ->
  exists w k, clamped E v lo hi = Ok w /\ 0 <= k /\ w = pscale k v /\
    (forall a, lo = Some a -> a <= norm w) /\ (forall b, hi = Some b -> norm w <= b) /\
    ((forall a, lo = Some a -> a <= norm v) -> (forall b, hi = Some b -> norm v <= b) -> w = v).
Proof.
  intros HE Hv Hlo Hhi Hb. pose proof (norm_nonneg v) as Hn.
  assert (Hs : forall r, 0 <= r -> exists w k, scaled_to E v r = Ok w /\ 0 <= k /\ w = pscale k v /\ norm w = r).
  { intros r Hr. destruct (scaled_to_spec E r v HE) as [_ Hs]. destruct (Hs Hv) as (w & H1 & H2 & H3).
    exists w, (r / norm v). repeat split; auto.
    - apply Rmult_le_pos; auto. left; apply Rinv_0_lt_compat; lra.
    - rewrite H2; apply Rabs_pos_eq; auto. }
  unfold clamped, pypow2. rewrite length2_norm; rnum. cbn [bind andb].
  assert (Hbad : match lo with Some a => match hi with Some b => Rltb b a | None => false end | None => false end = false).
  { destruct lo as [a|], hi as [b|]; auto. apply Rltb_false. apply Hb; auto. }
  rewrite Hbad.
  assert (Hup : lo = None \/ (exists a, lo = Some a /\ a <= norm v) ->
    exists w k,
    match hi with Some b => if Rltb (b * b) (norm v * norm v) then scaled_to E v b else Ok v | None => Ok v end = Ok w
    /\ 0 <= k /\ w = pscale k v /\
    (forall a, lo = Some a -> a <= norm w) /\ (forall b, hi = Some b -> norm w <= b) /\
    ((forall a, lo = Some a -> a <= norm v) -> (forall b, hi = Some b -> norm v <= b) -> w = v)).
  { intro Hl.
    assert (Hl' : forall a, lo = Some a -> a <= norm v).
    { intros a ->. destruct Hl as [|[a' [Ha H]]]; [discriminate|]. injection Ha; intros <-; auto. }
    destruct hi as [b|].
    - pose proof (Hhi b eq_refl) as Hb0.
      destruct (Rltb_spec (b * b) (norm v * norm v)) as [Hlt|Hge].
      + destruct (Hs b Hb0) as (w & k & H1 & H2 & H3 & H4).
        exists w, k. rewrite H4. repeat split; auto.
        * intros b' Hb'; injection Hb'; lra.
        * intros _ H5. pose proof (H5 b eq_refl). exfalso; apply sq_lt_inv in Hlt; lra.
      + exists v, 1. rewrite pscale_1. repeat split; auto; [lra|].
        intros b' Hb'; injection Hb'; intros <-. apply sq_le_inv in Hge; lra.
    - exists v, 1. rewrite pscale_1. repeat split; auto; [lra|discriminate]. }
  destruct lo as [a|]; [|apply Hup; auto].
  pose proof (Hlo a eq_refl) as Ha0.
  destruct (Rltb_spec (norm v * norm v) (a * a)) as [Hlt|Hge].
  - destruct (Hs a Ha0) as (w & k & H1 & H2 & H3 & H4).
    exists w, k. rewrite H4. repeat split; auto.
    + intros a' Ha'; injection Ha'; lra.
    + intros H5 _. pose proof (H5 a eq_refl). exfalso; apply sq_lt_inv in Hlt; lra.
  - apply Hup. right; exists a; split; auto. apply sq_le_inv in Hge; lra.
Qed.

Lemma dist_origin (v : pt) : dist v porigin = norm v.
Proof. apply norm_eq; ug; ring. Qed.

Lemma clamped_small (E : R) (v : pt) (lo hi : option R) : norm v <= E ->
  (forall a b, lo = Some a -> hi = Some b -> a <= b) ->
  exists w, clamped E v lo hi = Ok w /\ dist v w <= E /\ (w = v \/ w = porigin).
Proof.
  intros Hv Hb. pose proof (norm_nonneg v).
  assert (Hs : forall r, scaled_to E v r = Ok porigin) by (intro; apply scaled_to_small; auto).
  unfold clamped, pypow2; rnum; cbn [bind andb].
  assert (Hbad : match lo with Some a => match hi with Some b => Rltb b a | None => false end | None => false end = false).
  { destruct lo as [a|], hi as [b|]; auto. apply Rltb_false. apply Hb; auto. }
  rewrite Hbad.
  assert (Hn : exists w, Ok porigin = Ok w /\ dist v w <= E /\ (w = v \/ w = porigin))
    by (exists porigin; rewrite dist_origin; auto).
  assert (Hi : exists w, Ok v = Ok w /\ dist v w <= E /\ (w = v \/ w = porigin))
    by (exists v; rewrite dist_self; repeat split; auto; lra).
  destruct lo as [a|], hi as [b|]; rewrite ?Hs;
    repeat match goal with |- context[if ?c then _ else _] => destruct c end; auto.
Qed.

Lemma scaled_to_no_err (E : R) (v : pt) r e : 0 <= E -> scaled_to E v r <> Err e.
Proof.
  intro HE. destruct (scaled_to_spec E r v HE) as [H1 H2].
  destruct (Rle_lt_dec (norm v) E) as [H|H].
  - rewrite H1 by auto; discriminate.
  - destruct (H2 H) as (w & -> & _); discriminate.
Qed.
Lemma scaled_to_not_value_error (E : R) (v : pt) r : scaled_to E v r <> Err ValueError.
Proof.
  unfold scaled_to, pydiv. rnum.
  destruct (Rltb _ _); [|discriminate]. destruct (Reqb _ _); discriminate.
Qed.

Lemma clamped_bad (E : R) (v : pt) (lo hi : option R) :
  clamped E v lo hi = Err ValueError <-> exists a b, lo = Some a /\ hi = Some b /\ b < a.
Proof.
  split.
  - unfold clamped, pypow2; rnum; cbn [bind andb]. pose proof (scaled_to_not_value_error E v) as Hs.
    destruct lo as [a|], hi as [b|]; intro H;
    repeat match type of H with context[if ?c then _ else _] => destruct c eqn:? end;
    try discriminate; try (exfalso; eapply Hs; eassumption).
    rbool. eauto 6.
  - intros (a & b & -> & -> & H). unfold clamped, pypow2; rnum.
    destruct (Rltb_spec b a); auto; lra.
Qed.
Lemma clamped_34 : exists w, clamped (/ 100000) (mkV 3 4) (Some 1) (Some 2) = Ok w /\ norm w <= 2.
Proof.
  destruct (clamped_spec (/100000) (mkV 3 4) (Some 1) (Some 2)) as (w & k & H1 & _ & _ & _ & H2 & _).
  - lra.
  - rewrite norm_34; lra.
  - intros a Ha; injection Ha; lra.
  - intros a Ha; injection Ha; lra.
  - intros a b Ha Hb; injection Ha; injection Hb; lra.
  - exists w; auto.
Qed.
Lemma clamped_reverses : exists (E : R) (v w : pt) (lo hi : option R) (k : R),
  0 < E /\ E < norm v /\ clamped E v lo hi = Ok w /\ k < 0 /\ w = pscale k v.
Proof.
  exists (/ 100000), (mkV 3 4), (pscale (-1 / 5) (mkV 3 4)), None, (Some (-1)), (-1/5).
  rewrite norm_34. split; [lra|]. split; [lra|]. split; [|split; [lra|auto]].
  unfold clamped, pypow2; rnum. cbn [bind andb].
  destruct (Rltb_spec (-1 * -1) (length2 (mkV 3 4))) as [_|H].
  - destruct (scaled_to_spec (/100000) (-1) (mkV 3 4)) as [_ H]; [lra|].
    destruct H as (w & H1 & _ & H2); [rewrite norm_34; lra|].
    rewrite H1, H2, norm_34. auto.
  - rewrite length2_norm, norm_34 in H. lra.
Qed.

(** ** C08 *)
Lemma norm_gt_sq (E : R) (v : pt) : 0 <= E -> (norm v <= E <-> length2 v <= E * E).
Proof. intro. rewrite norm_le_iff by auto. reflexivity. Qed.

Lemma vec_project_big (E : R) (a b : pt) : E * E < length2 a ->
  vec_project E a b = Ok (pscale (pdot a b / length2 a) a).
Proof.
  intro H. unfold vec_project; rnum.
  destruct (Rltb_spec (E * E) (length2 a)); [|lra].
  rewrite pydiv_R by nra. cbn [bind andb]. f_equal. unfold pscale, pdot, dot; rnum. vext; ring.
Qed.
Lemma vec_project_small (E : R) (a b : pt) : length2 a <= E * E ->
  vec_project E a b = Ok porigin.
Proof.
  intro H. unfold vec_project; rnum.
  destruct (Rltb_spec (E * E) (length2 a)); [lra|]. rewrite vnull_R; auto.
Qed.

Lemma project_spec (E : R) (a b : pt) : 0 <= E ->
  (norm a <= E -> vec_project E a b = Ok porigin) /\
  (E < norm a -> exists p k, vec_project E a b = Ok p /\ p = pscale k a /\
     pdot a (psub b p) = 0 /\ vec_project E a p = Ok p).
Proof.
  intro HE. split; intro H.
  - apply vec_project_small. apply norm_gt_sq; auto.
  - assert (Hl : E * E < length2 a).
    { apply Rnot_le_lt. intro H1. apply norm_gt_sq in H1; lra. }
    assert (Hp : 0 < length2 a) by nra.
    rewrite vec_project_big by auto. do 2 eexists. split; [eauto|]. split; [eauto|].
    rewrite length2_R in *.
    split.
    + ug. field. lra.
    + rewrite vec_project_big by auto. f_equal. rewrite length2_R. ug. vext; field; lra.
Qed.

Lemma vec_reflect_big (E : R) (v w : pt) : E * E < length2 w ->
  vec_reflect E v w = Ok (psub (pscale (2 * pdot v w / length2 w) w) v).
Proof.
  intro H. unfold vec_reflect. fold (length2 w). rnum.
  change (vx w * vx w + vy w * vy w) with (length2 w).
  destruct (Rltb_spec (E * E) (length2 w)); [|lra].
  rewrite pydiv_R by nra. cbn [bind andb]. f_equal. ug. vext; ring.
Qed.
Lemma reflect_spec (E : R) (v w : pt) : 0 <= E ->
  (norm w <= E -> vec_reflect E v w = Ok porigin) /\
  (E < norm w -> exists m, vec_reflect E v w = Ok m /\ norm m = norm v /\
     pdot w m = pdot w v /\ pcross w m = - pcross w v /\ vec_reflect E m w = Ok v).
Proof.
  intro HE. split; intro H.
  - apply norm_gt_sq in H; auto. unfold vec_reflect; rnum.
    change (vx w * vx w + vy w * vy w) with (length2 w).
    destruct (Rltb_spec (E * E) (length2 w)); [lra|]. rewrite vnull_R; auto.
  - assert (Hl : E * E < length2 w).
    { apply Rnot_le_lt. intro H1. apply norm_gt_sq in H1; lra. }
    assert (Hp : 0 < length2 w) by nra.
    rewrite vec_reflect_big by auto. eexists; split; [eauto|].
    rewrite length2_R in *.
    repeat split.
    + apply norm_eq. ug. field. lra.
    + ug. field. lra.
    + ug. field. lra.
    + rewrite vec_reflect_big by auto. f_equal. rewrite length2_R. ug. vext; field; lra.
Qed.
Lemma project_reflect_ex : vec_project (/ 100000) (mkV 2 0) (mkV 3 4) = Ok (mkV 3 0) /\
                 vec_reflect (/ 100000) (mkV 3 4) (mkV 2 0) = Ok (mkV 3 (-4)).
Proof.
  rewrite vec_project_big, vec_reflect_big by (rewrite length2_R; cbn [vx vy]; lra).
  rewrite length2_R; ug. split; f_equal; vext; field.
Qed.

(** ** C09 *)
Lemma rotated_sub (v w : pt) t : psub (rotated v t) (rotated w t) = rotated (psub v w) t.
Proof. rewrite !rotated_R; ug. vext; ring. Qed.
Lemma rotated_isometry (v w : pt) (t : R) :
  pdot (rotated v t) (rotated w t) = pdot v w /\
  pcross (rotated v t) (rotated w t) = pcross v w /\
  dist (rotated v t) (rotated w t) = dist v w.
Proof.
  split; [apply rotated_dot | split; [apply rotated_cross|]].
  unfold dist. rewrite rotated_sub. apply rotated_length.
Qed.
Lemma rotated_compose (v : pt) (s t : R) (k : Z) :
  rotated (rotated v s) t = rotated v (s + t) /\ rotated v (360 * IZR k) = v.
Proof. split; [apply rotated_add | apply rotated_turns]. Qed.
Lemma polar_rotated (t r : R) : vec_polar t r = rotated (mkV r 0) t.
Proof. rewrite vec_polar_R, rotated_R. cbn [vx vy]. vext; ring. Qed.

(** ** C10 *)
Lemma lerp_between (a b : pt) t : lerp a b t = between a b t.
Proof. unfold lerp; rnum; ug; vext; ring. Qed.
Lemma dist_between (a b : pt) t : dist a (between a b t) = Rabs t * dist a b.
Proof.
  unfold dist. rewrite <- norm_scale. apply norm_eq. ug. ring.
Qed.
Lemma lerp_spec (a b : pt) (t : R) :
  lerp a b t = between a b t /\ lerp a b 0 = a /\ lerp a b 1 = b /\
  lerp a b t = lerp b a (1 - t) /\ dist a (lerp a b t) = Rabs t * dist a b.
Proof.
  rewrite !lerp_between, dist_between. repeat split; ug; vext; ring.
Qed.
Lemma lerp_segment (a b : pt) (t : R) : 0 <= t <= 1 ->
  on_segment a b (lerp a b t) /\ dist a (lerp a b t) + dist (lerp a b t) b = dist a b.
Proof.
  intro Ht. split.
  - exists t; split; auto. apply lerp_between.
  - assert (H : lerp a b t = between b a (1 - t)) by (rewrite lerp_between; ug; vext; ring).
    rewrite H at 2. rewrite (dist_sym _ b), lerp_between, !dist_between, (dist_sym b a).
    rewrite !Rabs_pos_eq by lra. ring.
Qed.

(** ** C11 *)
Lemma vec_order (a b : pt) :
  (vec_lt a b = true <-> norm a < norm b) /\ (vec_le a b = true <-> norm a <= norm b) /\
  (vec_gt a b = true <-> norm a > norm b) /\ (vec_ge a b = true <-> norm a >= norm b).
Proof.
  pose proof (norm_nonneg a). pose proof (norm_nonneg b).
  unfold vec_lt, vec_le, vec_gt, vec_ge; rnum. rewrite !length2_norm.
  rewrite !Rltb_true, !Rleb_true, !sq_lt_iff, !sq_le_iff by auto. lra.
Qed.
Lemma vec_eqb_R (a b : pt) : vec_eqb a b = true <-> a = b.
Proof.
  unfold vec_eqb; rnum. rewrite andb_true_iff, !Reqb_true. split.
  - intros [H1 H2]. vext; auto.
  - intros ->; auto.
Qed.
Lemma vec_eqb_R_false (a b : pt) : vec_eqb a b = false <-> a <> b.
Proof. rewrite <- vec_eqb_R. destruct (vec_eqb a b); split; intros; congruence. Qed.
Lemma vec_neb_R (a b : pt) : vec_neb a b = negb (vec_eqb a b).
Proof. unfold vec_neb, vec_eqb. rewrite negb_andb; auto. Qed.
Lemma vec_equality (a b : pt) :
  (vec_eqb a b = true <-> a = b) /\ (vec_neb a b = true <-> a <> b) /\ vec_neb a b = negb (vec_eqb a b).
Proof.
  rewrite vec_neb_R. repeat split; try apply vec_eqb_R.
  - intro H. apply negb_true_iff in H. apply vec_eqb_R_false; auto.
  - intro H. apply negb_true_iff. apply vec_eqb_R_false; auto.
Qed.

(** ** C12 *)
Lemma vec_almost_R (E : R) (a b : pt) : 0 <= E -> (vec_almost_equals E a b = true <-> dist a b < E).
Proof.
  intro HE. unfold vec_almost_equals; rnum. rewrite Rltb_true. unfold dist. rewrite norm_lt_iff by auto.
  ug. reflexivity.
Qed.
Lemma is_null_R (E : R) (a : pt) : 0 <= E -> (is_null E a = true <-> norm a < E).
Proof.
  intro HE. unfold is_null; rnum. rewrite Rltb_true, norm_lt_iff by auto. reflexivity.
Qed.
Lemma almost_equals_spec (E : R) (a b : pt) : 0 < E ->
  (vec_almost_equals E a b = true <-> dist a b < E) /\
  vec_almost_equals E a a = true /\
  vec_almost_equals E a b = vec_almost_equals E b a /\
  (is_null E a = true <-> norm a < E).
Proof.
  intro HE. assert (0 <= E) by lra.
  split; [apply vec_almost_R; auto|]. split; [apply vec_almost_R; auto; rewrite dist_self; auto|].
  split; [|apply is_null_R; auto].
  apply eq_true_iff_eq. rewrite !vec_almost_R by auto. rewrite dist_sym. tauto.
Qed.
Lemma almost_equals_two (E : R) (a b c : pt) : 0 < E ->
  vec_almost_equals E a c = true -> vec_almost_equals E b c = true -> dist a b < 2 * E.
Proof.
  intros HE H1 H2. apply vec_almost_R in H1; [|lra]. apply vec_almost_R in H2; [|lra].
  pose proof (dist_triangle a c b). rewrite (dist_sym c b) in H. lra.
Qed.
Lemma almost_equals_ex : vec_almost_equals 1 (mkV 0 0) (mkV (1/2) (1/2)) = true /\
                 vec_almost_equals 1 (mkV 0 0) (mkV 1 0) = false.
Proof.
  unfold vec_almost_equals; rnum. split; rbool; lra.
Qed.
