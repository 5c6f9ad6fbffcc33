(** * Property C118: angles of vectors on doubles *)
From Coq Require Import ZArith List Bool Reals Lra Lia Floats SpecFloat.
From Flocq Require Import Core IEEE754.PrimFloat IEEE754.BinarySingleNaN.
From Verif Require Import Num NumFloat Vec OrdLaws SpecGeom RBase VecFacts VecFacts2 FloatFacts FloatFacts2 FloatVec SpecExact FloatExact FloatErr FloatErr2 FloatErr3 SpecRot RotFacts IdealLib SpecScale ScaleF SpecAngle PropErr PropRot PropScale.
Local Open Scope R_scope.

Lemma pi_range : 3 < PI <= 4. Proof. pose proof PI2_3_2. pose proof PI_4. lra. Qed.
Lemma per_degree : 45 <= 180 / PI < 60.
Proof.
  destruct pi_range as [P1 P2]. split.
  - apply Rmult_le_reg_r with PI; [lra|]. unfold Rdiv. rewrite Rmult_assoc, Rinv_l by lra. lra.
  - apply Rmult_lt_reg_r with PI; [lra|]. unfold Rdiv. rewrite Rmult_assoc, Rinv_l by lra. lra.
Qed.

(** The angle is accurate, and on the side of the sign of the y component. *)
Theorem C118_angle : forall (L : FloatLib) (v : vec PrimFloat.float), angle_ok L -> finite_vec v -> 0 < norm (vecR v) -> let N := FNum L in
  exists t, is_arg v t /\ apx (angle v) (t * (180 / PI)) (6 * bpow radix2 (-53) * Rabs (t * (180 / PI)) + 62 * bpow radix2 (-1075)).
Proof.
  intros L v HL Fv Hn N. destruct (ao_atan2 L HL v Fv Hn) as (t & A & [F1 H1]). exists t. split; [exact A|].
  unfold angle. change (natan2 (vy v) (vx v)) with (fl_atan2 L (vy v) (vx v)). set (r := fl_atan2 L (vy v) (vx v)) in *. change (ndegrees r) with (fl_degrees L r).
  fold runit in *. change (bpow radix2 (-1075)) with tiny in *. destruct A as ((A1 & A2) & _). destruct pi_range as [P1 P2]. destruct per_degree as [D1 D2]. pose proof runit_pos as U0. pose proof runit_small as U1. pose proof tiny_pos as T0. pose proof tiny_small as T1.
  assert (BT : Rabs t <= 4) by (apply Rabs_le; lra). pose proof (Rabs_pos t) as T2. assert (UT : runit * Rabs t <= / 1048576 * Rabs t) by (apply Rmult_le_compat_r; lra). assert (UT0 : 0 <= runit * Rabs t) by (apply Rmult_le_pos; lra).
  assert (BR : Rabs (toR r) <= Rabs t + (2 * runit * Rabs t + tiny)) by (pose proof (Rabs_triang (toR r - t) t) as K; replace (toR r - t + t) with (toR r) in K by ring; lra).
  destruct (ao_degrees L HL r F1) as [F2 H2]; [lra|]. fold runit in H2. change (bpow radix2 (-1075)) with tiny in H2. split; [exact F2|]. set (D := 180 / PI) in *.
  rewrite !Rabs_mult, (Rabs_pos_eq D) in H2 |- * by lra. 
  assert (H3 : Rabs (toR r * D - t * D) <= (2 * runit * Rabs t + tiny) * D). { replace (toR r * D - t * D) with ((toR r - t) * D) by ring. rewrite Rabs_mult, (Rabs_pos_eq D) by lra. apply Rmult_le_compat_r; lra. }
  pose proof (Rabs_triang (toR (fl_degrees L r) - toR r * D) (toR r * D - t * D)) as K. replace (toR (fl_degrees L r) - toR r * D + (toR r * D - t * D)) with (toR (fl_degrees L r) - t * D) in K by ring.
  set (a := Rabs t) in *. set (b := Rabs (toR r)) in *. clearbody a b D.
  assert (K2 : 3 * runit * (b * D) <= 3 * runit * ((a + (2 * runit * a + tiny)) * D)) by (apply Rmult_le_compat_l; [lra|]; apply Rmult_le_compat_r; lra).
  assert (E1 : 0 <= runit * a * D) by (apply Rmult_le_pos; lra). assert (E2 : runit * (runit * a * D) <= / 1048576 * (runit * a * D)) by (apply Rmult_le_compat_r; lra).
  assert (E3 : tiny * D <= tiny * 60) by (apply Rmult_le_compat_l; lra). assert (E3' : 0 <= tiny * D) by (apply Rmult_le_pos; lra). assert (E4 : runit * (tiny * D) <= / 1048576 * (tiny * D)) by (apply Rmult_le_compat_r; lra).
  replace (3 * runit * ((a + (2 * runit * a + tiny)) * D)) with (3 * (runit * a * D) + 6 * (runit * (runit * a * D)) + 3 * (runit * (tiny * D))) in K2 by ring.
  replace ((2 * runit * a + tiny) * D) with (2 * (runit * a * D) + tiny * D) in H3 by ring. replace (6 * runit * (a * D)) with (6 * (runit * a * D)) by ring. lra.
Qed.
Print Assumptions C118_angle.

(** So it is within (-180, 180] up to rounding, -180 included. *)
Theorem C118_range : forall (L : FloatLib) (v : vec PrimFloat.float), angle_ok L -> finite_vec v -> 0 < norm (vecR v) -> let N := FNum L in
  Rabs (toR (angle v)) <= 180 + 1081 * bpow radix2 (-53) /\
  (PrimFloat.get_sign (vy v) = true -> toR (angle v) <= 62 * bpow radix2 (-1075)) /\ (PrimFloat.get_sign (vy v) = false -> - (62 * bpow radix2 (-1075)) <= toR (angle v)).
Proof.
  intros L v HL Fv Hn N. destruct (C118_angle L v HL Fv Hn) as (t & A & [F H]). fold N in F, H. destruct A as ((A1 & A2) & _ & A3 & A4).
  fold runit in *. change (bpow radix2 (-1075)) with tiny in *. destruct pi_range as [P1 P2]. destruct per_degree as [D1 D2]. pose proof runit_pos as U0. pose proof runit_small as U1. pose proof tiny_pos as T0. pose proof tiny_runit as T1.
  assert (PD : PI * (180 / PI) = 180) by (field; lra). set (D := 180 / PI) in *.
  assert (BT : Rabs (t * D) <= 180). { rewrite Rabs_mult, (Rabs_pos_eq D), <- PD by lra. apply Rmult_le_compat_r; [lra|]. apply Rabs_le. lra. }
  assert (UT : 6 * runit * Rabs (t * D) <= 6 * runit * 180) by (apply Rmult_le_compat_l; lra). pose proof (Rabs_pos (t * D)) as AP.
  assert (US : 6 * runit * Rabs (t * D) <= Rabs (t * D)) by (rewrite <- (Rmult_1_l (Rabs (t * D))) at 2; apply Rmult_le_compat_r; lra).
  split; [|split].
  - pose proof (Rabs_triang (toR (angle v) - t * D) (t * D)) as K. replace (toR (angle v) - t * D + t * D) with (toR (angle v)) in K by ring. lra.
  - intro S0. specialize (A3 S0). assert (TD : t * D <= 0) by (assert (0 <= - t * D) by (apply Rmult_le_pos; lra); lra). rewrite (Rabs_left1 (t * D)) in * by lra. apply abs_le2 in H. lra.
  - intro S0. specialize (A4 S0). assert (TD : 0 <= t * D) by (apply Rmult_le_pos; lra). rewrite (Rabs_pos_eq (t * D)) in * by lra. apply abs_le2 in H. lra.
Qed.
Print Assumptions C118_range.

(** A point of a circle moves by at most twice the change of the angle. *)
Definition on_circle (n a : R) : pt := mkV (n * cos a) (n * sin a).
Lemma circle_lip n a b : 0 <= n -> dist (on_circle n a) (on_circle n b) <= 2 * n * Rabs (a - b).
Proof.
  intro Hn. pose proof (cos_lip a b) as C. pose proof (sin_lip a b) as S1. set (d := Rabs (a - b)) in *. assert (D0 : 0 <= d) by apply Rabs_pos. clearbody d. unfold dist. assert (ND : 0 <= n * d) by (apply Rmult_le_pos; lra).
  apply norm_le_iff; [lra|]. unfold psub, on_circle. cbn [vx vy].
  assert (E1 : Rabs (n * cos a - n * cos b) <= n * d) by (replace (n * cos a - n * cos b) with (n * (cos a - cos b)) by ring; rewrite Rabs_mult, (Rabs_pos_eq n) by lra; apply Rmult_le_compat_l; lra).
  assert (E2 : Rabs (n * sin a - n * sin b) <= n * d) by (replace (n * sin a - n * sin b) with (n * (sin a - sin b)) by ring; rewrite Rabs_mult, (Rabs_pos_eq n) by lra; apply Rmult_le_compat_l; lra).
  apply abs_le2 in E1, E2. set (x := n * cos a - n * cos b) in *. set (y := n * sin a - n * sin b) in *. clearbody x y. set (m := n * d) in *. replace (2 * n * d) with (2 * m) by (unfold m; ring). clearbody m. nra.
Qed.

Lemma angle_rad (L : FloatLib) v : angle_ok L -> finite_vec v -> 0 < norm (vecR v) -> let N := FNum L in finite (angle v) /\ Rabs (toR (angle v)) <= 181 /\
  exists t, vecR v = on_circle (norm (vecR v)) t /\ Rabs (deg (toR (angle v)) - t) <= 25 * runit.
Proof.
  intros HL Fv Hn N. destruct (C118_angle L v HL Fv Hn) as (t & A & [F H]). destruct (C118_range L v HL Fv Hn) as [R1 _]. fold N in F, H, R1. destruct A as ((A1 & A2) & A3 & _). split; [exact F|].
  fold runit in *. change (bpow radix2 (-1075)) with tiny in *. destruct pi_range as [P1 P2]. destruct per_degree as [D1 D2]. pose proof runit_pos as U0. pose proof runit_small as U1. pose proof tiny_pos as T0. pose proof tiny_runit as T1.
  split; [lra|]. exists t. split; [exact A3|]. assert (BT : Rabs t <= 4) by (apply Rabs_le; lra).
  assert (E : deg (toR (angle v)) - t = (toR (angle v) - t * (180 / PI)) * (PI / 180)) by (unfold deg; field; lra). rewrite E, Rabs_mult, (Rabs_pos_eq (PI / 180)) by lra.
  eapply Rle_trans; [apply Rmult_le_compat_r; [lra|exact H]|]. rewrite Rabs_mult, (Rabs_pos_eq (180 / PI)) by lra.
  replace ((6 * runit * (Rabs t * (180 / PI)) + 62 * tiny) * (PI / 180)) with (6 * (runit * Rabs t) + 62 * (tiny * (PI / 180))) by (field; lra).
  assert (runit * Rabs t <= runit * 4) by (apply Rmult_le_compat_l; lra). assert (tiny * (PI / 180) <= tiny * 1) by (apply Rmult_le_compat_l; lra). lra.
Qed.

(** The exact direction of the reported angle is the direction of the vector. *)
Theorem C118_direction : forall (L : FloatLib) (v : vec PrimFloat.float), angle_ok L -> finite_vec v -> 0 < norm (vecR v) -> let N := FNum L in
  let a := deg (toR (angle v)) in dist (mkV (norm (vecR v) * cos a) (norm (vecR v) * sin a)) (vecR v) <= 50 * bpow radix2 (-53) * norm (vecR v).
Proof.
  intros L v HL Fv Hn N a. destruct (angle_rad L v HL Fv Hn) as (F & _ & t & E & H). fold N in F, H. fold a in H. rewrite E at 3. fold (on_circle (norm (vecR v)) a).
  eapply Rle_trans; [apply circle_lip; lra|]. fold runit. replace (50 * runit * norm (vecR v)) with (2 * norm (vecR v) * (25 * runit)) by ring. apply Rmult_le_compat_l; lra.
Qed.
Print Assumptions C118_direction.

(** Rotating by [angle_to] exactly takes the direction of one vector to the other. *)
Theorem C118_angle_to : forall (L : FloatLib) (v o : vec PrimFloat.float), angle_ok L -> finite_vec v -> finite_vec o -> 0 < norm (vecR v) -> 0 < norm (vecR o) -> let N := FNum L in
  finite (angle_to v o) /\ dist (prot (toR (angle_to v o)) (vecR v)) (pscale (norm (vecR v) / norm (vecR o)) (vecR o)) <= 118 * bpow radix2 (-53) * norm (vecR v).
Proof.
  intros L v o HL Fv Fo Hv Ho N. destruct (angle_rad L v HL Fv Hv) as (F1 & B1 & t & E1 & H1). destruct (angle_rad L o HL Fo Ho) as (F2 & B2 & s & E2 & H2). fold N in F1, B1, H1, F2, B2, H2.
  unfold angle_to. change (angle o - angle v)%num with (angle o - angle v)%float. set (x := angle v) in *. set (y := angle o) in *.
  assert (BD : Rabs (toR y - toR x) <= 362) by (apply abs_le2 in B1, B2; apply Rabs_le; lra).
  destruct (fsub_toR y x F2 F1) as [F V]; [apply big; lra|]. split; [exact F|].
  assert (H3 : Rabs (deg (toR (y - x)%float) - (s - t)) <= 59 * runit).
  { rewrite V. pose proof (frnd_err (toR y - toR x)) as K. set (z := frnd (toR y - toR x)) in *. clearbody z. pose proof runit_pos as U0. pose proof tiny_runit as T1. destruct pi_range as [P1 P2].
    assert (K1 : Rabs (z - (toR y - toR x)) <= 363 * runit) by (eapply Rle_trans; [exact K|]; assert (runit * Rabs (toR y - toR x) <= runit * 362) by (apply Rmult_le_compat_l; lra); lra).
    pose proof (deg_lip _ _ _ K1) as K2. assert (DS : deg (toR y - toR x) = deg (toR y) - deg (toR x)) by (unfold deg; field). rewrite DS in K2. apply abs_le2 in K2, H1, H2. apply Rabs_le. lra. }
  assert (Q1 : prot (toR (y - x)%float) (vecR v) = on_circle (norm (vecR v)) (deg (toR (y - x)%float) + t)).
  { rewrite E1 at 1. unfold prot, on_circle. cbn [vx vy]. rewrite cos_plus, sin_plus. f_equal; ring. }
  assert (Q2 : pscale (norm (vecR v) / norm (vecR o)) (vecR o) = on_circle (norm (vecR v)) s). { rewrite E2 at 2. unfold pscale, on_circle. cbn [vx vy]. f_equal; field; lra. }
  rewrite Q1, Q2. eapply Rle_trans; [apply circle_lip; lra|]. fold runit. replace (118 * runit * norm (vecR v)) with (2 * norm (vecR v) * (59 * runit)) by ring. apply Rmult_le_compat_l; [lra|].
  replace (deg (toR (y - x)%float) + t - s) with (deg (toR (y - x)%float) - (s - t)) by ring. exact H3.
Qed.
Print Assumptions C118_angle_to.

(** [v.rotated(v.angle_to(o))] points in the direction of [o]. *)
Theorem C118_turn : forall (L : FloatLib) (v o : vec PrimFloat.float), trig_ok L -> angle_ok L -> mid_vec v -> finite_vec o -> 0 < norm (vecR v) -> 0 < norm (vecR o) -> let N := FNum L in
  close_vec (rotated v (angle_to v o)) (pscale (norm (vecR v) / norm (vecR o)) (vecR o)) (250 * bpow radix2 (-53) * norm (vecR v) + 6 * bpow radix2 (-1075)).
Proof.
  intros L v o HT HL Mv Fo Hv Ho N. destruct (C118_angle_to L v o HL (proj1 Mv) Fo Hv Ho) as [F H]. fold N in F, H. destruct (C114_rotated L v _ HT F Mv) as [F2 H2]. fold N in F2, H2. split; [exact F2|].
  eapply Rle_trans; [apply (dist_triangle _ (prot (toR (angle_to v o)) (vecR v)))|]. lra.
Qed.
Print Assumptions C118_turn.

(** [Vec2.polar(v.angle, v.length)] is [v]. *)
Theorem C118_polar : forall (L : FloatLib) (v : vec PrimFloat.float), sqrt_ok L -> trig_ok L -> angle_ok L -> finite_vec v -> bpow radix2 (-400) <= norm (vecR v) <= bpow radix2 400 -> let N := FNum L in
  close_vec (vec_polar (angle v) (vlength v)) (vecR v) (143 * bpow radix2 (-53) * norm (vecR v)).
Proof.
  intros L v HS HT HL Fv Hn N. assert (N0 : 0 < norm (vecR v)) by (pose proof (bpow_gt_0 radix2 (-400)); lra). pose proof (C118_direction L v HL Fv N0) as H1. destruct (angle_rad L v HL Fv N0) as (F1 & _). cbv zeta in H1. fold N in F1, H1.
  pose proof (length_rel L HS v Fv Hn) as KL. fold N in KL. destruct KL as [F2 K2]. fold runit in *. set (n := norm (vecR v)) in *. set (l := vlength v) in *.
  pose proof runit_pos as U0. pose proof runit_small as U1. pose proof tiny_pos as T0. assert (UN : 0 <= runit * n) by (apply Rmult_le_pos; lra). assert (UN1 : runit * n <= / 1048576 * n) by (apply Rmult_le_compat_r; lra).
  assert (BL : 0 <= toR l <= n + 7 * (runit * n)) by (apply abs_le2 in K2; lra).
  destruct (C114_polar L (angle v) l HT F1 F2) as [F3 H3].
  { rewrite Rabs_pos_eq by lra. assert (E2 : bpow radix2 990 = bpow radix2 590 * bpow radix2 400) by (rewrite <- bpow_plus; reflexivity). assert (2 <= bpow radix2 590) by (change 2 with (bpow radix2 1); apply bpow_le; lia). rewrite E2. assert (2 * bpow radix2 400 <= bpow radix2 590 * bpow radix2 400) by (apply Rmult_le_compat_r; [apply bpow_ge_0|lra]). lra. }
  fold N in F3, H3. split; [exact F3|]. set (a := deg (toR (angle v))) in *. rewrite (Rabs_pos_eq (toR l)) in H3 by lra. fold runit in H3. change (bpow radix2 (-1075)) with tiny in H3.
  assert (D2 : dist (mkV (toR l * cos a) (toR l * sin a)) (mkV (n * cos a) (n * sin a)) <= 7 * (runit * n)).
  { replace (dist (mkV (toR l * cos a) (toR l * sin a)) (mkV (n * cos a) (n * sin a))) with (Rabs (toR l - n)); [replace (7 * (runit * n)) with (7 * runit * n) by ring; exact K2|].
    unfold dist. replace (psub (mkV (toR l * cos a) (toR l * sin a)) (mkV (n * cos a) (n * sin a))) with (pscale (toR l - n) (mkV (cos a) (sin a))) by (ug; vext; ring).
    rewrite VecFacts2.norm_scale. replace (norm (mkV (cos a) (sin a))) with 1; [ring|]. unfold norm. cbn [vx vy]. pose proof (sin2_cos2 a) as K. unfold Rsqr in K. replace (cos a * cos a + sin a * sin a) with 1 by lra. symmetry. apply sqrt_1. }
  assert (TN : 2 * tiny <= runit * n). { unfold tiny, runit. assert (bpow radix2 (-1000) <= bpow radix2 (-53) * n). { apply Rle_trans with (bpow radix2 (-53) * bpow radix2 (-400)); [rewrite <- bpow_plus; apply bpow_le; lia|]. apply Rmult_le_compat_l; [apply bpow_ge_0|lra]. } eapply Rle_trans; [|exact H]. change 2 with (bpow radix2 1). rewrite <- bpow_plus. apply bpow_le. lia. }
  eapply Rle_trans; [apply (dist_triangle _ (mkV (toR l * cos a) (toR l * sin a)))|]. pose proof (dist_triangle (mkV (toR l * cos a) (toR l * sin a)) (mkV (n * cos a) (n * sin a)) (vecR v)) as K.
  assert (UL : 84 * runit * toR l <= 84 * runit * (n + 7 * (runit * n))) by (apply Rmult_le_compat_l; lra). assert (UU : runit * (runit * n) <= / 1048576 * (runit * n)) by (apply Rmult_le_compat_r; lra). lra.
Qed.
Print Assumptions C118_polar.

(** [angle] is not determined by [==]: on the negative x axis two equal vectors
    have angles of about 180 and -180, and [angle_to] between them, documented as
    the smallest angle, is a full turn. *)
Theorem C118_seam_refuted : exists v o : vec PrimFloat.float, finite_vec v /\ finite_vec o /\ forall L, angle_ok L -> let N := FNum L in
  vec_eqb v o = true /\ toR (angle v) < -179 /\ 179 < toR (angle o) /\ 358 < toR (angle_to v o).
Proof.
  exists (mkV (-1) (-0))%float, (mkV (-1) 0)%float. split; [split; reflexivity|]. split; [split; reflexivity|]. intros L HL N.
  assert (T1 : toR (-1) = -1) by (vm_compute; lra). assert (T0 : toR 0 = 0) by (vm_compute; lra). assert (TN : toR (-0) = 0) by (vm_compute; lra).
  assert (NN : norm (mkV (-1) 0) = 1) by (unfold norm; cbn [vx vy]; replace (-1 * -1 + 0 * 0) with 1 by ring; apply sqrt_1).
  assert (V1 : vecR (mkV (-1) (-0))%float = mkV (-1) 0) by (unfold vecR; cbn [vx vy]; rewrite T1, TN; reflexivity). assert (V2 : vecR (mkV (-1) 0)%float = mkV (-1) 0) by (unfold vecR; cbn [vx vy]; rewrite T1, T0; reflexivity).
  destruct pi_range as [P1 P2]. pose proof runit_pos as U0. assert (U1 : runit <= bpow radix2 (-20)) by (unfold runit; apply bpow_le; lia). replace (bpow radix2 (-20)) with (/ 1048576) in U1 by (cbn; lra). pose proof tiny_runit as TT. pose proof tiny_pos as T2. assert (PD : PI * (180 / PI) = 180) by (field; lra).
  assert (ARG : forall t, - PI <= t <= PI -> cos t = -1 -> t = PI \/ t = - PI).
  { intros t Ht C. assert (Z : forall u, 0 <= u <= PI -> cos u = -1 -> u = PI). { intros u Hu Cu. destruct (Rle_lt_or_eq_dec u PI ltac:(lra)) as [LT|EQ]; [|exact EQ]. exfalso. pose proof (cos_decreasing_1 u PI ltac:(lra) ltac:(lra) ltac:(lra) ltac:(lra) LT) as K. rewrite cos_PI in K. lra. }
    destruct (Rle_dec 0 t) as [P|P]; [left; apply Z; [lra|exact C]|right]. assert (- t = PI) by (apply Z; [lra|rewrite cos_neg; exact C]). lra. }
  assert (G : forall v, vecR v = mkV (-1) 0 -> finite_vec v -> exists t, (t = PI \/ t = - PI) /\ (PrimFloat.get_sign (vy v) = true -> t <= 0) /\ (PrimFloat.get_sign (vy v) = false -> 0 <= t) /\ finite (angle v) /\ Rabs (toR (angle v) - t * (180 / PI)) <= / 4).
  { intros v EV Fv. destruct (C118_angle L v HL Fv) as (t & (A1 & A2 & A3 & A4) & [F H]); [rewrite EV, NN; lra|]. fold N in F, H. rewrite EV, NN, !Rmult_1_l in A2. injection A2 as C1 _.
    exists t. pose proof (ARG t A1 (eq_sym C1)) as T. split; [exact T|]. split; [exact A3|]. split; [exact A4|]. split; [exact F|]. fold runit in H. change (bpow radix2 (-1075)) with tiny in H.
    assert (Rabs (t * (180 / PI)) = 180). { destruct T as [-> | ->]; [rewrite PD; apply Rabs_pos_eq; lra|]. replace (- PI * (180 / PI)) with (- 180) by lra. rewrite Rabs_left; lra. } rewrite H0 in H. lra. }
  destruct (G _ V1) as (t & T & S1 & _ & F1 & H1); [split; reflexivity|]. specialize (S1 eq_refl). assert (ET : t = - PI) by lra. rewrite ET in H1. replace (- PI * (180 / PI)) with (- 180) in H1 by lra.
  destruct (G _ V2) as (s & T' & _ & S2 & F2 & H2); [split; reflexivity|]. specialize (S2 eq_refl). assert (ES : s = PI) by lra. rewrite ES, PD in H2.
  set (x := angle (mkV (-1) (-0))%float) in *. set (y := angle (mkV (-1) 0)%float) in *. apply abs_le2 in H1, H2. split; [reflexivity|]. split; [lra|]. split; [lra|].
  unfold angle_to. fold x y. change (y - x)%num with (y - x)%float. destruct (fsub_toR y x F2 F1) as [_ V]; [apply big; apply Rabs_le; lra|]. rewrite V.
  pose proof (frnd_err (toR y - toR x)) as K. rewrite (Rabs_pos_eq (toR y - toR x)) in K by lra. assert (runit * (toR y - toR x) <= / 1048576 * (toR y - toR x)) by (apply Rmult_le_compat_r; lra). apply abs_le2 in K. lra.
Qed.
Print Assumptions C118_seam_refuted.

(** The correctly rounded functions meet the hypotheses. *)
Definition signed_lib : FloatLib := {|
  fl_sqrt := PrimFloat.sqrt; fl_pow2 := fl_pow2 ideal_lib; fl_floordiv := fl_floordiv ideal_lib; fl_mod := fl_mod ideal_lib; fl_cos := fl_cos ideal_lib; fl_sin := fl_sin ideal_lib; fl_tan := fl_tan ideal_lib;
  fl_atan2 := fun y x => if andb (PrimFloat.eqb y 0) (andb (PrimFloat.get_sign y) (PrimFloat.ltb x 0)) then toF (- PI) else toF (Ratan2 (toR y) (toR x));
  fl_hypot := fl_hypot ideal_lib; fl_radians := fl_radians ideal_lib; fl_degrees := fun x => toF (toR x * (180 / PI)) |}.
Lemma sign_toR x : finite x -> (PrimFloat.get_sign x = true -> toR x <= 0) /\ (PrimFloat.get_sign x = false -> 0 <= toR x).
Proof.
  intro F. destruct (PrimFloat.is_zero x) eqn:Z.
  - assert (toR x = 0). { unfold PrimFloat.is_zero in Z. rewrite toR_eq in Z by (auto; reflexivity). unfold Reqb in Z. destruct (Req_EM_T (toR x) (toR zero)) as [E|]; [|discriminate]. rewrite E. vm_compute. lra. } lra.
  - unfold PrimFloat.get_sign. rewrite Z. rewrite toR_lt by (auto; reflexivity). replace (toR zero) with 0 by (vm_compute; lra). unfold Rltb. destruct (Rlt_dec (toR x) 0); split; intro; try discriminate; lra.
Qed.
Lemma signed_angle : angle_ok signed_lib.
Proof.
  destruct pi_range as [P1 P2]. pose proof runit_pos as U0. pose proof tiny_pos as T0. split.
  - intros v Fv Hn. cbn [fl_atan2 signed_lib]. set (y := vy v). set (x := vx v). assert (Fx : finite x) by apply Fv. assert (Fy : finite y) by apply Fv.
    assert (NZ : ~ (toR x = 0 /\ toR y = 0)). { intros [E1 E2]. unfold norm, vecR in Hn. cbn [vx vy] in Hn. fold x y in Hn. rewrite E1, E2 in Hn. replace (0 * 0 + 0 * 0) with 0 in Hn by ring. rewrite sqrt_0 in Hn. lra. }
    assert (TOF : forall t, - PI <= t <= PI -> apx (toF t) t (2 * bpow radix2 (-53) * Rabs t + bpow radix2 (-1075))).
    { intros t Ht. eapply apx_weak; [apply toF_apx, big, Rabs_le; lra|]. fold runit. change (bpow radix2 (-1075)) with tiny. assert (0 <= runit * Rabs t) by (apply Rmult_le_pos; [lra|apply Rabs_pos]). lra. }
    destruct (sign_toR y Fy) as [G1 G2]. rewrite toR_eq, toR_lt by (auto; reflexivity). replace (toR 0%float) with 0 by (vm_compute; lra).
    unfold Reqb, Rltb. destruct (Req_EM_T (toR y) 0) as [Y|Y]; cbn [andb]; [destruct (PrimFloat.get_sign y) eqn:GY; cbn [andb]; [destruct (Rlt_dec (toR x) 0) as [X|X]|]|].
    + exists (- PI). split; [|apply TOF; lra]. split; [lra|]. fold y. rewrite GY. split; [|split; [intro; lra|discriminate]]. rewrite cos_neg, sin_neg, cos_PI, sin_PI.
      assert (E : norm (vecR v) = - toR x) by (unfold norm, vecR; cbn [vx vy]; fold x y; rewrite Y; replace (toR x * toR x + 0 * 0) with (- toR x * - toR x) by ring; apply sqrt_square; lra). rewrite E. unfold vecR. fold x y. rewrite Y. f_equal; ring.
    + exists (Ratan2 (toR y) (toR x)). pose proof (Ratan2_range (toR y) (toR x)) as RG. split; [|apply TOF; lra]. split; [lra|]. fold y. rewrite GY. split; [destruct (Ratan2_polar _ _ NZ) as [E1 E2]; unfold vecR, norm; cbn [vx vy]; fold x y; rewrite <- E1, <- E2; reflexivity|].
      split; [|discriminate]. intros _. unfold Ratan2. rewrite Y. replace (0 / toR x) with 0 by (unfold Rdiv; ring). rewrite atan_0. repeat destruct Rlt_dec; try destruct Rle_dec; lra.
    + exists (Ratan2 (toR y) (toR x)). pose proof (Ratan2_range (toR y) (toR x)) as RG. split; [|apply TOF; lra]. split; [lra|]. fold y. rewrite GY. split; [destruct (Ratan2_polar _ _ NZ) as [E1 E2]; unfold vecR, norm; cbn [vx vy]; fold x y; rewrite <- E1, <- E2; reflexivity|].
      split; [discriminate|]. intros _. unfold Ratan2. rewrite Y. replace (0 / toR x) with 0 by (unfold Rdiv; ring). rewrite atan_0. repeat destruct Rlt_dec; try destruct Rle_dec; lra.
    + exists (Ratan2 (toR y) (toR x)). pose proof (Ratan2_range (toR y) (toR x)) as RG. split; [|apply TOF; lra]. split; [lra|]. fold y. destruct (Ratan2_polar _ _ NZ) as [E1 E2]. split; [unfold vecR, norm; cbn [vx vy]; fold x y; rewrite <- E1, <- E2; reflexivity|].
      set (t := Ratan2 (toR y) (toR x)) in *. pose proof (sqrt_pos (toR x * toR x + toR y * toR y)) as SP. set (n := rsqrt (toR x * toR x + toR y * toR y)) in *. split; intro GY.
      * apply Rnot_lt_le. intro C. specialize (G1 GY). pose proof (sin_ge_0 t ltac:(lra) ltac:(lra)) as K. assert (0 <= n * sin t) by (apply Rmult_le_pos; lra). lra.
      * apply Rnot_lt_le. intro C. specialize (G2 GY). pose proof (sin_ge_0 (- t) ltac:(lra) ltac:(lra)) as K. rewrite sin_neg in K. assert (0 <= n * - sin t) by (apply Rmult_le_pos; lra). lra.
  - intros r Fr Br. cbn [fl_degrees signed_lib]. destruct per_degree as [D1 D2]. eapply apx_weak; [apply toF_apx, big; rewrite Rabs_mult, (Rabs_pos_eq (180 / PI)) by lra; pose proof (Rabs_pos (toR r)); nra|].
    fold runit. change (bpow radix2 (-1075)) with tiny. assert (0 <= runit * Rabs (toR r * (180 / PI))) by (apply Rmult_le_pos; [lra|apply Rabs_pos]). lra.
Qed.
Lemma signed_trig : trig_ok signed_lib.
Proof. destruct ideal_trig as [H1 H2 H3 H4]. split; [exact H1|exact H2|exact H3|exact H4]. Qed.
Example C118_ex : sqrt_ok signed_lib /\ trig_ok signed_lib /\ angle_ok signed_lib /\ let v := (mkV 3 (-4))%float in let o := (mkV (-1) 7)%float in
  finite_vec v /\ mid_vec v /\ finite_vec o /\ 0 < norm (vecR o) /\ 0 < norm (vecR v) /\ bpow radix2 (-400) <= norm (vecR v) <= bpow radix2 400.
Proof.
  split; [exact (fun x F P => ieee_sqrt_ok x F P)|]. split; [exact signed_trig|]. split; [exact signed_angle|]. cbv zeta.
  assert (T1 : toR (-1) = -1) by (vm_compute; lra). assert (T3 : toR 3 = 3) by (vm_compute; lra). assert (T4 : toR (-4) = -4) by (vm_compute; lra). assert (T7 : toR 7 = 7) by (vm_compute; lra).
  assert (NV : norm (vecR (mkV 3 (-4))%float) = 5). { unfold norm, vecR. cbn [vx vy]. rewrite T3, T4. replace (3 * 3 + -4 * -4) with (5 * 5) by ring. apply sqrt_square. lra. }
  assert (NO : 0 < norm (vecR (mkV (-1) 7)%float)) by (unfold norm, vecR; cbn [vx vy]; rewrite T1, T7; apply sqrt_lt_R0; lra).
  assert (B1 : bpow radix2 (-400) <= 1) by (change 1 with (bpow radix2 0); apply bpow_le; lia). assert (B2 : 8 <= bpow radix2 400) by (change 8 with (bpow radix2 3); apply bpow_le; lia). assert (B3 : 8 <= bpow radix2 990) by (change 8 with (bpow radix2 3); apply bpow_le; lia).
  rewrite NV. split; [split; reflexivity|]. split; [split; [split; reflexivity|]; cbn [vx vy]; rewrite T3, T4; split; apply Rabs_le; lra|]. split; [split; reflexivity|]. split; [exact NO|]. lra.
Qed.
