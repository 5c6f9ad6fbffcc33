(** * Property C99: lines, rays and segments under transforms, measured *)
From Coq Require Import ZArith List Bool Reals Lra Lia.
From Verif Require Import Num Vec Affine Line LineOps RBase VecFacts VecFacts2 AffineFacts SpecGeom SpecAffine SpecLine SpecMotion LineFacts LineFacts2 LineFacts3 LineTrans PropAffine PropLine.
Import ListNotations.
Local Open Scope R_scope.

(** ** C99 *)
(** Any transform: the signed distance from the transformed line is the signed
    distance from the line times the area factor over the length factor in the
    direction of the line.  So sides are kept by transforms of positive
    determinant and swapped by those of negative determinant. *)
Theorem C99_signed_distance : forall (E : R) (l : line R) (m : affine R), 0 < E < 1 -> frame (ldn l) -> E < norm (limg m (ddir (ldn l))) ->
  exists l', line_mul E l m = Ok l' /\ line_act E (LTransform m) l = (Ok tt, l') /\
    forall p, line_distance_to l' (aapply m p) * norm (limg m (ddir (ldn l))) = det m * line_distance_to l p.
Proof.
  intros E l m HE F HN. destruct (line_image E l m HE F HN) as (l' & E1 & F' & D & E2). exists l'. split; [rewrite line_mul_imul by lra; auto|]. split.
  - rewrite line_act_atomic. cbn [line_try]. rewrite E1. reflexivity.
  - intro p. rewrite aapply_R. apply line_image_distance; auto.
Qed.
Print Assumptions C99_signed_distance.
(** Translations, rotations about any point and scales by one number stretch
    all lengths alike. *)
Theorem C99_similarities : forall (o : pt) (t : R) (c : option pt) (k : R),
  stretches 1 (atranslation o) /\ stretches 1 (arotation t c) /\ stretches (Rabs k) (ascale_scalar k) /\
  (forall (a b : affine R) (j k : R), stretches j a -> stretches k b -> exists m, (forall p, aapply m p = aapply a (aapply b p)) /\ stretches (j * k) m).
Proof.
  intros o t c k. split; [|split; [|split]].
  - intros p q. rewrite <- !aapply_R. rewrite !(proj1 (C21_constructors o o _ 0 0 0)). rewrite Rmult_1_l. unfold dist. f_equal. unfold psub, padd. cbn [vx vy]. f_equal; ring.
  - intros p q. rewrite <- !aapply_R, Rmult_1_l. destruct c as [c|].
    + apply (C24_rotation_pivot t c p q).
    + destruct (C24_rotation_pivot t (mkV 0 0) p q) as (_ & A & B & _ & D). destruct (C24_rotation_pivot t (mkV 0 0) q q) as (_ & A' & B' & _ & _). rewrite <- D, A, A', B, B'.
      unfold dist. f_equal. assert (Z : forall v : pt, psub v (mkV 0 0) = v) by (intros [x y]; unfold psub; cbn [vx vy]; f_equal; ring). rewrite !Z. unfold psub, padd. cbn [vx vy]. f_equal; ring.
  - intros p q. rewrite <- !aapply_R. destruct (C21_constructors o o p k 0 0) as (_ & _ & -> & _), (C21_constructors o o q k 0 0) as (_ & _ & -> & _). unfold dist. rewrite <- norm_scale. f_equal. unfold psub, pscale. cbn [vx vy]. f_equal; ring.
  - intros a b j i Ha Hb. destruct (C21_application_closed a b) as (m & Hm & _). exists m. split; auto. intros p q. rewrite <- !aapply_R, <- !Hm, !aapply_R, Ha, Hb. ring.
Qed.
Print Assumptions C99_similarities.
(** Lines: distance_to, reflect and project commute with every such transform
    that does not shrink a unit to EPSILON. *)
Theorem C99_line : forall (E k : R) (l : line R) (m : affine R), 0 < E < 1 -> frame (ldn l) -> stretches k m -> E < k ->
  exists l' s, (s = 1 \/ s = -1) /\ det m = s * (k * k) /\ line_mul E l m = Ok l' /\ line_act E (LTransform m) l = (Ok tt, l') /\ forall p,
    line_distance_to l' (aapply m p) = s * k * line_distance_to l p /\
    line_reflect l' (aapply m p) = aapply m (line_reflect l p) /\
    exists q, line_project E l p = Ok q /\ line_project E l' (aapply m p) = Ok (aapply m q).
Proof.
  intros E k l m HE F H K. destruct (line_stretch E k m l HE H K F) as (l' & E1 & F' & P).
  assert (S0 : exists s, (s = 1 \/ s = -1) /\ det m = s * (k * k)).
  { pose proof (stretch_det_abs k m ltac:(lra) H) as A. unfold Rabs in A. destruct (Rcase_abs (det m)); [exists (-1)|exists 1]; lra. }
  destruct S0 as (s & S0 & S1). exists l', s. split; auto. split; auto. split; [rewrite line_mul_imul by lra; auto|]. split; [rewrite line_act_atomic; cbn [line_try]; rewrite E1; reflexivity|].
  intro p. rewrite !aapply_R. destruct (P p) as (P1 & P2 & P3). split; [rewrite P1, S1; field; lra|]. split; auto.
  destruct (line_project_spec E l p) as (q & Q & _); [lra|auto|]. exists q. split; auto. rewrite P3, Q, aapply_R. reflexivity.
Qed.
Print Assumptions C99_line.
(** Rigid motions keep the three regions of a line; mirror images swap left and
    right. *)
Theorem C99_line_sides : forall (E : R) (l : line R) (m : affine R), 0 < E < 1 -> frame (ldn l) -> stretches 1 m ->
  exists l', line_mul E l m = Ok l' /\ forall p,
    line_contains E l' (aapply m p) = line_contains E l p /\
    (0 < det m -> line_point_left E l' (aapply m p) = line_point_left E l p /\ line_point_right E l' (aapply m p) = line_point_right E l p) /\
    (det m < 0 -> line_point_left E l' (aapply m p) = line_point_right E l p /\ line_point_right E l' (aapply m p) = line_point_left E l p).
Proof.
  intros E l m HE F H. destruct (C99_line E 1 l m HE F H ltac:(lra)) as (l' & s & S0 & S1 & E1 & _ & P). exists l'. split; auto. intro p. destruct (P p) as (D & _).
  unfold line_contains, line_point_left, line_point_right. rewrite D. generalize (line_distance_to l p). intro x. rnum.
  destruct S0 as [-> | ->]; [replace (1 * 1 * x) with x by ring|replace (-1 * 1 * x) with (- x) by ring].
  - split; auto. split; intro; [auto|lra].
  - rewrite Rabs_Ropp. split; auto. split; intro; [lra|]. split; apply eq_true_iff_eq; rewrite !Rleb_true; lra.
Qed.
Print Assumptions C99_line_sides.
(** Rays. *)
Theorem C99_ray : forall (E k : R) (r : ray R) (m : affine R), 0 < E < 1 -> frame (rdn r) -> stretches k m -> E < k ->
  exists r', ray_mul E r m = Ok r' /\ ray_act E (RTransform m) r = (Ok tt, r') /\ forall p, ray_distance_to r' (aapply m p) = k * ray_distance_to r p.
Proof.
  intros E k r m HE F H K. destruct (ray_stretch E k m r HE H K F) as (r' & E1 & F' & _ & _ & P). exists r'. split; [rewrite ray_mul_imul by lra; auto|]. split; [rewrite ray_act_atomic; cbn [ray_try]; rewrite E1; reflexivity|].
  intro p. rewrite aapply_R. auto.
Qed.
Print Assumptions C99_ray.
Theorem C99_ray_regions : forall (E : R) (r : ray R) (m : affine R), 0 < E < 1 -> frame (rdn r) -> stretches 1 m ->
  exists r', ray_mul E r m = Ok r' /\ forall p,
    ray_contains E r' (aapply m p) = ray_contains E r p /\ ray_point_behind E r' (aapply m p) = ray_point_behind E r p /\
    (0 < det m -> ray_point_left E r' (aapply m p) = ray_point_left E r p /\ ray_point_right E r' (aapply m p) = ray_point_right E r p) /\
    (det m < 0 -> ray_point_left E r' (aapply m p) = ray_point_right E r p /\ ray_point_right E r' (aapply m p) = ray_point_left E r p) /\
    exists q, ray_project E r p = Ok q /\ ray_project E r' (aapply m p) = Ok (aapply m q).
Proof.
  intros E r m HE F H. destruct (ray_stretch E 1 m r HE H ltac:(lra) F) as (r' & E1 & F' & A & D & P). exists r'. split; [rewrite ray_mul_imul by lra; auto|].
  pose proof (stretch_det_abs 1 m ltac:(lra) H) as Da. intro p. rewrite !aapply_R.
  pose proof (frames_dot 1 m (rdn r) (rdn r') ltac:(lra) D H (psub p (ranchor r)) : dot (ddir (rdn r')) (limg m (psub p (ranchor r))) = 1 * dot (ddir (rdn r)) (psub p (ranchor r))) as X. pose proof (frames_normal 1 m (rdn r) (rdn r') ltac:(lra) F F' D (psub p (ranchor r)) : dot (dnormal (rdn r')) (limg m (psub p (ranchor r))) = det m / 1 * dot (dnormal (rdn r)) (psub p (ranchor r))) as Y.
  assert (W : vsub (vec2_of (img m p)) (ranchor r') = limg m (psub p (ranchor r))) by (rewrite vec2_of_R, A; apply img_sub).
  unfold ray_contains. rewrite P, Rmult_1_l. split; auto.
  unfold ray_point_behind, ray_point_left, ray_point_right, ray_project. rewrite W. assert (W0 : vsub (vec2_of p) (ranchor r) = psub p (ranchor r)) by (rewrite vec2_of_R; reflexivity). rewrite W0. cbv zeta. rewrite X, Y, Rmult_1_l. split; auto.
  split; [|split].
  - intro G. rewrite Rabs_pos_eq in Da by lra. replace (det m / 1) with 1 by lra. rewrite Rmult_1_l. auto.
  - intro G. rewrite Rabs_left in Da by lra. replace (det m / 1 * dot (dnormal (rdn r)) (psub p (ranchor r))) with (- dot (dnormal (rdn r)) (psub p (ranchor r))) by (replace (det m) with (-1) by lra; field).
    generalize (dot (dnormal (rdn r)) (psub p (ranchor r))). intro y. rnum. split; f_equal; apply eq_true_iff_eq; rewrite !Rleb_true; lra.
  - rewrite !project_frame by (auto; lra). cbn [bind]. change (pdot ?a (?f ?b)) with (dot a (f b)). rewrite X, Rmult_1_l. assert (G : forall (d : dirn R) t, frame d -> dot (pscale t (ddir d)) (ddir d) = t * 1) by (intros d t Fd; destruct (dot_frame _ Fd) as (<- & _); apply pdot_scale_l). rewrite !G by auto. rnum.
    destruct (Rltb (- E) (dot (ddir (rdn r)) (psub p (ranchor r)) * 1)); eexists; (split; [reflexivity|]); rewrite A, aapply_R; auto.
    rewrite !vadd_padd, (padd_comm (pscale _ (ddir (rdn r)))), img_add, limg_scale, D. f_equal. rewrite padd_comm. f_equal. destruct (ddir (rdn r')) as [a b]. unfold pscale. cbn [vx vy]. f_equal; ring.
Qed.
Print Assumptions C99_ray_regions.
(** Segments, also of length zero. *)
Theorem C99_segment : forall (E k : R) (s : segment R) (m : affine R), 0 < E < 1 -> frame (sdn s) -> stretches k m -> 0 < k -> slength s = 0 \/ E < k * slength s ->
  exists s', seg_mul E s m = Ok s' /\ seg_act E (STransform m) s = (Ok tt, s') /\ slength s' = k * slength s /\ forall p, seg_distance_to s' (aapply m p) = k * seg_distance_to s p.
Proof.
  intros E k s m HE F H K L. destruct (seg_stretch_length E k m s HE H K F L) as (s' & E1 & F' & A & B & C & D). exists s'. split; [rewrite seg_mul_imul by lra; auto|]. split; [rewrite seg_act_atomic; cbn [seg_try]; rewrite E1; reflexivity|].
  split; auto. intro p. rewrite aapply_R. apply (seg_stretch_distance E k m s); auto.
Qed.
Print Assumptions C99_segment.
Theorem C99_segment_regions : forall (E : R) (s : segment R) (m : affine R), 0 < E < 1 -> frame (sdn s) -> stretches 1 m -> E < slength s ->
  exists s', seg_mul E s m = Ok s' /\ forall p,
    seg_contains E s' (aapply m p) = seg_contains E s p /\ seg_point_behind E s' (aapply m p) = seg_point_behind E s p /\ seg_point_ahead E s' (aapply m p) = seg_point_ahead E s p /\
    (0 < det m -> seg_point_left E s' (aapply m p) = seg_point_left E s p /\ seg_point_right E s' (aapply m p) = seg_point_right E s p) /\
    (det m < 0 -> seg_point_left E s' (aapply m p) = seg_point_right E s p /\ seg_point_right E s' (aapply m p) = seg_point_left E s p) /\
    exists q, seg_project E s p = Ok q /\ seg_project E s' (aapply m p) = Ok (aapply m q).
Proof.
  intros E s m HE F H L. assert (L1 : slength s = 0 \/ E < 1 * slength s) by lra.
  destruct (seg_stretch_length E 1 m s HE H ltac:(lra) F L1) as (s' & E1 & F' & A & B & C & D). exists s'. split; [rewrite seg_mul_imul by lra; auto|].
  pose proof (stretch_det_abs 1 m ltac:(lra) H) as Da. intro p. rewrite !aapply_R. pose proof (seg_stretch_distance E 1 m s HE H ltac:(lra) F L1 s' p F' A B C D) as P. specialize (D ltac:(lra)). rewrite Rmult_1_l in C.
  pose proof (frames_dot 1 m (sdn s) (sdn s') ltac:(lra) D H (psub p (sanchor s)) : dot (ddir (sdn s')) (limg m (psub p (sanchor s))) = 1 * dot (ddir (sdn s)) (psub p (sanchor s))) as X. pose proof (frames_normal 1 m (sdn s) (sdn s') ltac:(lra) F F' D (psub p (sanchor s)) : dot (dnormal (sdn s')) (limg m (psub p (sanchor s))) = det m / 1 * dot (dnormal (sdn s)) (psub p (sanchor s))) as Y.
  assert (W : vsub (vec2_of (img m p)) (sanchor s') = limg m (psub p (sanchor s))) by (rewrite vec2_of_R, A; apply img_sub).
  unfold seg_contains. rewrite P, Rmult_1_l. split; auto.
  unfold seg_point_behind, seg_point_ahead, seg_point_left, seg_point_right, seg_project. rewrite W, C. assert (W0 : vsub (vec2_of p) (sanchor s) = psub p (sanchor s)) by (rewrite vec2_of_R; reflexivity). rewrite W0. cbv zeta. rewrite X, Y, Rmult_1_l. split; auto. split; auto.
  split; [|split].
  - intro G. rewrite Rabs_pos_eq in Da by lra. replace (det m / 1) with 1 by lra. rewrite Rmult_1_l. auto.
  - intro G. rewrite Rabs_left in Da by lra. replace (det m / 1 * dot (dnormal (sdn s)) (psub p (sanchor s))) with (- dot (dnormal (sdn s)) (psub p (sanchor s))) by (replace (det m) with (-1) by lra; field).
    generalize (dot (dnormal (sdn s)) (psub p (sanchor s))). intro y. rnum. split; f_equal; apply eq_true_iff_eq; rewrite !Rleb_true; lra.
  - rewrite !project_frame by (auto; lra). cbn [bind]. change (pdot ?a (?f ?b)) with (dot a (f b)). rewrite X, Rmult_1_l. assert (G : forall (d : dirn R) t, frame d -> dot (pscale t (ddir d)) (ddir d) = t * 1) by (intros d t Fd; destruct (dot_frame _ Fd) as (<- & _); apply pdot_scale_l). rewrite !G by auto. rnum.
    destruct (Rleb (dot (ddir (sdn s)) (psub p (sanchor s)) * 1) (- E)); [|destruct (Rleb (slength s + E) (dot (ddir (sdn s)) (psub p (sanchor s)) * 1))]; eexists; (split; [reflexivity|]); rewrite ?A, ?B, aapply_R; auto.
    rewrite !vadd_padd, (padd_comm (pscale _ (ddir (sdn s)))), img_add, limg_scale, D. f_equal. rewrite padd_comm. f_equal. destruct (ddir (sdn s')) as [a b]. unfold pscale. cbn [vx vy]. f_equal; ring.
Qed.
Print Assumptions C99_segment_regions.
Example C99_ex : let l := mkLine (mkD (mkV (3/5) (4/5)) (mkV (4/5) (-3/5))) 2 in frame (ldn l) /\ stretches 1 (arotation 90 (Some (mkV 1 2))) /\
  stretches 1 (mkA (-1) 0 0 0 1 0) /\ det (mkA (-1) 0 0 0 1 0) < 0 /\ line_distance_to l (mkV 0 0) = -2 /\ stretches 3 (ascale_scalar 3).
Proof.
  cbn zeta. split; [|split; [apply C99_similarities; exact (mkV 0 0) || exact 0|split; [|split; [unfold det; cbn; lra|split]]]].
  - apply frame_iff. cbn [ddir dnormal ldn]. split; [apply norm_unique; cbn [vx vy]; lra|unfold cw; cbn [vx vy]; f_equal; lra].
  - intros p q. rewrite Rmult_1_l. unfold dist. apply sq_eq_iff; try apply norm_nonneg. rewrite !norm_sq. unfold img, psub. cbn. ring.
  - rewrite line_distance_R. cbn. unfold pdot. cbn [vx vy]. lra.
  - pose proof (C99_similarities (mkV 0 0) 0 None 3) as (_ & _ & X & _). rewrite Rabs_pos_eq in X by lra. exact X.
Qed.
