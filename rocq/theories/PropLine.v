(** * Properties C39 - C48: lines, rays, segments *)
From Coq Require Import ZArith List Bool Reals Lra Lia Floats.
From Verif Require Import Num NumFloat Vec Affine Line LineOps RBase VecFacts2 AffineFacts OrdLaws FloatFacts2
  SpecGeom SpecAffine SpecLine LineFacts LineFacts2 LineFacts3.
Import ListNotations.
Local Open Scope R_scope.

(** ** C39.  A freshly constructed shape, by any constructor. *)
Inductive line_born (E : R) : line R -> Prop :=
| lb_new p v l : line_new E p v = Ok l -> line_born E l
| lb_points ps l : line_from_points E ps = Ok l -> line_born E l
| lb_normal n o l : line_from_normal E n o = Ok l -> line_born E l
| lb_parallel l p l' : line_parallel E l p = Ok l' -> line_born E l'
| lb_perp l p l' : line_perpendicular E l p = Ok l' -> line_born E l'
| lb_mul l m l' : line_mul E l m = Ok l' -> line_born E l'
| lb_ray r l : ray_line E r = Ok l -> line_born E l
| lb_seg s l : seg_line E s = Ok l -> line_born E l.
Inductive ray_born (E : R) : ray R -> Prop :=
| rb_new p v l : ray_new E p v = Ok l -> ray_born E l
| rb_points ps l : ray_from_points E ps = Ok l -> ray_born E l
| rb_mul l m l' : ray_mul E l m = Ok l' -> ray_born E l'.
Inductive seg_born (E : R) : segment R -> Prop :=
| sb_new p v l : seg_new E p v = Ok l -> seg_born E l
| sb_points ps l : seg_from_points E ps = Ok l -> seg_born E l
| sb_normal n o a b l : seg_from_normal E n o a b = Ok l -> seg_born E l
| sb_mul l m l' : seg_mul E l m = Ok l' -> seg_born E l'.
Lemma line_born_frame E l : 0 < E -> line_born E l -> frame (ldn l).
Proof.
  intros HE H. destruct H; eauto using line_new_frame, line_from_points_frame, line_from_normal_frame.
  unfold line_mul in H. destruct (line_points l). eapply line_from_points_frame; eauto.
Qed.
Lemma ray_born_frame E l : 0 < E -> ray_born E l -> frame (rdn l).
Proof.
  intros HE H. destruct H; eauto using ray_new_frame, ray_from_points_frame.
  unfold ray_mul in H. destruct (ray_points l). eapply ray_from_points_frame; eauto.
Qed.
Lemma seg_born_frame E l : 0 < E -> seg_born E l -> frame (sdn l).
Proof.
  intros HE H. destruct H; eauto using seg_new_frame, seg_from_points_frame, seg_from_normal_frame.
  unfold seg_mul in H. destruct (seg_points l). eapply seg_from_points_frame; eauto.
Qed.

Theorem C39_line_orthonormal : forall (E : R) (l : line R) (os : list (line_op R)), 0 < E -> line_born E l ->
  frame (ldn (line_run E l os)).
Proof. intros E l os HE H. apply line_run_frame; auto. apply (line_born_frame E); auto. Qed.
Print Assumptions C39_line_orthonormal.
Theorem C39_ray_orthonormal : forall (E : R) (r : ray R) (os : list (ray_op R)), 0 < E -> ray_born E r ->
  frame (rdn (ray_run E r os)).
Proof. intros E l os HE H. apply ray_run_frame; auto. apply (ray_born_frame E); auto. Qed.
Print Assumptions C39_ray_orthonormal.
Theorem C39_segment_orthonormal : forall (E : R) (s : segment R) (os : list (seg_op R)), 0 < E -> seg_born E s ->
  frame (sdn (seg_run E s os)).
Proof. intros E l os HE H. apply seg_run_frame; auto. apply (seg_born_frame E); auto. Qed.
Print Assumptions C39_segment_orthonormal.
(** A rejected assignment is a ValueError and changes nothing; it is rejected
    exactly when the vector is null within EPSILON (EPSILON < 1); an accepted
    one takes the direction of the vector. *)
Theorem C39_direction_assignment : forall (E : R) (v : pt) (l : line R) (r : ray R) (s : segment R), 0 < E < 1 ->
  (norm v <= E ->
     line_act E (LDirection v) l = (Err ValueError, l) /\ ray_act E (RDirection v) r = (Err ValueError, r) /\
     seg_act E (SDirection v) s = (Err ValueError, s)) /\
  (E < norm v -> exists d, frame d /\ v = pscale (norm v) (ddir d) /\
     line_act E (LDirection v) l = (Ok tt, mkLine d (loffset l)) /\
     ray_act E (RDirection v) r = (Ok tt, mkRay d (ranchor r)) /\
     seg_act E (SDirection v) s = (Ok tt, mkSeg d (sanchor s) (slength s))).
Proof.
  intros E v l r s HE. rewrite line_act_atomic, ray_act_atomic, seg_act_atomic. cbn [line_try ray_try seg_try].
  unfold line_set_direction, ray_set_direction, seg_set_direction. split; intro H.
  - destruct (setter_small E v) as [-> _]; [lra|auto|]. cbn. auto.
  - rewrite set_direction_ok by lra. exists (mkD (unit v) (cw (unit v))). cbn [ddir].
    split; [apply frame_unit; lra|]. split; [symmetry; apply unit_scale; lra|]. cbn. auto.
Qed.
Print Assumptions C39_direction_assignment.
Theorem C39_normal_assignment : forall (E : R) (v : pt) (l : line R) (r : ray R) (s : segment R), 0 < E < 1 ->
  (norm v <= E ->
     line_act E (LNormal v) l = (Err ValueError, l) /\ ray_act E (RNormal v) r = (Err ValueError, r) /\
     seg_act E (SNormal v) s = (Err ValueError, s)) /\
  (E < norm v -> exists d, frame d /\ v = pscale (norm v) (dnormal d) /\
     line_act E (LNormal v) l = (Ok tt, mkLine d (loffset l)) /\
     ray_act E (RNormal v) r = (Ok tt, mkRay d (ranchor r)) /\
     seg_act E (SNormal v) s = (Ok tt, mkSeg d (sanchor s) (slength s))).
Proof.
  intros E v l r s HE. rewrite line_act_atomic, ray_act_atomic, seg_act_atomic. cbn [line_try ray_try seg_try].
  unfold line_set_normal, ray_set_normal, seg_set_normal. split; intro H.
  - destruct (setter_small E v) as [_ ->]; [lra|auto|]. cbn. auto.
  - pose proof (set_normal_ok E v) as Hs. rewrite Hs by lra. eexists. split; [eapply (set_normal_frame E v); [lra|apply Hs; lra]|].
    cbn [dnormal]. split; [symmetry; apply unit_scale; lra|]. cbn. auto.
Qed.
Print Assumptions C39_normal_assignment.
(** In any number system, doubles included: an assignment or transform that
    raises leaves every attribute as it was. *)
Theorem C39_rejected_unchanged : forall (T : Type) (N : Num T) (E : T),
  (forall o (l l' : line T) e, line_act E o l = (Err e, l') -> l' = l) /\
  (forall o (r r' : ray T) e, ray_act E o r = (Err e, r') -> r' = r) /\
  (forall o (s s' : segment T) e, seg_act E o s = (Err e, s') -> s' = s).
Proof.
  intros T N E. split; [|split]; intros o x x' e H.
  - rewrite line_act_atomic in H. destruct (line_try E x o); cbn in H; congruence.
  - rewrite ray_act_atomic in H. destruct (ray_try E x o); cbn in H; congruence.
  - rewrite seg_act_atomic in H. destruct (seg_try E x o); cbn in H; congruence.
Qed.
Print Assumptions C39_rejected_unchanged.
Example C39_ex : exists l, line_born (/ 100000) l /\
  line_run (/ 100000) l [LDirection (mkV 0 0); LNormal (mkV 3 4); LTransform (mkA 0 0 1 0 0 2)] =
  mkLine (mkD (mkV (-4/5) (3/5)) (mkV (3/5) (4/5))) (loffset l).
Proof.
  assert (Hn : norm (mkV 1 0) = 1) by (apply norm_unique; cbn [vx vy]; lra).
  destruct (line_new_cases (/ 100000) (mkV 0 0) (mkV 1 0)) as [(_ & _ & d & H & Hd & _)|[H _]]; [lra| |rewrite Hn in H; lra].
  exists (line_at d (mkV 0 0)). split; [econstructor; eauto|]. unfold line_run, runa. cbn [fold_left].
  destruct (C39_direction_assignment (/ 100000) (mkV 0 0) (line_at d (mkV 0 0)) (mkRay d (mkV 0 0)) (mkSeg d (mkV 0 0) 1)) as [H1 _]; [lra|].
  destruct H1 as [-> _]; [change (mkV 0 0) with porigin; rewrite (proj2 (norm_zero porigin) eq_refl); lra|]. cbn [snd].
  rewrite !line_act_atomic. cbn [line_try]. unfold line_set_normal. rewrite set_normal_ok by (rewrite ?norm_34; lra). cbn [bind atomically snd].
  assert (Hu : unit (mkV 3 4) = mkV (3/5) (4/5)) by (unfold unit; rewrite norm_34; reflexivity). rewrite Hu. cbn [vx vy].
  unfold line_imul. rewrite line_points_R. rewrite !aapply_R, vsub_psub, img_add, psub_padd.
  replace (limg _ _) with porigin by (unfold limg, porigin; cbn [vx vy aa ab ad ae]; vext; ring).
  destruct (setter_small (/ 100000) porigin) as [-> _]; [lra|rewrite (proj2 (norm_zero porigin) eq_refl); lra|].
  cbn [bind atomically snd]. f_equal. f_equal. vext; lra.
Qed.

(** ** C40 *)
Theorem C40_partition_real : forall (E : R) (l : line R) (p : pt), 0 < E ->
  exactly_one [line_point_left E l p; line_point_right E l p; line_contains E l p].
Proof. exact line_partition_R. Qed.
Print Assumptions C40_partition_real.
(** [q] is any point of the line; the counter-clockwise side is the left. *)
Theorem C40_sides : forall (E : R) (l : line R) (p q : pt), 0 < E -> frame (ldn l) -> line_set l q ->
  (line_point_left E l p = true <-> E <= pcross (ddir (ldn l)) (psub p q)) /\
  (line_point_right E l p = true <-> pcross (ddir (ldn l)) (psub p q) <= - E) /\
  (line_contains E l p = true <-> Rabs (pcross (ddir (ldn l)) (psub p q)) < E).
Proof. exact line_sides_R. Qed.
Print Assumptions C40_sides.
Theorem C40_partition_float : forall (L : FloatLib) (E : float) (l : line float) (p : vec float),
  not_nan E -> PrimFloat.ltb 0 E = true -> not_nan (@line_distance_to _ (FNum L) l p) ->
  exactly_one [@line_point_left _ (FNum L) E l p; @line_point_right _ (FNum L) E l p; @line_contains _ (FNum L) E l p].
Proof. intros L E l p HE H Hz. exact (float_three _ E Hz HE H). Qed.
Print Assumptions C40_partition_float.
(** The distance is not NaN for finite attributes and coordinates. *)
Theorem C40_partition_finite : forall (L : FloatLib) (E : float) (l : line float) (p : vec float),
  not_nan E -> PrimFloat.ltb 0 E = true -> finite (vx p) -> finite (vy p) -> finite (loffset l) ->
  finite (vx (dnormal (ldn l))) -> finite (vy (dnormal (ldn l))) ->
  PrimFloat.leb (abs (vx (dnormal (ldn l)))) 1 = true -> PrimFloat.leb (abs (vy (dnormal (ldn l)))) 1 = true ->
  exactly_one [@line_point_left _ (FNum L) E l p; @line_point_right _ (FNum L) E l p; @line_contains _ (FNum L) E l p].
Proof.
  intros L E l p HE H H1 H2 H3 H4 H5 H6 H7. apply C40_partition_float; auto.
  unfold line_distance_to, dot, vec2_of, vec2. cbn. change (float_of_Z 1) with 1%float. rewrite !fmul1.
  apply sub_nn; auto. apply add_nn; apply mul_finite; auto.
Qed.
Print Assumptions C40_partition_finite.
Example C40_ex : (exists q, line_set (mkLine (mkD (mkV 1 0) (mkV 0 (-1))) 5) q) /\ frame (mkD (mkV 1 0) (mkV 0 (-1))) /\
  finite 1.5 /\ PrimFloat.leb (abs (-1)) 1 = true.
Proof.
  split; [exists (mkV 7 (-5)); unfold line_set, pdot; cbn [vx vy ldn dnormal loffset]; lra|].
  split; [apply frame_10|]. split; reflexivity.
Qed.

(** ** C41 *)
Theorem C41_project_nearest : forall (E : R) (l : line R) (p : pt), 0 <= E < 1 -> frame (ldn l) ->
  exists q, line_project E l p = Ok q /\ nearest (line_set l) p q /\ Rabs (line_distance_to l p) = dist p q.
Proof. exact line_project_spec. Qed.
Print Assumptions C41_project_nearest.
(** Mirror image: the projection is midway, distances are kept, the signed
    distance changes sign, twice is the identity, the line is fixed. *)
Theorem C41_reflect : forall (E : R) (l : line R) (p q : pt), 0 <= E < 1 -> frame (ldn l) ->
  line_distance_to l (line_reflect l p) = - line_distance_to l p /\
  line_reflect l (line_reflect l p) = p /\
  dist (line_reflect l p) (line_reflect l q) = dist p q /\
  (exists m, line_project E l p = Ok m /\ m = between p (line_reflect l p) (1/2)) /\
  (line_set l p -> line_reflect l p = p).
Proof. exact line_reflect_spec. Qed.
Print Assumptions C41_reflect.
Example C41_ex : let l := mkLine (mkD (mkV 1 0) (mkV 0 (-1))) 5 in
  frame (ldn l) /\ line_project (/ 100000) l (mkV 3 4) = Ok (mkV 3 (-5)) /\ line_reflect l (mkV 3 4) = mkV 3 (-14) /\
  line_distance_to l (mkV 3 4) = -9.
Proof.
  cbv zeta. split; [apply frame_10|]. split; [|split].
  - rewrite line_project_R by (try apply frame_10; lra). f_equal. unfold foot, padd, pscale, pdot; cbn [ldn ddir dnormal loffset vx vy]. vext; ring.
  - rewrite line_reflect_R, line_distance_R. unfold psub, pscale, pdot; cbn [ldn ddir dnormal loffset vx vy]. vext; ring.
  - rewrite line_distance_R. unfold pdot; cbn [ldn dnormal loffset vx vy]. ring.
Qed.

(** ** C42 *)
Theorem C42_points_roundtrip : forall (E : R) (l : line R), 0 < E < 1 -> frame (ldn l) ->
  line_from_points E [fst (line_points l); snd (line_points l)] = Ok l /\
  line_set l (fst (line_points l)) /\ line_set l (snd (line_points l)).
Proof.
  intros E l HE Hf. split; [apply line_roundtrip; auto|]. rewrite line_points_R. cbn [fst snd].
  split; apply line_set_along; auto; [exists 0|exists 1]; [rewrite padd_0|rewrite pscale_1]; auto.
Qed.
Print Assumptions C42_points_roundtrip.
Theorem C42_new_contains : forall (E : R) (p v : pt), 0 < E < 1 ->
  (E < norm v -> exists l, line_new E p v = Ok l /\ frame (ldn l) /\ v = pscale (norm v) (ddir (ldn l)) /\
     forall q, line_set l q <-> along_line p v q) /\
  (norm v <= E -> line_new E p v = Err ValueError).
Proof.
  intros E p v HE. destruct (line_new_cases E p v) as [(H1 & H2 & d & H3 & Hd & Hv)|[H1 H2]]; [lra| |].
  - split; [intros _|lra]. eexists. split; [exact H3|]. change (ldn (line_at d p)) with d. split; auto. split; auto.
    intro q. split.
    + intro Hq. exists (pdot (ddir d) (psub q p) / norm v). rewrite Hv at 2. rewrite (frame_decomp d q p Hd) at 1.
      replace (pdot (dnormal d) (psub q p)) with 0.
      * rewrite padd_0. f_equal. unfold pscale; cbn [vx vy]. vext; field; lra.
      * unfold line_set, line_at in Hq. cbn [ldn loffset] in Hq. rewrite pdot_sub_r, !(pdot_sym (dnormal d)), Hq. ring.
    + intros [t ->]. rewrite Hv. apply line_set_shift; auto.
  - split; [lra|auto].
Qed.
Print Assumptions C42_new_contains.
Theorem C42_parallel_perpendicular : forall (E : R) (l : line R) (p : pt), 0 < E < 1 -> frame (ldn l) ->
  (exists l', line_parallel E l p = Ok l' /\ line_set l' p /\ ldn l' = ldn l) /\
  (exists l', line_perpendicular E l p = Ok l' /\ line_set l' p /\ frame (ldn l') /\ ddir (ldn l') = prot 90 (ddir (ldn l))).
Proof.
  intros E l p HE Hf. split.
  - unfold line_parallel, line_new. rewrite set_direction_same by auto. cbn [bind]. eexists. split; [reflexivity|]. split; [|reflexivity].
    rewrite vec2_of_R. reflexivity.
  - unfold line_perpendicular, line_new.
    assert (H1 : norm (perpendicular (ddir (ldn l))) = 1).
    { rewrite <- (proj1 Hf). apply norm_eq. unfold perpendicular; rnum. ring. }
    rewrite set_direction_ok by lra. cbn [bind]. eexists. split; [reflexivity|]. rewrite vec2_of_R. split; [reflexivity|]. cbn [ldn ddir].
    rewrite unit_id by auto. split; [apply frame_iff; cbn [ddir dnormal]; auto|].
    unfold perpendicular, prot, deg. rnum. replace (90 * PI / 180) with (PI / 2) by field. rewrite cos_PI2, sin_PI2. vext; ring.
Qed.
Print Assumptions C42_parallel_perpendicular.
Theorem C42_from_points_accepts : forall (E : R) (ps : list pt) (l : line R), 0 < E -> line_from_points E ps = Ok l ->
  Forall (fun p => exists q, line_set l q /\ dist p q < E) ps /\
  (exists s e k rest, ps = s :: repeat s k ++ e :: rest /\ E < dist s e /\ line_set l s /\ line_set l e /\
     psub e s = pscale (dist s e) (ddir (ldn l))).
Proof. intros E ps l HE H. destruct (line_from_points_ok E ps l HE H) as (_ & H1 & H2). auto. Qed.
Print Assumptions C42_from_points_accepts.
Theorem C42_from_points_rejects : forall (E : R) (ps : list pt), 0 < E ->
  (forall x, line_from_points E ps = Err x -> x = ValueError) /\
  ((forall p q, In p ps -> In q ps -> p = q) -> line_from_points E ps = Err ValueError).
Proof. intros E ps HE. split; [intros x; apply line_from_points_err; auto|apply line_from_points_few]. Qed.
Print Assumptions C42_from_points_rejects.
(** Collinear points that are pairwise equal or further apart than EPSILON are accepted. *)
Theorem C42_from_points_collinear : forall (E : R) (ps : list pt) (a u : pt), 0 < E <= 1 ->
  (forall p, In p ps -> along_line a u p) -> (exists p q, In p ps /\ In q ps /\ p <> q) ->
  (forall p q, In p ps -> In q ps -> p = q \/ E < dist p q) ->
  exists l, line_from_points E ps = Ok l /\ forall p, In p ps -> line_set l p.
Proof. intros E ps a u HE H. apply line_from_points_complete with a u; auto. Qed.
Print Assumptions C42_from_points_collinear.
Theorem C42_from_normal : forall (E : R) (n : pt) (o : R), 0 < E < 1 ->
  (E < norm n -> exists l, line_from_normal E n o = Ok l /\ frame (ldn l) /\ n = pscale (norm n) (dnormal (ldn l)) /\
     forall q, line_set l q <-> pdot q n = o * norm n) /\
  (norm n <= E -> line_from_normal E n o = Err ValueError).
Proof.
  intros E n o HE. split; intro H; unfold line_from_normal.
  - pose proof (set_normal_ok E n) as Hs. rewrite Hs by lra. cbn [bind]. eexists. split; [reflexivity|]. cbn [ldn dnormal].
    split; [eapply (set_normal_frame E n); [lra|apply Hs; lra]|]. split; [symmetry; apply unit_scale; lra|].
    intro q. unfold line_set. cbn [ldn dnormal loffset]. rnum. rewrite Rmult_1_r.
    rewrite <- (unit_scale n) at 2 by lra. rewrite pdot_scale_r. split; intro K; [rewrite K; ring|].
    apply Rmult_eq_reg_l with (norm n); lra.
  - destruct (setter_small E n) as [_ ->]; [lra|auto|]. reflexivity.
Qed.
Print Assumptions C42_from_normal.
Example C42_ex : exists l, line_from_points (/ 100000) [mkV 0 0; mkV 0 0; mkV 3 4; mkV 6 8] = Ok l /\ line_set l (mkV 6 8).
Proof.
  assert (H35 : forall a b, Rabs (a - b) = 5 -> norm (psub (mkV (3 * a / 5) (4 * a / 5)) (mkV (3 * b / 5) (4 * b / 5))) = 5).
  { intros a b H. apply norm_unique; [lra|]. unfold psub; cbn [vx vy]. rewrite <- H at 1 2. rewrite abs_sq. field. }
  destruct (C42_from_points_collinear (/ 100000) [mkV 0 0; mkV 0 0; mkV 3 4; mkV 6 8] (mkV 0 0) (mkV 3 4)) as (l & H1 & H2); [lra| | | |].
  - intros p Hp. cbn [In] in Hp. decompose [or] Hp; subst; [exists 0|exists 0|exists 1|exists 2|contradiction];
      unfold padd, pscale; cbn [vx vy]; vext; ring.
  - exists (mkV 0 0), (mkV 3 4). cbn [In]. repeat split; auto. intro H. apply mkV_inj in H. lra.
  - assert (Hf : forall p q, (p = mkV 0 0 \/ p = mkV 3 4 \/ p = mkV 6 8) -> (q = mkV 0 0 \/ q = mkV 3 4 \/ q = mkV 6 8) -> p = q \/ / 100000 < dist p q).
    { intros p q Hp Hq. decompose [or] Hp; decompose [or] Hq; subst; auto; right; unfold dist; apply norm_gt_iff; try lra; unfold psub; cbn [vx vy]; lra. }
    intros p q Hp Hq. apply Hf; cbn [In] in *; intuition auto.
  - exists l. split; auto. apply H2. cbn; auto.
Qed.

(** ** C43 *)
Theorem C43_distance : forall (r : ray R) (p : pt), frame (rdn r) ->
  exists q, nearest (ray_set r) p q /\ dist p q = ray_distance_to r p.
Proof. intros r p H. exists (ray_near r p). apply ray_near_spec; auto. Qed.
Print Assumptions C43_distance.
Theorem C43_contains : forall (E : R) (r : ray R) (p : pt), frame (rdn r) ->
  (ray_contains E r p = true <-> exists q, ray_set r q /\ dist p q < E).
Proof. exact ray_contains_iff. Qed.
Print Assumptions C43_contains.
(** The projection is the nearest point itself unless the point is behind the anchor. *)
Theorem C43_project : forall (E : R) (r : ray R) (p : pt), 0 < E < 1 -> frame (rdn r) ->
  exists q' q, ray_project E r p = Ok q' /\ nearest (ray_set r) p q /\ dist q' q < E /\
    (0 <= pdot (ddir (rdn r)) (psub p (ranchor r)) -> q' = q).
Proof.
  intros E r p HE Hf. destruct (ray_project_spec E r p HE Hf) as (q' & H1 & H2 & H3).
  exists q', (ray_near r p). destruct (ray_near_spec r p Hf). auto.
Qed.
Print Assumptions C43_project.
Theorem C43_points_roundtrip : forall (E : R) (r : ray R), 0 < E < 1 -> frame (rdn r) ->
  ray_from_points E [fst (ray_points r); snd (ray_points r)] = Ok r /\
  ray_set r (fst (ray_points r)) /\ ray_set r (snd (ray_points r)).
Proof.
  intros E r HE Hf. split; [apply ray_roundtrip; auto|]. unfold ray_points. cbn [fst snd]. split; [apply ray_set_anchor_in|].
  exists 1. rewrite pscale_1. split; [lra|reflexivity].
Qed.
Print Assumptions C43_points_roundtrip.
Theorem C43_from_points : forall (E : R) (ps : list pt), 0 < E ->
  (forall x, ray_from_points E ps = Err x -> x = ValueError) /\
  (forall r, ray_from_points E ps = Ok r -> frame (rdn r) /\ Forall (fun p => exists q, ray_set r q /\ dist p q < E) ps /\
    exists s e k rest, ps = s :: repeat s k ++ e :: rest /\ E < dist s e /\ ranchor r = s /\
      psub e s = pscale (dist s e) (ddir (rdn r))).
Proof.
  intros E ps HE. split; [intros x; apply ray_from_points_err; auto|]. intros r H.
  destruct (ray_from_points_ok E ps r HE H) as (? & ? & ?). auto.
Qed.
Print Assumptions C43_from_points.
Example C43_ex : let r := mkRay (mkD (mkV 1 0) (mkV 0 (-1))) (mkV 2 2) in
  frame (rdn r) /\ ray_distance_to r (mkV 5 6) = 4 /\ ray_distance_to r (mkV (-1) 6) = 5.
Proof.
  cbv zeta. split; [apply frame_10|]. rewrite !ray_distance_R. unfold pdot, psub; cbn [rdn ranchor ddir dnormal vx vy].
  split.
  - destruct (Rleb_spec 0 (1 * (5 - 2) + 0 * (6 - 2))); [|lra]. rewrite Rabs_left; lra.
  - destruct (Rleb_spec 0 (1 * (-1 - 2) + 0 * (6 - 2))); [lra|]. apply norm_unique; cbn [vx vy]; lra.
Qed.

(** ** C44: [c] is the carrier line ray.line *)
Theorem C44_partition : forall (E : R) (r : ray R) (p : pt), 0 < E < 1 -> frame (rdn r) ->
  exists c, ray_line E r = Ok c /\ (forall q, line_set c q <-> along_line (ranchor r) (ddir (rdn r)) q) /\
  exactly_one [ray_point_behind E r p; ray_point_left E r p; ray_point_right E r p;
               negb (ray_point_behind E r p) && line_contains E c p].
Proof.
  intros E r p HE Hf. destruct (ray_partition_R E r p HE Hf) as (c & Hc & H). exists c. split; auto. split; auto.
  unfold ray_line in Hc. destruct (C42_new_contains E (ranchor r) (ddir (rdn r)) HE) as [H1 _].
  destruct H1 as (l & Hl & _ & _ & Hq); [rewrite (proj1 Hf); lra|]. rewrite Hl in Hc. injection Hc as <-. auto.
Qed.
Print Assumptions C44_partition.
Theorem C44_regions : forall (E : R) (r : ray R) (p : pt), 0 < E -> frame (rdn r) ->
  let x := pdot (ddir (rdn r)) (psub p (ranchor r)) in let y := pcross (ddir (rdn r)) (psub p (ranchor r)) in
  (ray_point_behind E r p = true <-> x <= - E) /\
  (ray_point_left E r p = true <-> - E < x /\ E <= y) /\
  (ray_point_right E r p = true <-> - E < x /\ y <= - E).
Proof. exact ray_regions_R. Qed.
Print Assumptions C44_regions.
Example C44_ex : let r := mkRay (mkD (mkV 1 0) (mkV 0 (-1))) (mkV 2 2) in
  frame (rdn r) /\ ray_point_left 1 r (mkV 5 6) = true /\ ray_point_behind 1 r (mkV 0 6) = true.
Proof.
  cbv zeta. split; [apply frame_10|].
  destruct (ray_regions_R 1 (mkRay (mkD (mkV 1 0) (mkV 0 (-1))) (mkV 2 2)) (mkV 5 6)) as (_ & H1 & _); [lra|apply frame_10|].
  destruct (ray_regions_R 1 (mkRay (mkD (mkV 1 0) (mkV 0 (-1))) (mkV 2 2)) (mkV 0 6)) as (H2 & _); [lra|apply frame_10|].
  split; [apply H1|apply H2]; unfold pdot, pcross, psub; cbn [rdn ranchor ddir dnormal vx vy]; lra.
Qed.

(** ** C45 *)
Theorem C45_distance : forall (s : segment R) (p : pt), frame (sdn s) -> 0 <= slength s ->
  exists q, nearest (seg_set s) p q /\ dist p q = seg_distance_to s p.
Proof. intros s p H HL. exists (seg_near s p). apply seg_near_spec; auto. Qed.
Print Assumptions C45_distance.
Theorem C45_contains : forall (E : R) (s : segment R) (p : pt), frame (sdn s) -> 0 <= slength s ->
  (seg_contains E s p = true <-> exists q, seg_set s q /\ dist p q < E).
Proof. exact seg_contains_iff. Qed.
Print Assumptions C45_contains.
Theorem C45_project : forall (E : R) (s : segment R) (p : pt), 0 < E < 1 -> frame (sdn s) -> 0 <= slength s ->
  exists q' q, seg_project E s p = Ok q' /\ nearest (seg_set s) p q /\ dist q' q < E /\
    (0 <= pdot (ddir (sdn s)) (psub p (sanchor s)) <= slength s -> q' = q).
Proof.
  intros E s p HE Hf HL. destruct (seg_project_spec E s p HE Hf HL) as (q' & H1 & H2 & H3).
  exists q', (seg_near s p). destruct (seg_near_spec s p Hf HL). auto.
Qed.
Print Assumptions C45_project.
Theorem C45_partition : forall (E : R) (s : segment R) (p : pt), 0 < E < 1 -> frame (sdn s) -> 0 <= slength s ->
  exists c, seg_line E s = Ok c /\ (forall q, line_set c q <-> along_line (sanchor s) (ddir (sdn s)) q) /\
  exactly_one [seg_point_behind E s p; seg_point_ahead E s p; seg_point_left E s p; seg_point_right E s p;
               negb (seg_point_behind E s p) && negb (seg_point_ahead E s p) && line_contains E c p].
Proof.
  intros E s p HE Hf HL. destruct (seg_partition_R E s p HE Hf HL) as (c & Hc & H). exists c. split; auto. split; auto.
  unfold seg_line in Hc. destruct (C42_new_contains E (sanchor s) (ddir (sdn s)) HE) as [H1 _].
  destruct H1 as (l & Hl & _ & _ & Hq); [rewrite (proj1 Hf); lra|]. rewrite Hl in Hc. injection Hc as <-. auto.
Qed.
Print Assumptions C45_partition.
Theorem C45_regions : forall (E : R) (s : segment R) (p : pt), 0 < E -> frame (sdn s) ->
  let x := pdot (ddir (sdn s)) (psub p (sanchor s)) in let y := pcross (ddir (sdn s)) (psub p (sanchor s)) in
  (seg_point_behind E s p = true <-> x <= - E) /\
  (seg_point_ahead E s p = true <-> slength s + E <= x) /\
  (seg_point_left E s p = true <-> - E < x < slength s + E /\ E <= y) /\
  (seg_point_right E s p = true <-> - E < x < slength s + E /\ y <= - E).
Proof. exact seg_regions_R. Qed.
Print Assumptions C45_regions.
Example C45_ex : let s := mkSeg (mkD (mkV 1 0) (mkV 0 (-1))) (mkV 2 2) 10 in
  frame (sdn s) /\ 0 <= slength s /\ seg_distance_to s (mkV 15 6) = 5 /\ seg_point_ahead 1 s (mkV 15 6) = true.
Proof.
  cbv zeta. split; [apply frame_10|]. split; [cbn [slength]; lra|]. split.
  - rewrite seg_distance_R, seg_end_R. unfold sx, pdot, psub; cbn [sdn sanchor slength ddir dnormal vx vy].
    destruct (Rltb_spec (1 * (15 - 2) + 0 * (6 - 2)) 0); [lra|]. destruct (Rltb_spec 10 (1 * (15 - 2) + 0 * (6 - 2))); [|lra].
    apply norm_unique; unfold psub, padd, pscale; cbn [vx vy]; lra.
  - destruct (seg_regions_R 1 (mkSeg (mkD (mkV 1 0) (mkV 0 (-1))) (mkV 2 2) 10) (mkV 15 6)) as (_ & H1 & _); [lra|apply frame_10|].
    apply H1. unfold pdot, psub; cbn [sdn sanchor slength ddir dnormal vx vy]. lra.
Qed.

(** ** C46 *)
Theorem C46_refuted : exists (E : R) (s : segment R), 0 < E < 1 /\ seg_born E s /\
  slength s < 0 /\ seg_contains E s (sanchor s) = false /\ seg_contains E s (seg_mid s) = false.
Proof.
  exists (/ 100000).
  assert (Hn : norm (mkV 1 0) = 1) by (apply norm_unique; cbn [vx vy]; lra).
  assert (H : seg_from_normal (/ 100000) (mkV 1 0) 0 1 0 = Ok (mkSeg (mkD (mkV 0 1) (mkV 1 0)) (mkV 0 1) (-1))).
  { unfold seg_from_normal. rewrite set_normal_ok by lra. rewrite unit_id by auto. cbn [bind ddir dnormal].
    rewrite !vscale_pscale, vadd_padd. rnum. unfold padd, pscale; cbn [vx vy].
    replace (- 0) with 0 by ring. f_equal. f_equal; [vext; ring|ring]. }
  eexists. split; [lra|]. split; [eapply sb_normal; exact H|]. cbn [slength sanchor]. split; [lra|].
  assert (HC : forall p, sx (mkSeg (mkD (mkV 0 1) (mkV 1 0)) (mkV 0 1) (-1)) p = vy p - 1)
    by (intro p; unfold sx, pdot, psub; cbn [sdn sanchor ddir vx vy]; ring).
  unfold seg_contains. rewrite seg_mid_R. cbn [sanchor slength sdn ddir]. rewrite !seg_distance_R, !HC, seg_end_R.
  unfold padd, pscale; cbn [sdn sanchor slength ddir dnormal vx vy nltb RNum]. split.
  - destruct (Rltb_spec (1 - 1) 0); [lra|]. destruct (Rltb_spec (-1) (1 - 1)); [|lra].
    apply Rltb_false. unfold dist; rewrite (norm_unique _ 1); [lra|lra|]. unfold psub; cbn [vx vy]. lra.
  - destruct (Rltb_spec (1 + -1 / 2 * 1 - 1) 0); [|lra].
    apply Rltb_false. rewrite (norm_unique _ (1/2)); [lra|lra|]. unfold psub; cbn [vx vy]. lra.
Qed.
Print Assumptions C46_refuted.
(** Every other way: constructors other than [from_normal] with its end before
    its start, followed by any history without negative length assignments. *)
Inductive seg_born_forward (E : R) : segment R -> Prop :=
| sf_new p v l : seg_new E p v = Ok l -> seg_born_forward E l
| sf_points ps l : seg_from_points E ps = Ok l -> seg_born_forward E l
| sf_normal n o a b l : a <= b -> seg_from_normal E n o a b = Ok l -> seg_born_forward E l
| sf_mul l m l' : seg_mul E l m = Ok l' -> seg_born_forward E l'.
Lemma seg_born_forward_nonneg E s : 0 < E -> seg_born_forward E s -> frame (sdn s) /\ 0 <= slength s.
Proof.
  intros HE H. split.
  - apply (seg_born_frame E); auto. destruct H; [eapply sb_new|eapply sb_points|eapply sb_normal|eapply sb_mul]; eauto.
  - assert (Hpts : forall ps l, seg_from_points E ps = Ok l -> 0 <= slength l).
    { intros ps l Hl. destruct ps as [|p rest]; [discriminate|]. destruct (seg_from_points_ok E p rest l HE Hl) as (_ & _ & -> & _). apply dist_nonneg. }
    destruct H; eauto.
    + destruct (seg_new_ok E p v l HE H) as (_ & _ & -> & _). apply norm_nonneg.
    + unfold seg_from_normal in H0. invbind H0. injection H0 as <-. cbn [slength]. rnum. lra.
    + unfold seg_mul in H. destruct (seg_points l). eauto.
Qed.
Theorem C46_forward_partial : forall (E : R) (s : segment R) (os : list (seg_op R)), 0 < E ->
  seg_born_forward E s -> Forall length_ok os ->
  let s' := seg_run E s os in
  0 <= slength s' /\ slength s' = dist (sanchor s') (seg_end s') /\
  seg_contains E s' (sanchor s') = true /\ seg_contains E s' (seg_end s') = true /\
  seg_contains E s' (seg_mid s') = true /\ seg_mid s' = between (sanchor s') (seg_end s') (1/2).
Proof.
  intros E s os HE Hs Hos s'. destruct (seg_born_forward_nonneg E s HE Hs) as [Hf HL].
  assert (HL' : 0 <= slength s') by (apply seg_run_nonneg; auto).
  assert (Hf' : frame (sdn s')) by (apply seg_run_frame; auto).
  split; auto. apply seg_contains_ends; auto.
Qed.
Print Assumptions C46_forward_partial.
Theorem C46_set_end : forall (E : R) (s s' : segment R) (v : pt), 0 < E ->
  seg_act E (SEnd v) s = (Ok tt, s') -> seg_end s' = v /\ sanchor s' = sanchor s.
Proof.
  intros E s s' v HE H. rewrite seg_act_atomic in H. cbn [seg_try] in H.
  destruct (seg_set_end E s v) eqn:Hs; cbn [atomically] in H; [|discriminate]. injection H as <-.
  eapply seg_set_end_ok; eauto.
Qed.
Print Assumptions C46_set_end.
Example C46_ex : exists s, seg_born_forward (/ 100000) s /\ Forall length_ok [SLength 3; SDirection (mkV 1 1)].
Proof.
  destruct (seg_vector_setter_cases (/ 100000) (mkV 3 4)) as [(Hv & _)|[(Hv & _ & H)|[H _]]]; [lra| | |].
  - apply mkV_inj in Hv. lra.
  - eexists. split; [eapply (sf_new _ (mkV 0 0)); unfold seg_new; rewrite H; reflexivity|]. repeat constructor. cbn. lra.
  - rewrite norm_34 in H. lra.
Qed.

(** ** C47 *)
Theorem C47_from_points : forall (E : R) (p : pt) (rest : list pt) (s : segment R), 0 < E ->
  seg_from_points E (p :: rest) = Ok s ->
  sanchor s = p /\ In (seg_end s) (p :: rest) /\ (forall q, In q (p :: rest) -> dist p q <= dist p (seg_end s)) /\
  slength s = dist p (seg_end s) /\ frame (sdn s) /\
  Forall (fun q => exists r, seg_set s r /\ dist q r < E) (p :: rest).
Proof. intros E p rest s HE H. destruct (seg_from_points_ok E p rest s HE H) as (? & ? & ? & ? & ? & ?). auto 10. Qed.
Print Assumptions C47_from_points.
Theorem C47_rejects : forall (E : R) (ps : list pt), 0 < E ->
  (forall x, seg_from_points E ps = Err x -> x = ValueError) /\ seg_from_points E [] = Err ValueError.
Proof. intros E ps HE. split; [intro x; apply seg_from_points_err; auto|reflexivity]. Qed.
Print Assumptions C47_rejects.
Theorem C47_roundtrip : forall (E : R) (s : segment R), 0 < E < 1 -> frame (sdn s) -> E < slength s ->
  seg_from_points E [fst (seg_points s); snd (seg_points s)] = Ok s.
Proof. exact seg_roundtrip. Qed.
Print Assumptions C47_roundtrip.
(** Two points further apart than EPSILON, or equal: always accepted, and the
    ends are the two points. *)
Theorem C47_two_points : forall (E : R) (p q : pt), 0 < E < 1 -> (p = q \/ E < dist p q) ->
  exists s, seg_from_points E [p; q] = Ok s /\ sanchor s = p /\ seg_end s = q.
Proof.
  intros E p q HE H. rewrite seg_two_points by lra.
  destruct (seg_vector_setter E (psub q p)) as [[d len]|x] eqn:Hd.
  - apply seg_vector_setter_ok in Hd; [|lra]. destruct Hd as (Hf & Hl & Hv & _). eexists. split; [reflexivity|].
    rewrite seg_end_R. cbn [fst snd sanchor slength sdn]. rewrite Hv, padd_sub. auto.
  - apply seg_vector_setter_err in Hd; [|lra]. destruct Hd as [_ [[H1 H2]|]]; [|lra]. rewrite dist_norm_sub in H2.
    destruct H as [->|]; [|lra]. elim H1. unfold psub, porigin. vext; ring.
Qed.
Print Assumptions C47_two_points.
Example C47_ex : exists s, seg_from_points (/ 100000) [mkV 0 0; mkV 3 4] = Ok s /\ seg_end s = mkV 3 4.
Proof.
  destruct (C47_two_points (/ 100000) (mkV 0 0) (mkV 3 4)) as (s & H1 & H2 & H3); [lra| |eauto].
  right. unfold dist. apply norm_gt_iff; [lra|]. unfold psub; cbn [vx vy]. lra.
Qed.

(** ** C48.  A transform raises (a ValueError, the object unchanged) exactly
    when it collapses the direction within EPSILON; otherwise the new shape is
    exactly the image of the old one, as a set of points. *)
Theorem C48_line : forall (E : R) (l : line R) (m : affine R), 0 < E < 1 -> frame (ldn l) ->
  (norm (limg m (ddir (ldn l))) <= E -> line_act E (LTransform m) l = (Err ValueError, l) /\ line_mul E l m = Err ValueError) /\
  (E < norm (limg m (ddir (ldn l))) -> exists l', line_act E (LTransform m) l = (Ok tt, l') /\ line_mul E l m = Ok l' /\
     frame (ldn l') /\ (forall q', line_set l' q' <-> exists q, line_set l q /\ q' = img m q) /\
     limg m (ddir (ldn l)) = pscale (norm (limg m (ddir (ldn l)))) (ddir (ldn l'))).
Proof.
  intros E l m HE Hf. rewrite line_act_atomic, line_mul_imul by lra. cbn [line_try].
  pose proof (line_imul_image E l) as Hi.
  destruct (line_imul_cases E l m) as [(H1 & _ & d & Hd & H2 & Hv)|[H1 H2]]; [lra|auto| |].
  - split; [lra|]. intros _. rewrite H2. eexists. split; [reflexivity|]. split; [reflexivity|]. split; [exact Hd|].
    split; [|exact Hv]. apply (Hi _ m); auto; lra.
  - split; [|lra]. intros _. rewrite H2. auto.
Qed.
Print Assumptions C48_line.
Theorem C48_ray : forall (E : R) (r : ray R) (m : affine R), 0 < E < 1 -> frame (rdn r) ->
  (norm (limg m (ddir (rdn r))) <= E -> ray_act E (RTransform m) r = (Err ValueError, r) /\ ray_mul E r m = Err ValueError) /\
  (E < norm (limg m (ddir (rdn r))) -> exists r', ray_act E (RTransform m) r = (Ok tt, r') /\ ray_mul E r m = Ok r' /\
     frame (rdn r') /\ ranchor r' = img m (ranchor r) /\
     (forall q', ray_set r' q' <-> exists q, ray_set r q /\ q' = img m q)).
Proof.
  intros E r m HE Hf. rewrite ray_act_atomic, ray_mul_imul by lra. cbn [ray_try].
  pose proof (ray_imul_image E r) as Hi.
  destruct (ray_imul_cases E r m) as [(H1 & _ & d & Hd & H2 & Hv)|[H1 H2]]; [lra| |].
  - split; [lra|]. intros _. rewrite H2. eexists. split; [reflexivity|]. split; [reflexivity|]. split; [exact Hd|].
    apply (Hi _ m); auto; lra.
  - split; [|lra]. intros _. rewrite H2. auto.
Qed.
Print Assumptions C48_ray.
Theorem C48_segment : forall (E : R) (s : segment R) (m : affine R), 0 < E < 1 -> frame (sdn s) ->
  let v := psub (img m (seg_end s)) (img m (sanchor s)) in
  (v <> porigin -> norm v <= E -> seg_act E (STransform m) s = (Err ValueError, s) /\ seg_mul E s m = Err ValueError) /\
  (v = porigin \/ E < norm v -> exists s', seg_act E (STransform m) s = (Ok tt, s') /\ seg_mul E s m = Ok s' /\
     frame (sdn s') /\ sanchor s' = img m (sanchor s) /\ seg_end s' = img m (seg_end s) /\ slength s' = norm v /\
     (0 <= slength s -> forall q', seg_set s' q' <-> exists q, seg_set s q /\ q' = img m q)).
Proof.
  intros E s m HE Hf. cbv zeta. rewrite seg_act_atomic, seg_mul_imul by lra. cbn [seg_try].
  assert (Hv : psub (img m (seg_end s)) (img m (sanchor s)) = limg m (pscale (slength s) (ddir (sdn s)))).
  { rewrite img_sub, seg_end_R, psub_padd. reflexivity. }
  rewrite Hv. pose proof (seg_imul_image E s) as Hi.
  destruct (seg_imul_cases E s m) as [(s' & H1 & H2 & H3 & H4 & H5 & H6 & H7)|[H1 H2]]; [lra| |].
  - split.
    + intros K1 K2. destruct H7; [contradiction|lra].
    + intros _. rewrite H1. exists s'. split; [reflexivity|]. split; [reflexivity|]. repeat (split; [assumption|]).
      intros HL q'. apply (Hi s' m); auto; lra.
  - split.
    + intros _ _. rewrite H2. auto.
    + intros K. destruct H1 as [[H1 H1']|]; [|lra]. destruct K; [contradiction|lra].
Qed.
Print Assumptions C48_segment.
Example C48_ex : let m := mkA 2 0 1 0 3 1 in
  / 100000 < norm (limg m (mkV 1 0)) /\ norm (limg (mkA 0 0 1 0 3 1) (mkV 1 0)) <= / 100000.
Proof.
  cbv zeta. split.
  - apply norm_gt_iff; [lra|]. unfold limg; cbn [vx vy aa ab ac ad ae af]. lra.
  - apply norm_le_iff; [lra|]. unfold limg; cbn [vx vy aa ab ac ad ae af]. lra.
Qed.
