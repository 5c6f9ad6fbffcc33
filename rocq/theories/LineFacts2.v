(** * Distances, projections and regions of lines, rays and segments *)
From Coq Require Import ZArith List Bool Reals Lra Lia Psatz.
From Verif Require Import Num Vec Affine Line LineOps RBase VecFacts VecFacts2 AffineFacts SpecGeom SpecAffine SpecLine LineFacts.
Import ListNotations.
Local Open Scope R_scope.

(** Decomposition of a point in the frame. *)
Lemma frame_decomp (d : dirn R) (p a : pt) : frame d ->
  p = padd (padd a (pscale (pdot (ddir d) (psub p a)) (ddir d))) (pscale (pdot (dnormal d) (psub p a)) (dnormal d)).
Proof.
  intro Hf. pose proof (frame_sq d Hf) as H1. apply frame_iff in Hf. destruct Hf as [_ H2]. rewrite H2.
  destruct d as [[u v] n], p as [p1 p2], a as [a1 a2]. cbn [ddir dnormal vx vy] in *.
  unfold padd, psub, pscale, pdot, cw; cbn [vx vy]. vext.
  - match goal with |- _ = ?r => assert (Hr : r = a1 + (u * u + v * v) * (p1 - a1)) by ring end. rewrite Hr, H1. ring.
  - match goal with |- _ = ?r => assert (Hr : r = a2 + (u * u + v * v) * (p2 - a2)) by ring end. rewrite Hr, H1. ring.
Qed.
Lemma dot_frame (d : dirn R) : frame d ->
  pdot (ddir d) (ddir d) = 1 /\ pdot (dnormal d) (dnormal d) = 1 /\ pdot (ddir d) (dnormal d) = 0 /\ pdot (dnormal d) (ddir d) = 0.
Proof.
  intro Hf. pose proof (frame_sq d Hf) as H1. apply frame_iff in Hf. destruct Hf as [_ H2]. rewrite H2.
  unfold pdot, cw; cbn [vx vy]. repeat split; lra.
Qed.
Lemma abs_sq (x : R) : Rabs x * Rabs x = x * x.
Proof. rewrite <- Rabs_mult. apply Rabs_right. nra. Qed.
Lemma abs_le_sq (x y : R) : Rabs x <= Rabs y <-> x * x <= y * y.
Proof. rewrite <- (abs_sq x), <- (abs_sq y). rewrite sq_le_iff by apply Rabs_pos. reflexivity. Qed.

(** Nearest point of a set of points a + t d. *)
Lemma nearest_frame (d : dirn R) (p a : pt) (P : R -> Prop) (t0 : R) : frame d -> P t0 ->
  (forall t, P t -> Rabs (pdot (ddir d) (psub p a) - t0) <= Rabs (pdot (ddir d) (psub p a) - t)) ->
  nearest (fun q => exists t, P t /\ q = padd a (pscale t (ddir d))) p (padd a (pscale t0 (ddir d))).
Proof.
  intros Hf H0 H. split; [eauto|]. intros r (t & Ht & ->).
  apply sq_le_inv; [|apply dist_nonneg]. rewrite !dist_frame_sq by auto.
  specialize (H t Ht). apply abs_le_sq in H. lra.
Qed.
Lemma dist_along (d : dirn R) (p a : pt) : frame d ->
  dist p (padd a (pscale (pdot (ddir d) (psub p a)) (ddir d))) = Rabs (pdot (dnormal d) (psub p a)).
Proof.
  intro Hf. apply sq_eq_iff; [apply dist_nonneg|apply Rabs_pos|]. rewrite dist_frame_sq, abs_sq by auto. ring.
Qed.
Lemma padd_0 (a d : pt) : padd a (pscale 0 d) = a.
Proof. destruct a as [a1 a2], d as [d1 d2]. unfold padd, pscale; cbn [vx vy]. vext; ring. Qed.
Lemma dist_same_axis (d a : pt) (s t : R) : norm d = 1 ->
  dist (padd a (pscale s d)) (padd a (pscale t d)) = Rabs (s - t).
Proof.
  intro H. unfold dist. replace (psub _ _) with (pscale (s - t) d).
  - rewrite norm_scale, H. ring.
  - unfold psub, padd, pscale; cbn [vx vy]. vext; ring.
Qed.
Lemma project_frame (E : R) (d : dirn R) (w : pt) : 0 <= E < 1 -> frame d ->
  vec_project E (ddir d) w = Ok (pscale (pdot (ddir d) w) (ddir d)).
Proof.
  intros HE Hf. pose proof (frame_sq d Hf) as H1.
  rewrite vec_project_big; rewrite length2_R, H1; [|nra]. f_equal. f_equal. field.
Qed.
Lemma pdot_scale_r (k : R) (v w : pt) : pdot v (pscale k w) = k * pdot v w.
Proof. unfold pdot, pscale; cbn [vx vy]. ring. Qed.
Lemma pdot_scale_l (k : R) (v w : pt) : pdot (pscale k v) w = k * pdot v w.
Proof. unfold pdot, pscale; cbn [vx vy]. ring. Qed.
Lemma pdot_add_l (u v w : pt) : pdot (padd u v) w = pdot u w + pdot v w.
Proof. unfold pdot, padd; cbn [vx vy]. ring. Qed.
Lemma pdot_sub_l (u v w : pt) : pdot (psub u v) w = pdot u w - pdot v w.
Proof. unfold pdot, psub; cbn [vx vy]. ring. Qed.
Lemma pdot_sub_r (u v w : pt) : pdot w (psub u v) = pdot w u - pdot w v.
Proof. unfold pdot, psub; cbn [vx vy]. ring. Qed.
Lemma pdot_add_r (u v w : pt) : pdot w (padd u v) = pdot w u + pdot w v.
Proof. unfold pdot, padd; cbn [vx vy]. ring. Qed.
Lemma pdot_sym (u v : pt) : pdot u v = pdot v u.
Proof. unfold pdot. ring. Qed.
Lemma padd_comm (u v : pt) : padd u v = padd v u.
Proof. unfold padd. vext; ring. Qed.

(** ** Lines *)
Definition foot (l : line R) : pt := pscale (loffset l) (dnormal (ldn l)).
Lemma line_set_along (l : line R) (q : pt) : frame (ldn l) ->
  (line_set l q <-> along_line (foot l) (ddir (ldn l)) q).
Proof.
  intro Hf. destruct (dot_frame _ Hf) as (H1 & H2 & H3 & H4). unfold line_set, along_line, foot. split.
  - intro H. exists (pdot (ddir (ldn l)) (psub q (foot l))).
    rewrite (frame_decomp (ldn l) q (foot l) Hf) at 1. unfold foot.
    replace (pdot (dnormal (ldn l)) (psub q (pscale (loffset l) (dnormal (ldn l))))) with 0.
    + rewrite padd_0. reflexivity.
    + rewrite pdot_sub_r, pdot_scale_r, H2, (pdot_sym _ q), H. ring.
  - intros [t ->]. rewrite pdot_add_l, !pdot_scale_l, H2, H3. ring.
Qed.
Lemma line_distance_R (l : line R) (p : pt) : line_distance_to l p = pdot p (dnormal (ldn l)) - loffset l.
Proof. unfold line_distance_to. rewrite vec2_of_R. reflexivity. Qed.
Lemma line_project_R (E : R) (l : line R) (p : pt) : 0 <= E < 1 -> frame (ldn l) ->
  line_project E l p = Ok (padd (foot l) (pscale (pdot (ddir (ldn l)) p) (ddir (ldn l)))).
Proof.
  intros HE Hf. unfold line_project. rewrite project_frame by auto. cbn [bind].
  rewrite vadd_padd, vscale_pscale, padd_comm. reflexivity.
Qed.
Lemma line_project_spec (E : R) (l : line R) (p : pt) : 0 <= E < 1 -> frame (ldn l) ->
  exists q, line_project E l p = Ok q /\ nearest (line_set l) p q /\ Rabs (line_distance_to l p) = dist p q.
Proof.
  intros HE Hf. rewrite line_project_R by auto. eexists. split; [reflexivity|].
  destruct (dot_frame _ Hf) as (H1 & H2 & H3 & H4).
  assert (Hx : pdot (ddir (ldn l)) (psub p (foot l)) = pdot (ddir (ldn l)) p).
  { unfold foot. rewrite pdot_sub_r, pdot_scale_r, H3. ring. }
  rewrite <- Hx. split.
  - destruct (nearest_frame (ldn l) p (foot l) (fun _ => True) (pdot (ddir (ldn l)) (psub p (foot l))) Hf I) as [Hn1 Hn2].
    { intros t _. rewrite Rminus_diag_eq by reflexivity. rewrite Rabs_R0. apply Rabs_pos. }
    split.
    + apply line_set_along; auto. eexists; reflexivity.
    + intros r Hr. apply Hn2. apply line_set_along in Hr; auto. destruct Hr as [t Ht]. eauto.
  - rewrite dist_along by auto. f_equal. rewrite line_distance_R. unfold foot.
    rewrite pdot_sub_r, pdot_scale_r, H2, (pdot_sym _ p). ring.
Qed.
Lemma line_reflect_R (l : line R) (p : pt) :
  line_reflect l p = psub p (pscale (2 * line_distance_to l p) (dnormal (ldn l))).
Proof.
  unfold line_reflect. rewrite vec2_of_R, !vscale_pscale, vsub_psub, line_distance_R.
  unfold pscale, psub; rnum; cbn [vx vy]. change (dot p (dnormal (ldn l))) with (pdot p (dnormal (ldn l))). vext; ring.
Qed.
Lemma line_reflect_spec (E : R) (l : line R) (p q : pt) : 0 <= E < 1 -> frame (ldn l) ->
  line_distance_to l (line_reflect l p) = - line_distance_to l p /\
  line_reflect l (line_reflect l p) = p /\
  dist (line_reflect l p) (line_reflect l q) = dist p q /\
  (exists m, line_project E l p = Ok m /\ m = between p (line_reflect l p) (1/2)) /\
  (line_set l p -> line_reflect l p = p).
Proof.
  intros HE Hf. destruct (dot_frame _ Hf) as (H1 & H2 & H3 & H4).
  assert (Hd : forall p, line_distance_to l (line_reflect l p) = - line_distance_to l p).
  { intro x. rewrite line_reflect_R, !line_distance_R, pdot_sub_l, pdot_scale_l, H2. ring. }
  split; [apply Hd|]. split.
  { rewrite (line_reflect_R l (line_reflect l p)), Hd, line_reflect_R. unfold psub, pscale; cbn [vx vy].
    destruct p as [p1 p2]; cbn [vx vy]. generalize (line_distance_to l (mkV p1 p2)). intro z. vext; ring. }
  split.
  { unfold dist. apply norm_eq. rewrite !line_reflect_R, !line_distance_R. unfold psub, pscale, pdot in *; cbn [vx vy].
    destruct p as [p1 p2], q as [q1 q2], (dnormal (ldn l)) as [n1 n2]; cbn [vx vy] in *.
    match goal with |- ?a = ?b => assert (a - b = (n1 * n1 + n2 * n2 - 1) * 4 * ((p1 - q1) * n1 + (p2 - q2) * n2) * ((p1 - q1) * n1 + (p2 - q2) * n2)) by ring end.
    rewrite H2 in H. lra. }
  split.
  { rewrite line_project_R by auto. eexists. split; [reflexivity|].
    rewrite line_reflect_R, line_distance_R, (pdot_sym p). unfold between, foot.
    pose proof (frame_decomp (ldn l) p porigin Hf) as Hp.
    replace (psub p porigin) with p in Hp by (unfold psub, porigin; destruct p as [p1 p2]; cbn [vx vy]; vext; ring).
    set (x := pdot (ddir (ldn l)) p) in *. set (y := pdot (dnormal (ldn l)) p) in *. clearbody x y.
    pose proof (f_equal vx Hp) as Hx. pose proof (f_equal vy Hp) as Hy. clear Hp.
    unfold padd, psub, pscale, porigin in *; cbn [vx vy] in *. vext; [rewrite Hx|rewrite Hy]; field. }
  intro H. rewrite line_reflect_R, line_distance_R. unfold line_set in H. rewrite H.
  unfold psub, pscale; cbn [vx vy]. destruct p as [p1 p2]; cbn [vx vy]. vext; ring.
Qed.
Lemma line_sides_R (E : R) (l : line R) (p q : pt) : 0 < E -> frame (ldn l) -> line_set l q ->
  (line_point_left E l p = true <-> E <= pcross (ddir (ldn l)) (psub p q)) /\
  (line_point_right E l p = true <-> pcross (ddir (ldn l)) (psub p q) <= - E) /\
  (line_contains E l p = true <-> Rabs (pcross (ddir (ldn l)) (psub p q)) < E).
Proof.
  intros HE Hf Hq. assert (H : line_distance_to l p = - pcross (ddir (ldn l)) (psub p q)).
  { rewrite line_distance_R. unfold line_set in Hq. rewrite <- Hq. apply frame_iff in Hf. destruct Hf as [_ ->].
    unfold pdot, pcross, psub, cw; cbn [vx vy]. ring. }
  unfold line_point_left, line_point_right, line_contains. rewrite H. rnum.
  rewrite !Rleb_true, Rltb_true, Rabs_Ropp. split; [|split]; split; intro; lra.
Qed.
Lemma dec_spec (b : bool) (P : Prop) : (b = true <-> P) -> {b = true /\ P} + {b = false /\ ~ P}.
Proof. intro H. destruct b; [left|right]; split; auto. - apply H; auto. - intro K. apply H in K. discriminate. Qed.
Lemma line_partition_R (E : R) (l : line R) (p : pt) : 0 < E ->
  exactly_one [line_point_left E l p; line_point_right E l p; line_contains E l p].
Proof.
  intro HE. unfold line_point_left, line_point_right, line_contains. generalize (line_distance_to l p); intro z. rnum.
  destruct (Rleb_spec z (-E)); destruct (Rleb_spec E z); destruct (Rltb_spec (Rabs z) E); try reflexivity; exfalso;
    unfold Rabs in *; destruct (Rcase_abs z); lra.
Qed.

(** contains_point = within E of a point of the shape *)
Lemma line_contains_iff (E : R) (l : line R) (p : pt) : 0 < E < 1 -> frame (ldn l) ->
  (line_contains E l p = true <-> exists q, line_set l q /\ dist p q < E).
Proof.
  intros HE Hf. destruct (line_project_spec E l p) as (q & _ & Hn & Hd); [lra|auto|].
  unfold line_contains. rnum. rewrite Rltb_true, Hd. split.
  - intro H. exists q. split; auto. apply Hn.
  - intros (r & Hr & H). apply Hn in Hr. lra.
Qed.
Lemma dist_line_ge (l : line R) (p q : pt) : frame (ldn l) -> line_set l q -> Rabs (line_distance_to l p) <= dist p q.
Proof.
  intros Hf Hq. destruct (line_project_spec 0 l p) as (r & _ & Hn & Hd); [lra|auto|]. rewrite Hd. apply Hn; auto.
Qed.

(** ** Rays *)
Lemma ray_distance_R (r : ray R) (p : pt) : ray_distance_to r p =
  if Rleb 0 (pdot (ddir (rdn r)) (psub p (ranchor r))) then Rabs (pdot (psub p (ranchor r)) (dnormal (rdn r)))
  else norm (psub p (ranchor r)).
Proof. unfold ray_distance_to. rewrite vec2_of_R. reflexivity. Qed.
Definition rx (r : ray R) (p : pt) : R := pdot (ddir (rdn r)) (psub p (ranchor r)).
Definition ray_near (r : ray R) (p : pt) : pt := padd (ranchor r) (pscale (Rmax 0 (rx r p)) (ddir (rdn r))).
Lemma ray_near_spec (r : ray R) (p : pt) : frame (rdn r) ->
  nearest (ray_set r) p (ray_near r p) /\ dist p (ray_near r p) = ray_distance_to r p.
Proof.
  intro Hf. split.
  - apply (nearest_frame (rdn r) p (ranchor r) (fun t => 0 <= t)); auto.
    + apply Rmax_l.
    + intros t Ht. fold (rx r p). unfold Rmax. destruct (Rle_dec 0 (rx r p)).
      * rewrite Rminus_diag_eq by reflexivity. rewrite Rabs_R0. apply Rabs_pos.
      * rewrite !Rabs_left by lra. lra.
  - rewrite ray_distance_R. unfold ray_near. fold (rx r p). unfold Rmax.
    destruct (Rle_dec 0 (rx r p)); destruct (Rleb_spec 0 (rx r p)); try lra.
    + unfold rx. rewrite dist_along by auto. rewrite pdot_sym. reflexivity.
    + rewrite padd_0. reflexivity.
Qed.
Lemma ray_contains_iff (E : R) (r : ray R) (p : pt) : frame (rdn r) ->
  (ray_contains E r p = true <-> exists q, ray_set r q /\ dist p q < E).
Proof.
  intros Hf. destruct (ray_near_spec r p Hf) as [Hn Hd]. unfold ray_contains. rnum. rewrite Rltb_true, <- Hd. split.
  - intro H. exists (ray_near r p). split; auto. apply Hn.
  - intros (q & Hr & H). apply Hn in Hr. lra.
Qed.
Lemma ray_project_spec (E : R) (r : ray R) (p : pt) : 0 < E < 1 -> frame (rdn r) ->
  exists q', ray_project E r p = Ok q' /\ dist q' (ray_near r p) < E /\ (0 <= rx r p -> q' = ray_near r p).
Proof.
  intros HE Hf. unfold ray_project. rewrite vec2_of_R, vsub_psub, project_frame by (auto; lra). cbn [bind].
  fold (rx r p). change (dot ?a ?b) with (pdot a b). rewrite pdot_scale_l.
  destruct (dot_frame _ Hf) as (H1 & _). rewrite H1, Rmult_1_r. rnum. unfold ray_near.
  destruct (Rltb_spec (-E) (rx r p)).
  - eexists. split; [reflexivity|]. rewrite vadd_padd, padd_comm, dist_same_axis by apply Hf.
    unfold Rmax. destruct (Rle_dec 0 (rx r p)).
    + rewrite Rminus_diag_eq, Rabs_R0 by reflexivity. split; [lra|auto].
    + rewrite Rabs_left by lra. split; lra.
  - eexists. split; [reflexivity|]. rewrite <- (padd_0 (ranchor r) (ddir (rdn r))) at 1.
    rewrite dist_same_axis by apply Hf. unfold Rmax. destruct (Rle_dec 0 (rx r p)); [lra|].
    rewrite Rminus_diag_eq, Rabs_R0 by reflexivity. split; lra.
Qed.
Lemma unit_id (d : pt) : norm d = 1 -> unit d = d.
Proof. intro H. rewrite <- (pscale_1 d) at 1. apply unit_of_scale; auto; lra. Qed.
Lemma dirn_eta (d : dirn R) : frame d -> mkD (ddir d) (cw (ddir d)) = d.
Proof. intro Hf. apply frame_iff in Hf. destruct Hf as [_ <-]. destruct d; reflexivity. Qed.
Lemma set_direction_same (E : R) (d : dirn R) : 0 < E < 1 -> frame d -> set_direction E (ddir d) = Ok d.
Proof.
  intros HE Hf. pose proof Hf as [H1 _]. rewrite set_direction_ok by lra. rewrite unit_id by auto. f_equal.
  apply dirn_eta; auto.
Qed.
Lemma ray_line_R (E : R) (r : ray R) : 0 < E < 1 -> frame (rdn r) ->
  ray_line E r = Ok (mkLine (rdn r) (pdot (ranchor r) (dnormal (rdn r)))).
Proof.
  intros HE Hf. unfold ray_line, line_new. rewrite set_direction_same by auto. cbn [bind]. rewrite vec2_of_R. reflexivity.
Qed.
Definition ry (r : ray R) (p : pt) : R := pdot (dnormal (rdn r)) (psub p (ranchor r)).
Lemma ray_partition_R (E : R) (r : ray R) (p : pt) : 0 < E < 1 -> frame (rdn r) -> exists c, ray_line E r = Ok c /\
  exactly_one [ray_point_behind E r p; ray_point_left E r p; ray_point_right E r p;
               negb (ray_point_behind E r p) && line_contains E c p].
Proof.
  intros HE Hf. rewrite ray_line_R by auto. eexists. split; [reflexivity|].
  unfold ray_point_behind, ray_point_left, ray_point_right, line_contains. rewrite line_distance_R. cbn [ldn loffset].
  rewrite vec2_of_R, vsub_psub. change (dot (ddir (rdn r)) (psub p (ranchor r))) with (rx r p).
  change (dot (dnormal (rdn r)) (psub p (ranchor r))) with (ry r p).
  replace (pdot p (dnormal (rdn r)) - pdot (ranchor r) (dnormal (rdn r))) with (ry r p)
    by (unfold ry; rewrite pdot_sub_r, !(pdot_sym (dnormal (rdn r))); reflexivity).
  generalize (rx r p) (ry r p). intros x y. rnum.
  destruct (Rleb_spec x (-E)), (Rltb_spec (-E) x), (Rleb_spec y (-E)), (Rleb_spec E y), (Rltb_spec (Rabs y) E);
    try reflexivity; exfalso; unfold Rabs in *; destruct (Rcase_abs y); lra.
Qed.
Lemma ray_regions_R (E : R) (r : ray R) (p : pt) : 0 < E -> frame (rdn r) ->
  (ray_point_behind E r p = true <-> pdot (ddir (rdn r)) (psub p (ranchor r)) <= - E) /\
  (ray_point_left E r p = true <-> - E < pdot (ddir (rdn r)) (psub p (ranchor r)) /\ E <= pcross (ddir (rdn r)) (psub p (ranchor r))) /\
  (ray_point_right E r p = true <-> - E < pdot (ddir (rdn r)) (psub p (ranchor r)) /\ pcross (ddir (rdn r)) (psub p (ranchor r)) <= - E).
Proof.
  intros HE Hf. unfold ray_point_behind, ray_point_left, ray_point_right. rewrite vec2_of_R, vsub_psub.
  change (dot (ddir (rdn r)) (psub p (ranchor r))) with (rx r p).
  change (dot (dnormal (rdn r)) (psub p (ranchor r))) with (ry r p). fold (rx r p).
  assert (H : ry r p = - pcross (ddir (rdn r)) (psub p (ranchor r))).
  { unfold ry. apply frame_iff in Hf. destruct Hf as [_ ->]. unfold pdot, pcross, psub, cw; cbn [vx vy]. ring. }
  rewrite H. rnum. rewrite !andb_true_iff, !Rleb_true, Rltb_true. split; [|split]; split; intro; lra.
Qed.

(** ** Segments *)
Definition sx (s : segment R) (p : pt) : R := pdot (ddir (sdn s)) (psub p (sanchor s)).
Definition sy (s : segment R) (p : pt) : R := pdot (dnormal (sdn s)) (psub p (sanchor s)).
Definition clampR (lo hi x : R) : R := Rmax lo (Rmin hi x).
Definition seg_near (s : segment R) (p : pt) : pt :=
  padd (sanchor s) (pscale (clampR 0 (slength s) (sx s p)) (ddir (sdn s))).
Lemma seg_end_R (s : segment R) : seg_end s = padd (sanchor s) (pscale (slength s) (ddir (sdn s))).
Proof. unfold seg_end. rewrite vadd_padd, vscale_pscale. reflexivity. Qed.
Lemma seg_mid_R (s : segment R) : seg_mid s = padd (sanchor s) (pscale (slength s / 2) (ddir (sdn s))).
Proof. unfold seg_mid. rewrite vadd_padd, vscale_pscale. rnum. f_equal. Qed.
Lemma seg_distance_R (s : segment R) (p : pt) : seg_distance_to s p =
  if Rltb (sx s p) 0 then norm (psub p (sanchor s))
  else if Rltb (slength s) (sx s p) then dist p (seg_end s)
  else Rabs (pdot (psub p (sanchor s)) (dnormal (sdn s))).
Proof. unfold seg_distance_to. rewrite vec2_of_R. reflexivity. Qed.
Ltac rmm := unfold clampR, Rmax, Rmin in *;
  repeat match goal with |- context [Rle_dec ?a ?b] => destruct (Rle_dec a b) | H : context [Rle_dec ?a ?b] |- _ => destruct (Rle_dec a b) end.
Lemma seg_near_spec (s : segment R) (p : pt) : frame (sdn s) -> 0 <= slength s ->
  nearest (seg_set s) p (seg_near s p) /\ dist p (seg_near s p) = seg_distance_to s p.
Proof.
  intros Hf HL. split.
  - apply (nearest_frame (sdn s) p (sanchor s) (fun t => 0 <= t <= slength s)); auto.
    + rmm; lra.
    + intros t Ht. fold (sx s p). rmm; unfold Rabs; repeat destruct (Rcase_abs _); lra.
  - rewrite seg_distance_R, seg_end_R. unfold seg_near. fold (sx s p).
    destruct (Rltb_spec (sx s p) 0); [|destruct (Rltb_spec (slength s) (sx s p))].
    + replace (clampR 0 (slength s) (sx s p)) with 0 by (rmm; lra). rewrite padd_0. reflexivity.
    + replace (clampR 0 (slength s) (sx s p)) with (slength s) by (rmm; lra). reflexivity.
    + replace (clampR 0 (slength s) (sx s p)) with (sx s p) by (rmm; lra). unfold sx. rewrite dist_along by auto.
      rewrite pdot_sym. reflexivity.
Qed.
Lemma seg_contains_iff (E : R) (s : segment R) (p : pt) : frame (sdn s) -> 0 <= slength s ->
  (seg_contains E s p = true <-> exists q, seg_set s q /\ dist p q < E).
Proof.
  intros Hf HL. destruct (seg_near_spec s p Hf HL) as [Hn Hd]. unfold seg_contains. rnum. rewrite Rltb_true, <- Hd. split.
  - intro H. exists (seg_near s p). split; auto. apply Hn.
  - intros (q & Hr & H). apply Hn in Hr. lra.
Qed.
Lemma seg_project_spec (E : R) (s : segment R) (p : pt) : 0 < E < 1 -> frame (sdn s) -> 0 <= slength s ->
  exists q', seg_project E s p = Ok q' /\ dist q' (seg_near s p) < E /\ (0 <= sx s p <= slength s -> q' = seg_near s p).
Proof.
  intros HE Hf HL. unfold seg_project. rewrite vec2_of_R, vsub_psub, project_frame by (auto; lra). cbn [bind].
  fold (sx s p). change (dot ?a ?b) with (pdot a b). rewrite pdot_scale_l.
  destruct (dot_frame _ Hf) as (H1 & _). rewrite H1, Rmult_1_r. rnum. unfold seg_near.
  destruct (Rleb_spec (sx s p) (-E)); [|destruct (Rleb_spec (slength s + E) (sx s p))].
  - eexists. split; [reflexivity|]. rewrite <- (padd_0 (sanchor s) (ddir (sdn s))) at 1.
    rewrite dist_same_axis by apply Hf. replace (clampR 0 (slength s) (sx s p)) with 0 by (rmm; lra).
    rewrite Rminus_diag_eq, Rabs_R0 by reflexivity. split; lra.
  - eexists. split; [reflexivity|]. rewrite seg_end_R.
    rewrite dist_same_axis by apply Hf. replace (clampR 0 (slength s) (sx s p)) with (slength s) by (rmm; lra).
    rewrite Rminus_diag_eq, Rabs_R0 by reflexivity. split; lra.
  - eexists. split; [reflexivity|]. rewrite vadd_padd, padd_comm, dist_same_axis by apply Hf. split.
    + apply Rabs_lt_iff. rmm; lra.
    + intros [H2 H3]. f_equal. f_equal. rmm; lra.
Qed.
Lemma seg_line_R (E : R) (s : segment R) : 0 < E < 1 -> frame (sdn s) ->
  seg_line E s = Ok (mkLine (sdn s) (pdot (sanchor s) (dnormal (sdn s)))).
Proof.
  intros HE Hf. unfold seg_line, line_new. rewrite set_direction_same by auto. cbn [bind]. rewrite vec2_of_R. reflexivity.
Qed.
Lemma seg_partition_R (E : R) (s : segment R) (p : pt) : 0 < E < 1 -> frame (sdn s) -> 0 <= slength s ->
  exists c, seg_line E s = Ok c /\
  exactly_one [seg_point_behind E s p; seg_point_ahead E s p; seg_point_left E s p; seg_point_right E s p;
               negb (seg_point_behind E s p) && negb (seg_point_ahead E s p) && line_contains E c p].
Proof.
  intros HE Hf HL. rewrite seg_line_R by auto. eexists. split; [reflexivity|].
  unfold seg_point_behind, seg_point_ahead, seg_point_left, seg_point_right, line_contains. rewrite line_distance_R. cbn [ldn loffset].
  rewrite vec2_of_R, vsub_psub. change (dot (ddir (sdn s)) (psub p (sanchor s))) with (sx s p).
  change (dot (dnormal (sdn s)) (psub p (sanchor s))) with (sy s p).
  replace (pdot p (dnormal (sdn s)) - pdot (sanchor s) (dnormal (sdn s))) with (sy s p)
    by (unfold sy; rewrite pdot_sub_r, !(pdot_sym (dnormal (sdn s))); reflexivity).
  generalize (sx s p) (sy s p). intros x y. rnum.
  destruct (Rleb_spec x (-E)), (Rltb_spec (-E) x), (Rleb_spec (slength s + E) x), (Rltb_spec x (slength s + E)),
    (Rleb_spec y (-E)), (Rleb_spec E y), (Rltb_spec (Rabs y) E);
    try reflexivity; exfalso; unfold Rabs in *; try destruct (Rcase_abs y); lra.
Qed.
Lemma seg_regions_R (E : R) (s : segment R) (p : pt) : 0 < E -> frame (sdn s) ->
  (seg_point_behind E s p = true <-> pdot (ddir (sdn s)) (psub p (sanchor s)) <= - E) /\
  (seg_point_ahead E s p = true <-> slength s + E <= pdot (ddir (sdn s)) (psub p (sanchor s))) /\
  (seg_point_left E s p = true <-> - E < pdot (ddir (sdn s)) (psub p (sanchor s)) < slength s + E /\ E <= pcross (ddir (sdn s)) (psub p (sanchor s))) /\
  (seg_point_right E s p = true <-> - E < pdot (ddir (sdn s)) (psub p (sanchor s)) < slength s + E /\ pcross (ddir (sdn s)) (psub p (sanchor s)) <= - E).
Proof.
  intros HE Hf. unfold seg_point_behind, seg_point_ahead, seg_point_left, seg_point_right. rewrite vec2_of_R, vsub_psub.
  change (dot (ddir (sdn s)) (psub p (sanchor s))) with (sx s p).
  change (dot (dnormal (sdn s)) (psub p (sanchor s))) with (sy s p). fold (sx s p).
  assert (H : sy s p = - pcross (ddir (sdn s)) (psub p (sanchor s))).
  { unfold sy. apply frame_iff in Hf. destruct Hf as [_ ->]. unfold pdot, pcross, psub, cw; cbn [vx vy]. ring. }
  rewrite H. rnum. rewrite !andb_true_iff, !Rleb_true, !Rltb_true. repeat (split; [split; intro; lra|]). split; intro; lra.
Qed.
