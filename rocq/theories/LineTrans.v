(** * Lines, rays and segments under transforms that keep shapes *)
From Coq Require Import ZArith List Bool Reals Lra Lia Psatz.
From Verif Require Import Num Vec Affine Line LineOps RBase VecFacts VecFacts2 AffineFacts SpecGeom SpecAffine SpecLine SpecMotion LineFacts LineFacts2 LineFacts3.
Import ListNotations.
Local Open Scope R_scope.

Lemma img_sub (m : affine R) (p q : pt) : psub (img m p) (img m q) = limg m (psub p q).
Proof. unfold psub, img, limg. cbn [vx vy]. f_equal; ring. Qed.
Section Stretch.
  Variables (k : R) (m : affine R).
  Hypothesis K : 0 < k.
  Hypothesis H : stretches k m.
  Lemma stretch_norm (u : pt) : norm (limg m u) = k * norm u.
  Proof.
    pose proof (H u (mkV 0 0)) as X. unfold dist in X. rewrite img_sub in X. replace (psub u (mkV 0 0)) with u in X; auto.
    destruct u as [u1 u2]. unfold psub. cbn [vx vy]. f_equal; ring.
  Qed.
  Lemma stretch_sq (u : pt) : pdot (limg m u) (limg m u) = k * k * pdot u u.
  Proof. pose proof (norm_sq (limg m u)) as X. rewrite stretch_norm in X. pose proof (norm_sq u) as Y. unfold pdot. rewrite <- X, <- Y. ring. Qed.
  Lemma stretch_dot (u v : pt) : pdot (limg m u) (limg m v) = k * k * pdot u v.
  Proof.
    pose proof (stretch_sq u) as X. pose proof (stretch_sq v) as Y. pose proof (stretch_sq (padd u v)) as Z. revert X Y Z. unfold pdot, limg, padd. cbn [vx vy]. intros. lra.
  Qed.
  Lemma stretch_det : det m * det m = k * k * (k * k).
  Proof.
    pose proof (stretch_sq (mkV 1 0)) as X. pose proof (stretch_sq (mkV 0 1)) as Y. pose proof (stretch_dot (mkV 1 0) (mkV 0 1)) as Z. revert X Y Z. unfold pdot, limg, det. cbn [vx vy]. intros.
    transitivity ((aa m * aa m + ab m * ab m) * (ad m * ad m + ae m * ae m) - (aa m * ad m + ab m * ae m) * (aa m * ad m + ab m * ae m)); [ring|].
    replace (aa m * aa m + ab m * ab m) with (k * k) by lra. replace (ad m * ad m + ae m * ae m) with (k * k) by lra. replace (aa m * ad m + ab m * ae m) with 0 by lra. ring.
  Qed.
  Lemma stretch_det_abs : Rabs (det m) = k * k.
  Proof. assert (P : 0 < k * k) by (apply Rmult_lt_0_compat; auto). apply sq_eq_iff; [apply Rabs_pos|lra|]. rewrite abs_sq. apply stretch_det. Qed.
End Stretch.
(** The frames before and after. *)
Section Frames.
  Variables (k : R) (m : affine R) (d d' : dirn R).
  Hypothesis K : 0 < k.
  Hypothesis F : frame d.
  Hypothesis F' : frame d'.
  Hypothesis D : limg m (ddir d) = pscale k (ddir d').
  Lemma frames_cross (w : pt) : k * pdot (dnormal d') (limg m w) = det m * pdot (dnormal d) w.
  Proof.
    apply frame_iff in F as [_ ->]. apply frame_iff in F' as [_ ->]. revert D. destruct (ddir d) as [x y], (ddir d') as [x' y'], w as [w1 w2].
    unfold limg, pscale, pdot, cw, det. cbn [vx vy]. intro D0. injection D0 as D1 D2.
    transitivity ((k * y') * (w1 * aa m + w2 * ad m) - (k * x') * (w1 * ab m + w2 * ae m)); [ring|]. rewrite <- D1, <- D2. ring.
  Qed.
  Hypothesis H : stretches k m.
  Lemma frames_dot (w : pt) : pdot (ddir d') (limg m w) = k * pdot (ddir d) w.
  Proof.
    apply Rmult_eq_reg_l with k; [|lra]. rewrite <- pdot_scale_l, <- D, (stretch_dot k m H). ring.
  Qed.
  Lemma frames_normal (w : pt) : pdot (dnormal d') (limg m w) = det m / k * pdot (dnormal d) w.
  Proof. apply Rmult_eq_reg_l with k; [|lra]. rewrite frames_cross. field. lra. Qed.
  Lemma frames_abs (w : pt) : Rabs (pdot (dnormal d') (limg m w)) = k * Rabs (pdot (dnormal d) w).
  Proof.
    rewrite frames_normal, Rabs_mult. f_equal. unfold Rdiv. rewrite Rabs_mult, (stretch_det_abs k m K H), (Rabs_pos_eq (/ k)) by (left; apply Rinv_0_lt_compat; auto). field. lra.
  Qed.
  Lemma frames_n : limg m (dnormal d) = pscale (det m / k) (dnormal d').
  Proof.
    pose proof (frame_decomp d' (limg m (dnormal d)) (mkV 0 0) F') as X. replace (psub (limg m (dnormal d)) (mkV 0 0)) with (limg m (dnormal d)) in X.
    - destruct (dot_frame d F) as (_ & H2 & H3 & _). rewrite frames_dot, frames_normal, H2, H3 in X. rewrite X. unfold padd, pscale. cbn [vx vy]. f_equal; ring.
    - unfold psub. cbn [vx vy]. destruct (limg m (dnormal d)) as [a b]. cbn [vx vy]. f_equal; ring.
  Qed.
End Frames.
(** ** Lines *)
Lemma line_distance_from (d : dirn R) (p q : pt) : line_distance_to (line_at d q) p = pdot (dnormal d) (psub p q).
Proof. rewrite line_distance_R. unfold line_at. cbn [ldn loffset]. rewrite pdot_sub_r, !(pdot_sym (dnormal d)). ring. Qed.
Lemma line_image (E : R) (l : line R) (m : affine R) : 0 < E < 1 -> frame (ldn l) -> E < norm (limg m (ddir (ldn l))) ->
  exists l', line_imul E l m = Ok l' /\ frame (ldn l') /\ limg m (ddir (ldn l)) = pscale (norm (limg m (ddir (ldn l)))) (ddir (ldn l')) /\ l' = line_at (ldn l') (img m (foot l)).
Proof.
  intros HE F HN. destruct (line_imul_cases E l m) as [(_ & _ & d & Fd & -> & Hd)|[[X|X] _]]; auto; try lra. exists (line_at d (img m (foot l))). cbn [ldn line_at]. auto.
Qed.
Lemma line_image_distance (E : R) (l l' : line R) (m : affine R) (p : pt) : frame (ldn l) -> frame (ldn l') ->
  limg m (ddir (ldn l)) = pscale (norm (limg m (ddir (ldn l)))) (ddir (ldn l')) -> l' = line_at (ldn l') (img m (foot l)) ->
  line_distance_to l' (img m p) * norm (limg m (ddir (ldn l))) = det m * line_distance_to l p.
Proof.
  intros F F' D ->. rewrite line_distance_from. cbn [ldn line_at] in *. rewrite img_sub, Rmult_comm.
  rewrite (frames_cross (norm (limg m (ddir (ldn l)))) m (ldn l) (ldn l')) by auto. f_equal. rewrite <- line_distance_from. f_equal. apply line_eta; auto.
Qed.
Lemma img_between (m : affine R) (p q : pt) (t : R) : img m (between p q t) = between (img m p) (img m q) t.
Proof. unfold between, img, padd, pscale, psub. cbn [vx vy]. f_equal; ring. Qed.
Section LineStretch.
  Variables (E k : R) (m : affine R) (l : line R).
  Hypothesis HE : 0 < E < 1.
  Hypothesis H : stretches k m.
  Hypothesis K : E < k.
  Hypothesis F : frame (ldn l).
  Lemma line_stretch : exists l', line_imul E l m = Ok l' /\ frame (ldn l') /\ forall p,
    line_distance_to l' (img m p) = det m / k * line_distance_to l p /\
    line_reflect l' (img m p) = img m (line_reflect l p) /\
    line_project E l' (img m p) = rmap (img m) (line_project E l p).
  Proof.
    assert (N : norm (limg m (ddir (ldn l))) = k). { rewrite (stretch_norm k m H), (proj1 F). ring. }
    destruct (line_image E l m HE F) as (l' & E1 & F' & D & E2); [rewrite N; auto|]. exists l'. split; auto. split; auto. intro p.
    pose proof (line_image_distance E l l' m p F F' D E2) as X. rewrite N in X, D.
    assert (X1 : line_distance_to l' (img m p) = det m / k * line_distance_to l p).
    { apply Rmult_eq_reg_r with k; [|lra]. rewrite X. field. lra. }
    assert (X2 : line_reflect l' (img m p) = img m (line_reflect l p)).
    { rewrite !line_reflect_R, X1. assert (Y : limg m (dnormal (ldn l)) = pscale (det m / k) (dnormal (ldn l'))) by (apply frames_n; auto; lra).
      replace (psub p (pscale (2 * line_distance_to l p) (dnormal (ldn l)))) with (padd p (pscale (- (2 * line_distance_to l p)) (dnormal (ldn l)))) by (unfold psub, padd, pscale; cbn [vx vy]; f_equal; ring).
      rewrite img_add, limg_scale, Y. unfold psub, padd, pscale. cbn [vx vy]. f_equal; ring. }
    split; auto. split; auto.
    destruct (line_reflect_spec E l p p) as (_ & _ & _ & (q & Q & Q1) & _); [lra|auto|]. destruct (line_reflect_spec E l' (img m p) (img m p)) as (_ & _ & _ & (q' & Q' & Q1') & _); [lra|auto|].
    rewrite Q, Q'. cbn [rmap]. f_equal. rewrite Q1, Q1', X2, img_between. reflexivity.
  Qed.
End LineStretch.
(** ** Rays *)
Section RayStretch.
  Variables (E k : R) (m : affine R) (r : ray R).
  Hypothesis HE : 0 < E < 1.
  Hypothesis H : stretches k m.
  Hypothesis K : E < k.
  Hypothesis F : frame (rdn r).
  Lemma ray_stretch : exists r', ray_imul E r m = Ok r' /\ frame (rdn r') /\ ranchor r' = img m (ranchor r) /\ limg m (ddir (rdn r)) = pscale k (ddir (rdn r')) /\
    forall p, ray_distance_to r' (img m p) = k * ray_distance_to r p.
  Proof.
    assert (N : norm (limg m (ddir (rdn r))) = k). { rewrite (stretch_norm k m H), (proj1 F). ring. }
    destruct (ray_imul_cases E r m) as [(_ & _ & d & Fd & -> & Hd)|[[X|X] _]]; try lra. rewrite N in Hd. eexists. split; [reflexivity|]. cbn [rdn ranchor]. repeat (split; auto). intro p.
    rewrite !ray_distance_R. cbn [rdn ranchor]. rewrite img_sub, (frames_dot k m (rdn r) d) by (auto; lra). rewrite !(pdot_sym _ (dnormal _)), (frames_abs k m (rdn r) d) by (auto; lra). rewrite (stretch_norm k m H).
    destruct (Rleb_spec 0 (k * pdot (ddir (rdn r)) (psub p (ranchor r)))), (Rleb_spec 0 (pdot (ddir (rdn r)) (psub p (ranchor r)))); auto; exfalso; nra.
  Qed.
End RayStretch.
(** ** Segments *)
Section SegStretch.
  Variables (E k : R) (m : affine R) (s : segment R).
  Hypothesis HE : 0 < E < 1.
  Hypothesis H : stretches k m.
  Hypothesis K : 0 < k.
  Hypothesis F : frame (sdn s).
  Hypothesis L : slength s = 0 \/ E < k * slength s.
  Lemma seg_stretch_length : exists s', seg_imul E s m = Ok s' /\ frame (sdn s') /\ sanchor s' = img m (sanchor s) /\ seg_end s' = img m (seg_end s) /\ slength s' = k * slength s /\
    (slength s <> 0 -> limg m (ddir (sdn s)) = pscale k (ddir (sdn s'))).
  Proof.
    assert (L0 : 0 <= slength s). { destruct L as [-> |L']; [lra|]. apply Rmult_le_reg_l with k; lra. }
    assert (N : norm (limg m (pscale (slength s) (ddir (sdn s)))) = k * slength s). { rewrite (stretch_norm k m H), norm_scale, (proj1 F), Rabs_pos_eq by auto. ring. }
    destruct (seg_imul_cases E s m) as [(s' & E1 & A & B & F' & L' & P & _)|[[[X1 X2]|X] _]]; try lra.
    - exists s'. split; auto. split; auto. split; auto. split; auto. split; [rewrite L', N; auto|]. intro Z. rewrite limg_scale in P. rewrite L', limg_scale in P.
      rewrite limg_scale in N. rewrite N in P. apply (f_equal (pscale (/ slength s))) in P.
      transitivity (pscale (/ slength s) (pscale (slength s) (limg m (ddir (sdn s))))).
      + destruct (limg m (ddir (sdn s))) as [a b]. unfold pscale. cbn [vx vy]. f_equal; field; auto.
      + rewrite <- P. unfold pscale. cbn [vx vy]. f_equal; field; auto.
    - exfalso. destruct L as [L'|L']; [|lra]. apply X1. rewrite L', limg_scale. unfold pscale, porigin. cbn [vx vy]. f_equal; ring.
  Qed.
  Lemma seg_stretch_distance (s' : segment R) (p : pt) : frame (sdn s') -> sanchor s' = img m (sanchor s) -> seg_end s' = img m (seg_end s) -> slength s' = k * slength s ->
    (slength s <> 0 -> limg m (ddir (sdn s)) = pscale k (ddir (sdn s'))) -> seg_distance_to s' (img m p) = k * seg_distance_to s p.
  Proof.
    intros F' A B C D. assert (L0 : 0 <= slength s). { destruct L as [-> |L']; [lra|]. apply Rmult_le_reg_l with k; lra. }
    destruct (Req_EM_T (slength s) 0) as [Z|Z].
    - assert (G : forall (c : segment R) q, frame (sdn c) -> slength c = 0 -> seg_distance_to c q = dist q (sanchor c)).
      { intros c q Fc Zc. rewrite seg_distance_R, Zc. replace (seg_end c) with (sanchor c) by (rewrite seg_end_R, Zc, padd_0; auto). change (norm (psub q (sanchor c))) with (dist q (sanchor c)).
        destruct (Rltb_spec (sx c q) 0) as [X|X]; auto. destruct (Rltb_spec 0 (sx c q)) as [Y|Y]; auto. rewrite pdot_sym, <- dist_along by auto.
        unfold sx in X, Y. replace (pdot (ddir (sdn c)) (psub q (sanchor c))) with 0 by lra. rewrite padd_0. auto. }
      rewrite !G; auto; [|rewrite C, Z; ring]. rewrite A. apply H.
    - specialize (D Z). rewrite !seg_distance_R, B, C. unfold sx. rewrite A, img_sub, (frames_dot k m (sdn s) (sdn s')) by auto. rewrite !(pdot_sym _ (dnormal _)), (frames_abs k m (sdn s) (sdn s')) by auto.
      rewrite (stretch_norm k m H), (H p (seg_end s)). set (x := pdot (ddir (sdn s)) (psub p (sanchor s))).
      destruct (Rltb_spec (k * x) 0), (Rltb_spec x 0); auto; try (exfalso; nra). destruct (Rltb_spec (k * slength s) (k * x)), (Rltb_spec (slength s) x); auto; exfalso; nra.
  Qed.
End SegStretch.
