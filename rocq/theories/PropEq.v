(** * Properties C78 - C80: distance, quotients, equality of shapes *)
From Coq Require Import ZArith List Bool Reals Lra Lia Floats.
From Verif Require Import Num NumFloat Vec Affine Box Line Seq RBase VecFacts2 OrdLaws SpecGeom SpecBox SpecLine LineFacts EqFacts.
Import ListNotations.
Local Open Scope R_scope.

(** ** C78 *)
Theorem C78_distance_metric : forall a b c : pt,
  distance_to a b = dist a b /\ 0 <= distance_to a b /\ distance_to a b = distance_to b a /\
  distance_to a c <= distance_to a b + distance_to b c /\ (distance_to a b = 0 <-> a = b) /\
  distance_to a b = vlength (vsub a b) /\ vabs a = norm a.
Proof.
  intros a b c. rewrite !distance_to_dist. repeat split.
  - apply dist_nonneg. - apply dist_sym. - apply dist_triangle. - apply dist_zero. - apply dist_zero.
Qed.
Print Assumptions C78_distance_metric.

Theorem C78_dot_cross : forall a b : pt,
  dot a b = dot b a /\ cross a b = - cross b a /\ dot a a = norm a * norm a /\
  dot a b * dot a b + cross a b * cross a b = (norm a * norm a) * (norm b * norm b) /\
  cross a b = orient porigin a b /\ dot (perpendicular a) b = cross a b.
Proof.
  intros a b. split; [unfold dot; rnum; ring|]. split; [unfold cross; rnum; ring|].
  split; [rewrite norm_sq; reflexivity|]. split; [apply lagrange|].
  split; [unfold cross, orient, pcross, psub, porigin; rnum; ring|unfold dot, perpendicular, cross; rnum; ring].
Qed.
Print Assumptions C78_dot_cross.

Theorem C78_division : forall (v o : pt) (s : R),
  ((s = 0 -> vdivs v s = Err ZeroDivisionError) /\
   (s <> 0 -> exists w, vdivs v s = Ok w /\ vscale w s = v)) /\
  ((vx o = 0 \/ vy o = 0 -> vdiv v o = Err ZeroDivisionError /\ vrdivs s o = Err ZeroDivisionError) /\
   (vx o <> 0 -> vy o <> 0 -> (exists w, vdiv v o = Ok w /\ vmul w o = v) /\
                              (exists w, vrdivs s o = Ok w /\ vmul w o = mkV s s))).
Proof.
  intros v o s. split; [apply vdivs_spec|]. destruct (vdiv_spec v o) as [A1 A2], (vrdivs_spec o s) as [B1 B2]. split; auto.
Qed.
Print Assumptions C78_division.

Theorem C78_floor_division : forall (v o : pt) (s : R),
  ((s = 0 -> vfdivs v s = Err ZeroDivisionError) /\
   (s <> 0 -> exists w, vfdivs v s = Ok w /\ floor_of (vx v / s) (vx w) /\ floor_of (vy v / s) (vy w))) /\
  ((vx o = 0 \/ vy o = 0 -> vfdiv v o = Err ZeroDivisionError /\ vrfdivs s o = Err ZeroDivisionError) /\
   (vx o <> 0 -> vy o <> 0 ->
     (exists w, vfdiv v o = Ok w /\ floor_of (vx v / vx o) (vx w) /\ floor_of (vy v / vy o) (vy w)) /\
     (exists w, vrfdivs s o = Ok w /\ floor_of (s / vx o) (vx w) /\ floor_of (s / vy o) (vy w)))).
Proof.
  intros v o s. split; [apply vfdivs_spec|]. destruct (vfdiv_spec v o) as [A1 A2], (vrfdivs_spec o s) as [B1 B2]. split; auto.
Qed.
Print Assumptions C78_floor_division.

Example C78_ex : distance_to (mkV 0 0) (mkV 3 4) = 5 /\ floor_of (-7 / 2) (-4).
Proof.
  split.
  - rewrite distance_to_dist. rewrite dist_sym, <- norm_34. unfold dist. f_equal. unfold psub; vext; ring.
  - split; [exists (-4)%Z; reflexivity|lra].
Qed.

(** ** C79 *)
Theorem C79_meaning : forall E : R, 0 < E ->
  (forall b o : bbox R, box_almost_equals E b o = true <-> dist (bmin b) (bmin o) < E /\ dist (bmax b) (bmax o) < E) /\
  (forall l o : line R, line_almost_equals E l o = true <->
     Rabs (loffset l - loffset o) < E /\ dist (ddir (ldn l)) (ddir (ldn o)) < E) /\
  (forall l o : ray R, ray_almost_equals E l o = true <->
     dist (ranchor l) (ranchor o) < E /\ dist (ddir (rdn l)) (ddir (rdn o)) < E) /\
  (forall l o : segment R, seg_almost_equals E l o = true <->
     dist (sanchor l) (sanchor o) < E /\
     dist (pscale (slength l) (ddir (sdn l))) (pscale (slength o) (ddir (sdn o))) < E) /\
  (forall l o : list pt, seq_almost_equals E l o = true <-> Forall2 (fun p q => dist p q < E) l o) /\
  (forall m o : affine R, affine_almost_equals E m o = true <-> Forall2 (fun x y => Rabs (x - y) < E) (entries m) (entries o)).
Proof.
  intros E HE. split; [intros; apply box_ae_iff; auto|]. split; [intros; apply line_ae_iff; auto|].
  split; [intros; apply ray_ae_iff; auto|]. split; [intros; apply seg_ae_iff; auto|].
  split; [intros; apply seq_ae_iff; auto|intros; apply aff_ae_iff].
Qed.
Print Assumptions C79_meaning.

(** Reflexive and symmetric. *)
Definition tolerance {X} (r : X -> X -> bool) : Prop := (forall x, r x x = true) /\ (forall x y, r x y = r y x).
Lemma tolerance_iff {X} (r : X -> X -> bool) (P : X -> X -> Prop) :
  (forall x y, r x y = true <-> P x y) -> (forall x, P x x) -> (forall x y, P x y -> P y x) -> tolerance r.
Proof.
  intros H R S. split; [intro x; apply H, R|]. intros x y. destruct (r x y) eqn:A.
  - symmetry. apply H, S, H, A.
  - destruct (r y x) eqn:B; auto. apply H, S, H in B. congruence.
Qed.
Theorem C79_tolerance : forall E : R, 0 < E ->
  tolerance (@box_almost_equals R _ E) /\ tolerance (@line_almost_equals R _ E) /\ tolerance (@ray_almost_equals R _ E) /\
  tolerance (@seg_almost_equals R _ E) /\ tolerance (@seq_almost_equals R _ E) /\ tolerance (@affine_almost_equals R _ E).
Proof.
  intros E HE. destruct (C79_meaning E HE) as (H1 & H2 & H3 & H4 & H5 & H6).
  assert (D0 : forall p : pt, dist p p < E) by (intro; rewrite dist_self; auto).
  assert (DS : forall p q : pt, dist p q < E -> dist q p < E) by (intros; rewrite dist_sym; auto).
  assert (A0 : forall x : R, Rabs (x - x) < E) by (intro; replace (x - x) with 0 by ring; rewrite Rabs_R0; auto).
  assert (AS : forall x y : R, Rabs (x - y) < E -> Rabs (y - x) < E) by (intros; rewrite Rabs_minus_sym; auto).
  assert (FR : forall X (P : X -> X -> Prop), (forall x, P x x) -> forall l, Forall2 P l l) by (intros X P HP l; induction l; auto).
  assert (FS : forall X (P : X -> X -> Prop), (forall x y, P x y -> P y x) -> forall l o, Forall2 P l o -> Forall2 P o l)
    by (intros X P HP l o H; induction H; auto).
  repeat split.
  - intros; apply H1; auto.
  - apply (tolerance_iff _ _ H1); intuition.
  - intros; apply H2; auto.
  - apply (tolerance_iff _ _ H2); intuition.
  - intros; apply H3; auto.
  - apply (tolerance_iff _ _ H3); intuition.
  - intros; apply H4; auto.
  - apply (tolerance_iff _ _ H4); intuition.
  - intros; apply H5; auto.
  - apply (tolerance_iff _ _ H5); auto.
  - intros; apply H6; auto.
  - apply (tolerance_iff _ _ H6); auto.
Qed.
Print Assumptions C79_tolerance.
Example C79_ex : box_almost_equals 1 (mkBox (mkV 0 0) (mkV 2 2)) (mkBox (mkV 0 (1/2)) (mkV 2 2)) = true /\
  box_almost_equals 1 (mkBox (mkV 0 0) (mkV 2 2)) (mkBox (mkV 0 0) (mkV 2 3)) = false.
Proof.
  split.
  - apply (proj1 (C79_meaning 1 Rlt_0_1)). cbn [bmin bmax]. split; apply norm_lt_iff; unfold psub; cbn [vx vy]; lra.
  - apply not_true_iff_false. rewrite (proj1 (C79_meaning 1 Rlt_0_1)). cbn [bmin bmax]. intros [_ H].
    apply norm_lt_iff in H; [|lra]. unfold psub in H; cbn [vx vy] in H. lra.
Qed.

(** ** C80 *)
Theorem C80_boxes : forall b o : bbox R, (box_eqb b o = true <-> b = o) /\
  (proper b -> proper o -> (box_eqb b o = true <-> forall p, in_closed b p <-> in_closed o p)).
Proof.
  intros b o. split; [apply box_eqb_iff|]. intros Hb Ho. rewrite box_eqb_iff. split; [intros ->; tauto|apply box_set_eq; auto].
Qed.
Print Assumptions C80_boxes.
Theorem C80_lines_rays :
  (forall l o : line R, frame (ldn l) -> frame (ldn o) ->
     (line_eqb l o = true <-> (forall q, line_set l q <-> line_set o q) /\ ddir (ldn l) = ddir (ldn o))) /\
  (forall l o : line R, frame (ldn l) -> frame (ldn o) ->
     ((forall q, line_set l q <-> line_set o q) <->
      line_eqb l o = true \/ (ddir (ldn o) = pscale (-1) (ddir (ldn l)) /\ loffset o = - loffset l))) /\
  (forall r o : ray R, frame (rdn r) -> frame (rdn o) ->
     (ray_eqb r o = true <-> (forall q, ray_set r q <-> ray_set o q))).
Proof.
  split; [exact line_eqb_set|]. split; [|exact ray_eqb_set].
  intros l o Hl Ho. rewrite (line_eqb_iff l o) by auto. apply line_set_eq; auto.
Qed.
Print Assumptions C80_lines_rays.
Theorem C80_segments : forall s o : segment R,
  (seg_eqb s o = true <-> sanchor s = sanchor o /\ seg_end s = seg_end o) /\
  (frame (sdn s) -> frame (sdn o) -> 0 <= slength s -> 0 <= slength o -> seg_eqb s o = true ->
     (forall p, seg_distance_to s p = seg_distance_to o p) /\ (0 < slength s -> s = o)).
Proof.
  intros s o. split; [apply seg_eqb_ends|]. intros Hs Ho Ls Lo H. split.
  - intro p. apply seg_eqb_distance; auto.
  - intro. apply seg_eqb_pos; auto.
Qed.
Print Assumptions C80_segments.
Theorem C80_sequences : forall l o : list pt, seq_eqb l o = true <-> l = o.
Proof. exact seq_eqb_iff. Qed.
Print Assumptions C80_sequences.
Theorem C80_transforms : forall m o : affine R, affine_eqb m o = true <-> m = o.
Proof. exact affine_eqb_iff. Qed.
Print Assumptions C80_transforms.
Theorem C80_equivalence : forall (T : Type) (N : Num T) (D : T -> Prop), OrdLaws T N D ->
  equivalence_on (fun b => @vD T D (bmin b) /\ vD (D := D) (bmax b)) box_eqb /\
  equivalence_on (fun l => D (loffset l) /\ vD (D := D) (ddir (ldn l))) line_eqb /\
  equivalence_on (fun l => vD (D := D) (ranchor l) /\ vD (D := D) (ddir (rdn l))) ray_eqb /\
  equivalence_on (fun l => vD (D := D) (sanchor l) /\ vD (D := D) (vscale (ddir (sdn l)) (slength l))) seg_eqb /\
  equivalence_on (Forall (vD (D := D))) seq_eqb /\
  equivalence_on (fun m => Forall D (entries m)) affine_eqb.
Proof.
  intros T N D O. split; [exact (box_equiv O)|]. split; [exact (line_equiv O)|]. split; [exact (ray_equiv O)|].
  split; [exact (seg_equiv O)|]. split; [exact (seq_equiv O)|exact (affine_equiv O)].
Qed.
Print Assumptions C80_equivalence.
Theorem C80_equivalence_float : forall L : FloatLib, let N := FNum L in let ok x := not_nan x in
  let okv v := ok (vx v) /\ ok (vy v) in
  equivalence_on (fun b => okv (bmin b) /\ okv (bmax b)) box_eqb /\
  equivalence_on (fun l => ok (loffset l) /\ okv (ddir (ldn l))) line_eqb /\
  equivalence_on (fun l => okv (ranchor l) /\ okv (ddir (rdn l))) ray_eqb /\
  equivalence_on (fun l => okv (sanchor l) /\ okv (vscale (ddir (sdn l)) (slength l))) seg_eqb /\
  equivalence_on (Forall okv) seq_eqb /\
  equivalence_on (fun m => Forall ok (entries m)) affine_eqb.
Proof. intros L N ok okv. exact (C80_equivalence _ _ _ (float_ordlaws L)). Qed.
Print Assumptions C80_equivalence_float.

(** The full claim "equal segments answer every query alike" is false: for
    segments of length 0 with different directions, and for negative lengths. *)
Definition east : dirn R := mkD (mkV 1 0) (mkV 0 (-1)).
Definition north : dirn R := mkD (mkV 0 1) (mkV 1 0).
Definition west : dirn R := mkD (mkV (-1) 0) (mkV 0 1).
Lemma frame_axis : frame east /\ frame north /\ frame west.
Proof.
  assert (H : forall a b, a * a + b * b = 1 -> norm (mkV a b) = 1) by (intros; apply norm_unique; cbn [vx vy]; lra).
  repeat split; rewrite ?prot_m90; unfold east, north, west, cw; cbn [ddir dnormal vx vy]; try (apply H; lra); vext; ring.
Qed.
Theorem C80_equal_segments_differ_refuted : exists (E : R) (s o : segment R) (p : pt), 0 < E /\
  frame (sdn s) /\ frame (sdn o) /\ slength s = 0 /\ slength o = 0 /\
  seg_eqb s o = true /\ seg_point_left E s p <> seg_point_left E o p.
Proof.
  destruct frame_axis as (F1 & F2 & _).
  exists (1/4), (mkSeg east (mkV 0 0) 0), (mkSeg north (mkV 0 0) 0), (mkV 0 1).
  split; [lra|]. split; [exact F1|]. split; [exact F2|]. split; [auto|]. split; [auto|]. split.
  - apply seg_eqb_ends. cbn [sanchor]. split; auto. unfold seg_end, vadd, vscale, east, north; rnum. cbn [sanchor sdn ddir slength vx vy]. vext; ring.
  - unfold seg_point_left. rewrite vec2_of_R. unfold dot, vsub, east, north; rnum. cbn [sanchor sdn ddir dnormal slength vx vy].
    repeat match goal with |- context [Rltb ?a ?b] => destruct (Rltb_spec a b) end;
    repeat match goal with |- context [Rleb ?a ?b] => destruct (Rleb_spec a b) end; cbn; try discriminate; lra.
Qed.
Print Assumptions C80_equal_segments_differ_refuted.
Theorem C80_negative_length_refuted : exists (s o : segment R) (p : pt),
  frame (sdn s) /\ frame (sdn o) /\ seg_eqb s o = true /\ seg_distance_to s p <> seg_distance_to o p.
Proof.
  destruct frame_axis as (F1 & F2 & F3).
  exists (mkSeg east (mkV 0 0) (-1)), (mkSeg west (mkV 0 0) 1), (mkV (-1) 0).
  split; [exact F1|]. split; [exact F3|]. split.
  - apply seg_eqb_ends. cbn [sanchor]. split; auto. unfold seg_end, vadd, vscale, east, west; rnum. cbn [sanchor sdn ddir slength vx vy]. vext; ring.
  - unfold seg_distance_to. rewrite vec2_of_R. unfold dot, vsub, east, west; rnum. cbn [sanchor sdn ddir dnormal slength vx vy].
    destruct (Rltb_spec (1 * (-1 - 0) + 0 * (0 - 0)) 0); [|lra].
    destruct (Rltb_spec (-1 * (-1 - 0) + 0 * (0 - 0)) 0); [lra|].
    destruct (Rltb_spec 1 (-1 * (-1 - 0) + 0 * (0 - 0))); [lra|].
    replace ((-1 - 0) * 0 + (0 - 0) * 1) with 0 by ring. rewrite Rabs_R0.
    change (vlength (mkV (-1 - 0) (0 - 0))) with (norm (mkV (-1 - 0) (0 - 0))).
    rewrite (norm_unique _ 1); cbn [vx vy]; lra.
Qed.
Print Assumptions C80_negative_length_refuted.
Example C80_ex : frame (ldn (mkLine east 2)) /\ line_eqb (mkLine east 2) (mkLine west (-2)) = false.
Proof.
  destruct frame_axis as (F1 & F2 & F3). split; [exact F1|]. apply not_true_iff_false.
  rewrite line_eqb_iff by assumption. intro H. injection H. lra.
Qed.
