(** * Property C98: transforming a polygon and a point together *)
From Coq Require Import ZArith QArith List Bool Reals Lra Lia Permutation.
From Verif Require Import Num Vec Affine Box Seq Polygon PolyOps SpecPoly SpecGeom SpecCycle SpecTri SpecMass SpecConvex SpecExtreme SpecAffine SpecWind SpecHull RBase VecFacts VecFacts2 AffineFacts
  PolyCache PolyCache2 PolyCache3 PolyCache4 PolyCache5 NumHom RComp PolyEq CentroidFacts WindFacts TriFacts TransTri TransFacts BoxFacts2 ConvexFacts ConvexFacts2 ConvexFacts3 ConvexFacts4 PropWind PropTri PropPoly PropConvex PropSimple PropPnp.
Import ListNotations.
Local Open Scope R_scope.

(** ** C98 *)
Lemma map_aapply_img (m : affine R) (l : list pt) : map (aapply m) l = map (img m) l.
Proof. apply map_ext. intro. apply aapply_R. Qed.
Lemma mul_fresh (p : poly R) (m : affine R) : poly_mul p m = pfresh (map (img m) (pverts p)).
Proof. unfold poly_mul. rewrite map_aapply_img. reflexivity. Qed.
Lemma fresh_winding (E : R) (vs : list pt) (q : pt) : (3 < length vs)%nat -> fst (contains_point E q (pfresh vs)) = winding_test vs q.
Proof.
  intro L. pose proof (C57_filter_harmless vs [] E q) as H. cbn zeta in H. unfold prun in H. cbn [fold_left] in H. change (poly_from_points vs) with (pfresh vs) in H.
  rewrite pverts_fresh in H. destruct (pfresh_big vs L) as (_ & H2). apply H; auto; unfold pfresh, poly_from_points, cleared; cbn; try discriminate; auto.
Qed.
(** Any invertible transform, also shears, mirror images and unequal scales: the
    transformed polygon contains the transformed point just when the polygon
    contains the point, for all points off the boundary, for polygons of any
    shape (also crossing themselves), after any calls on the polygon that have
    not made the query switch to the binary search. *)
Theorem C98_commutes_partial : forall (vs : list pt) (os : list (pop R)) (m : affine R) (E E' : R) (q : pt), let p := prun (poly_from_points vs) os in
  det m <> 0 -> (3 < length (pverts p))%nat -> pypl p = None -> pcentroid p <> Some None -> off_edges q (pverts p) ->
  fst (contains_point E' (aapply m q) (poly_mul p m)) = fst (contains_point E q p).
Proof.
  intros vs os m E E' q p D L Y C O. pose proof (C57_filter_harmless vs os E q L Y C) as W. fold p in W. rewrite W. clear W. rewrite mul_fresh, aapply_R, fresh_winding by (rewrite map_length; auto).
  apply winding_img; auto.
Qed.
Print Assumptions C98_commutes_partial.
(** The same in place, with p *= m. *)
Theorem C98_in_place_partial : forall (vs : list pt) (os : list (pop R)) (m : affine R) (E E' : R) (q : pt), let p := prun (poly_from_points vs) os in
  det m <> 0 -> (3 < length (pverts p))%nat -> pypl p = None -> pcentroid p <> Some None -> off_edges q (pverts p) ->
  fst (contains_point E' (aapply m q) (poly_imul p m)) = fst (contains_point E q p).
Proof.
  intros vs os m E E' q p D L Y C O. pose proof (C57_filter_harmless vs os E q L Y C) as W. fold p in W. rewrite W. clear W.
  assert (X : poly_imul p m = prun (poly_from_points vs) (os ++ [PImul m])). { unfold prun. rewrite fold_left_app. reflexivity. }
  assert (V : pverts (poly_imul p m) = map (img m) (pverts p)). { cbn [poly_imul cleared pverts]. apply itransform_R. }
  pose proof (C57_filter_harmless vs (os ++ [PImul m]) E' (aapply m q)) as H. cbn zeta in H. rewrite <- X, V in H. rewrite map_length in H.
  rewrite H; auto; [|cbn; discriminate]. rewrite aapply_R. apply winding_img; auto.
Qed.
Print Assumptions C98_in_place_partial.
(** Triangles, after any queries on either side. *)
Theorem C98_triangle_partial : forall (vs : list pt) (m : affine R) (E E' : R) (qs qs' : list (pread R)) (q : pt),
  length vs = 3%nat -> det m <> 0 -> 0 <= E -> 0 <= E' -> Forall (same_eps E) qs -> Forall (same_eps E') qs' ->
  roomy E vs \/ area2 vs = 0 -> roomy E' (map (img m) vs) \/ area2 vs = 0 -> off_edges q vs ->
  fst (contains_point E' (aapply m q) (preads (poly_mul (poly_from_points vs) m) qs')) = fst (contains_point E q (preads (poly_from_points vs) qs)).
Proof.
  intros vs m E E' qs qs' q L D HE HE' Q Q' R1 R2 O. rewrite (C56_agrees vs E qs q L HE R1 Q). rewrite mul_fresh, aapply_R. change (pverts (poly_from_points vs)) with vs.
  change (pfresh (map (img m) vs)) with (poly_from_points (map (img m) vs)). rewrite C56_agrees; auto; rewrite ?map_length; auto.
  - apply winding_img; auto.
  - destruct R2 as [R2|R2]; auto. right. rewrite area2_img, R2 by lia. ring.
Qed.
Print Assumptions C98_triangle_partial.
(** Once the polygons have been classified: polygons reported simple and not
    convex, after any queries on either side. *)
Theorem C98_reads_partial : forall (vs : list pt) (m : affine R) (E E' : R) (qs qs' : list (pread R)) (q : pt),
  (3 < length vs)%nat -> det m <> 0 -> NoDup vs -> spread vs -> Forall (same_eps E) qs -> Forall (same_eps E') qs' ->
  fst (get_is_convex (poly_from_points vs)) = Ok false -> fst (get_is_simple (poly_from_points vs)) = Ok true -> off_edges q vs ->
  fst (contains_point E' (aapply m q) (preads (poly_mul (poly_from_points vs) m) qs')) = fst (contains_point E q (preads (poly_from_points vs) qs)).
Proof.
  intros vs m E E' qs qs' q L D N Sp Q Q' C S0 O. rewrite (C50_reads_partial R RNum E vs q qs Q) by auto. rewrite mul_fresh, aapply_R. change (pverts (poly_from_points vs)) with vs.
  change (pfresh (map (img m) vs)) with (poly_from_points (map (img m) vs)). rewrite (C50_reads_partial R RNum E' (map (img m) vs) (img m q) qs' Q').
  - change (poly_from_points vs) with (pfresh vs). change (poly_from_points (map (img m) vs)) with (pfresh (map (img m) vs)). rewrite !fresh_winding by (rewrite ?map_length; auto). apply winding_img; auto.
  - right. rewrite C53_affine; auto. apply nodup_ends_apart; auto; lia.
  - right. rewrite C61_affine_partial; auto.
Qed.
Print Assumptions C98_reads_partial.
(** Convex polygons, after any queries on either side, when on neither side a
    leftmost or rightmost vertex is also lowest or highest. *)
Lemma preads_prun {T} {N : Num T} (qs : list (pread T)) : forall p : poly T, preads p qs = prun p (map (@PRead T) qs).
Proof. induction qs as [|x l IH]; intro p; auto. cbn. apply IH. Qed.
Lemma visits_img (m : affine R) (l : list pt) : det m <> 0 -> visits_once l -> visits_once (map (img m) l).
Proof.
  intros D (rs & N & (u & v & E1 & E2)). exists (map (fun r => (img m (fst r), snd r)) rs). rewrite map_map. cbn [fst]. split.
  - rewrite <- (map_map fst (img m)). apply FinFun.Injective_map_NoDup; auto. intros x y K. rewrite <- (inv_img m x), <- (inv_img m y), K; auto.
  - exists (map (img m) u), (map (img m) v). rewrite E1, !map_app. split; auto. rewrite <- map_app, <- E2. clear. induction rs as [|[x k] rs IH]; auto. cbn [map flat_map fst snd]. rewrite map_app, <- IH. f_equal.
    generalize (S k). clear. intro n. induction n; cbn; f_equal; auto.
Qed.
Theorem C98_convex_partial : forall (vs : list pt) (m : affine R) (E E' : R) (qs qs' : list (pread R)) (q : pt),
  (3 < length vs)%nat -> det m <> 0 -> convex_ccw vs \/ convex_cw vs -> visits_once vs -> spread vs -> corner_free vs -> corner_free (map (img m) vs) -> off_edges q vs ->
  fst (contains_point E' (aapply m q) (preads (poly_mul (poly_from_points vs) m) qs')) = fst (contains_point E q (preads (poly_from_points vs) qs)).
Proof.
  intros vs m E E' qs qs' q L D C V Sp F F' O. assert (C' : convex_ccw (map (img m) vs) \/ convex_cw (map (img m) vs)).
  { destruct (sided_ccw vs) as [I1 I2]. destruct (sided_ccw (map (img m) vs)) as [J1 J2]. destruct (sided_img m vs D) as [K|K]; [tauto|left; tauto|right; tauto]. }
  rewrite (C50_convex_partial vs qs E q L C V Sp F). rewrite mul_fresh, aapply_R. change (pverts (poly_from_points vs)) with vs.
  change (pfresh (map (img m) vs)) with (poly_from_points (map (img m) vs)). rewrite C50_convex_partial; auto; rewrite ?map_length; auto using visits_img, spread_img.
  change (poly_from_points vs) with (pfresh vs). change (poly_from_points (map (img m) vs)) with (pfresh (map (img m) vs)). rewrite !fresh_winding by (rewrite ?map_length; auto). apply winding_img; auto.
Qed.
Print Assumptions C98_convex_partial.
(** The full claim fails for points off the boundary: after is_convex has been
    read on both sides, a diamond contains its centre and the square that is
    its image under a turn by 45 degrees and an enlargement does not. *)
Lemma z_after_convex (l : list (Z * Z)) (q : Z * Z) (k : nat) (r : bool) : length l = 4%nat -> classify_core (map qv l) = Ok (true, false, k) ->
  (exists pq, split_y_polylines (map qv l) = Ok pq /\ y_monotone_test pq (qv q) = Ok r) ->
  fst (contains_point 0 (zv q) (preads (pfresh (map zv l)) [QConvex])) = Ok r.
Proof.
  intros L E0 (pq & S1 & S2). cbn [preads fold_left read_state]. assert (E : classify_core (map zv l) = Ok (true, false, k)) by (rewrite z_classify_core; auto).
  destruct (split_ok (map zv l)) as [pl Hpl]; [destruct l; [discriminate|discriminate]|]. rewrite (convex_detected (map zv l) _ _ ltac:(rewrite map_length, L; lia) E Hpl). cbn [snd].
  rewrite (contains_pl4 _ _ _ pl) by (cbn [pverts pypl]; rewrite ?map_length; auto). cbn [fst]. rewrite z_split in Hpl.
  rewrite S1 in Hpl. cbn [rmap] in Hpl. injection Hpl as <-. rewrite z_y_monotone. exact S2.
Qed.
Theorem C98_after_reads_refuted : exists (vs : list pt) (m : affine R) (q : pt), det m <> 0 /\ off_edges q vs /\ convex_ccw vs /\
  fst (contains_point 0 q (preads (poly_from_points vs) [QConvex])) = Ok true /\
  fst (contains_point 0 (aapply m q) (preads (poly_mul (poly_from_points vs) m) [QConvex])) = Ok false.
Proof.
  set (l := [(0, 0); (5, -5); (10, 0); (5, 5)]%Z). set (m := mkA 1 1 0 (-1) 1 0). exists (map zv l), m, (zv (5, 0)%Z). split; [unfold det; cbn; lra|]. split; [|split; [|split]].
  - intros a b He (t & Ht & E). cbn in He. unfold between in E. ug.
    repeat match goal with H : _ \/ _ |- _ => destruct H | H : False |- _ => destruct H end;
    repeat match goal with H : (_, _) = (_, _) |- _ => injection H as <- <- end; unfold zv in E; cbn in E; apply mkV_inj in E; lra.
  - intros a c v He Hv. cbn in He, Hv. pick He; injection He as <- <-; pick Hv; subst v; unfold zv; ug; cbn; lra.
  - apply (z_after_convex l _ 4); [reflexivity|vm_compute; reflexivity|eexists; split; vm_compute; reflexivity].
  - rewrite mul_fresh, aapply_R. change (pverts (poly_from_points (map zv l))) with (map zv l).
    replace (img m (zv (5, 0)%Z)) with (zv (5, 5)%Z) by (unfold img, zv, m; cbn; vext; ring).
    replace (map (img m) (map zv l)) with (map zv sq_z) by (unfold l, sq_z, m, img, zv; cbn; repeat f_equal; ring).
    apply (z_after_convex sq_z _ 4); [reflexivity|vm_compute; reflexivity|eexists; split; vm_compute; reflexivity].
Qed.
Print Assumptions C98_after_reads_refuted.
(** On the boundary the answer depends on the side: a mirror image changes it,
    for new polygons too. *)
Theorem C98_boundary_refuted : exists (vs : list pt) (m : affine R) (q : pt), det m <> 0 /\ (exists a b, In (a, b) (cyc_pairs vs) /\ on_segment a b q) /\ convex_ccw vs /\
  fst (contains_point 0 q (poly_from_points vs)) = Ok true /\ fst (contains_point 0 (aapply m q) (poly_mul (poly_from_points vs) m)) = Ok false.
Proof.
  set (m := mkA (-1) 0 0 0 1 0). exists (map zv sq_z), m, (zv (0, 5)%Z). split; [unfold det; cbn; lra|]. split; [|split; [|split]].
  - exists (zv (0, 10)%Z), (zv (0, 0)%Z). split; [cbn; tauto|]. exists (1 / 2). split; [lra|]. unfold between, zv; ug; cbn; vext; lra.
  - intros a c v He Hv. cbn in He, Hv. pick He; injection He as <- <-; pick Hv; subst v; unfold zv; ug; cbn; lra.
  - change (poly_from_points (map zv sq_z)) with (pfresh (map zv sq_z)). rewrite fresh_winding by (cbn; lia). rewrite z_winding. vm_compute. reflexivity.
  - rewrite mul_fresh, aapply_R. change (pverts (poly_from_points (map zv sq_z))) with (map zv sq_z). set (l := [(0, 0); (-10, 0); (-10, 10); (0, 10)]%Z).
    replace (img m (zv (0, 5)%Z)) with (zv (0, 5)%Z) by (unfold img, zv, m; cbn; vext; ring).
    replace (map (img m) (map zv sq_z)) with (map zv l) by (unfold l, sq_z, m, img, zv; cbn; repeat f_equal; ring).
    rewrite fresh_winding by (cbn; lia). rewrite z_winding. vm_compute. reflexivity.
Qed.
Print Assumptions C98_boundary_refuted.
(** A chevron, with a point in its notch, under a shear with a mirror image; a
    triangle; and the diamond-like pentagon, whose image is mirrored. *)
Definition chevron : list (Z * Z) := [(0, 0); (4, 2); (0, 4); (1, 2)]%Z.
Example C98_ex : let m := mkA 1 0 7 2 (-1) 3 in let p := prun (poly_from_points (map zv chevron)) [PRead QSimple; PCopy] in
  det m <> 0 /\ (3 < length (pverts p))%nat /\ pypl p = None /\ pcentroid p <> Some None /\ off_edges (zv (2, 2)%Z) (pverts p) /\
  NoDup (map zv chevron) /\ spread (map zv chevron) /\ fst (get_is_convex (poly_from_points (map zv chevron))) = Ok false /\ fst (get_is_simple (poly_from_points (map zv chevron))) = Ok true /\
  fst (contains_point 0 (zv (2, 2)%Z) (poly_from_points (map zv chevron))) = Ok true.
Proof.
  cbn zeta. set (p := prun _ _). assert (V : pverts p = map zv chevron) by (unfold p; rewrite prun_verts; reflexivity).
  assert (C0 : classify_core (map zv chevron) = Ok (false, false, 2%nat)) by (rewrite z_classify_core; vm_compute; reflexivity).
  assert (C1 : fst (get_is_convex (pfresh (map zv chevron))) = Ok false).
  { destruct (convex_answer (map zv chevron)) as (c & d & k & E & F); [cbn; lia|]. rewrite C0 in E. injection E as <- <- <-. rewrite F. reflexivity. }
  assert (P : pypl p = None /\ pcentroid p = None).
  { unfold p, prun. cbn [fold_left op_state read_state]. unfold get_is_simple, classify. change (poly_from_points (map zv chevron)) with (pfresh (map zv chevron)). destruct (pfresh_big (map zv chevron)) as (-> & -> & _); [cbn; lia|]. rewrite pverts_fresh, C0. cbn. auto. }
  destruct P as [P1 P2]. rewrite V, P1, P2. split; [unfold det; cbn; lra|]. split; [cbn; lia|]. split; auto. split; [discriminate|]. split; [|split; [znd|split; [|split; [exact C1|split]]]].
  - intros a b He (t & Ht & E). cbn in He. unfold between in E. ug.
    repeat match goal with H : _ \/ _ |- _ => destruct H | H : False |- _ => destruct H end;
    repeat match goal with H : (_, _) = (_, _) |- _ => injection H as <- <- end; unfold zv in E; cbn in E; apply mkV_inj in E; lra.
  - exists (zv (0, 0)%Z), (zv (4, 2)%Z), (zv (0, 4)%Z). split; [cbn; tauto|]. split; [cbn; tauto|]. split; [cbn; tauto|]. unfold zv; ug; cbn; lra.
  - change (poly_from_points (map zv chevron)) with (pfresh (map zv chevron)). destruct (simple_big (map zv chevron)) as (c & C & ->); [cbn; lia|]. rewrite C1 in C. injection C as <-. rewrite z_check_is_simple. vm_compute. reflexivity.
  - change (poly_from_points (map zv chevron)) with (pfresh (map zv chevron)). rewrite fresh_winding by (cbn; lia). rewrite z_winding. vm_compute. reflexivity.
Qed.
Example C98_convex_ex : let m := mkA (-1) 0 7 0 2 3 in det m <> 0 /\ (3 < length (map zv penta))%nat /\ convex_ccw (map zv penta) /\ visits_once (map zv penta) /\ spread (map zv penta) /\
  corner_free (map zv penta) /\ corner_free (map (img m) (map zv penta)) /\ off_edges (zv (2, 2)%Z) (map zv penta).
Proof.
  cbn zeta. destruct penta_ok as (_ & Sp & V & C). split; [unfold det; cbn; lra|]. split; [cbn; lia|]. split; auto. split; auto. split; auto. split; [apply penta_free|]. split.
  - intros v Hv. set (m := mkA (-1) 0 7 0 2 3) in *. assert (I : forall v, In v penta -> In (img m (zv v)) (map (img m) (map zv penta))) by (intros; apply in_map, in_map; auto). assert (vy v = 9).
    { destruct Hv as [[Hv Hm]|[Hv Hm]]; [specialize (Hm _ (I (5, 3)%Z ltac:(cbn; tauto)))|specialize (Hm _ (I (-1, 3)%Z ltac:(cbn; tauto)))]; cbn in Hv; pick Hv; subst v; cbn in *; lra. }
    split; intros (_ & Hm).
    + specialize (Hm _ (I (0, 0)%Z ltac:(cbn; tauto))). cbn in Hm. lra.
    + specialize (Hm _ (I (2, 5)%Z ltac:(cbn; tauto))). cbn in Hm. lra.
  - intros a b He (t & Ht & E). cbn in He. unfold between in E. ug.
    repeat match goal with H : _ \/ _ |- _ => destruct H | H : False |- _ => destruct H end;
    repeat match goal with H : (_, _) = (_, _) |- _ => injection H as <- <- end; unfold zv in E; cbn in E; apply mkV_inj in E; lra.
Qed.
Example C98_triangle_ex : let vs := map zv [(4, 4); (0, 0); (4, 0)]%Z in let m := mkA (-1) 0 0 0 1 0 in
  det m <> 0 /\ roomy 1 vs /\ roomy 1 (map (img m) vs) /\ off_edges (zv (3, 1)%Z) vs.
Proof.
  cbn zeta. set (m := mkA (-1) 0 0 0 1 0). split; [unfold det; cbn; lra|]. split; [apply C56_ex|]. split.
  - intros lo mid hi HP L1 L2. destruct (sorted3_unique (zv (-4, 0)%Z) (zv (0, 0)%Z) (zv (-4, 4)%Z) lo mid hi) as (<- & <- & <-); auto; try (unfold yx_le, zv; cbn; lra).
    + eapply Permutation_trans; [|exact HP]. replace (map (img m) (map zv [(4, 4); (0, 0); (4, 0)]%Z)) with (map zv [(-4, 4); (0, 0); (-4, 0)]%Z) by (unfold m, img, zv; cbn; repeat f_equal; ring).
      exact (Permutation_rev [zv (-4, 0)%Z; zv (0, 0)%Z; zv (-4, 4)%Z]).
    + unfold dist, zv. cbn. split; apply Rnot_lt_le; rewrite norm_lt_iff by lra; unfold psub; cbn [vx vy]; lra.
  - intros a b He (t & Ht & E). cbn in He. unfold between in E. ug.
    repeat match goal with H : _ \/ _ |- _ => destruct H | H : False |- _ => destruct H end;
    repeat match goal with H : (_, _) = (_, _) |- _ => injection H as <- <- end; unfold zv in E; cbn in E; apply mkV_inj in E; lra.
Qed.
