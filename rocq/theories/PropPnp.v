(** * Properties C38, C55, C58: containment in convex polygons *)
From Coq Require Import ZArith QArith List Bool Reals Lra Lia Psatz Permutation Sorted.
From Verif Require Import Num Vec Affine Box Seq Polygon BoxPoly Tangent PolyOps SpecPoly SpecGeom SpecAffine SpecBox SpecMass SpecWind SpecConvex SpecExtreme RBase OrdLaws VecFacts VecFacts2 AffineFacts BoxFacts BoxFacts2
  PolyCache PolyCache2 PolyCache3 PolyCache4 PolyCache5 NumHom RComp SpecCycle PolyEq CentroidFacts WindFacts ConvexFacts ConvexFacts2 ConvexFacts3 ConvexFacts4
  MonoFacts MonoFacts2 MonoFacts3 MonoFacts4 PropPoly PropConvex.
Import ListNotations.
Local Open Scope R_scope.

(** ** The two routes of a query *)
Lemma filter_winding (E : R) (q : pt) (p : poly R) : coh p -> rnone p -> pypl p = None -> (3 < length (pverts p))%nat -> pcentroid p <> Some None ->
  fst (contains_point E q p) = winding_test (pverts p) q.
Proof.
  intros Hco Hr Hy HL Hc.
  assert (Hn : pverts p <> []) by (destruct (pverts p); [cbn in HL; lia|discriminate]).
  destruct (box_from_points_tight R_ordlaws (pverts p) Hn) as (b & Hb & Ht). { apply all_ord. }
  rewrite (general_contains E q p b); auto.
  destruct (Nat.eqb (length (pverts p)) 4); auto. destruct (box_contains b q) eqn:EB; auto.
  rewrite winding_test_num by auto. rewrite (wnum_outside q (pverts p)); auto.
  destruct Ht as ((_ & T1) & (_ & T2) & (_ & T3) & (_ & T4)).
  assert (X : forall v, In v (pverts p) -> vx (bmin b) <= vx v <= vx (bmax b) /\ vy (bmin b) <= vy v <= vy (bmax b)).
  { intros v Hv. specialize (T1 (vx v) (in_map vx _ _ Hv)). specialize (T2 (vy v) (in_map vy _ _ Hv)). specialize (T3 (vx v) (in_map vx _ _ Hv)). specialize (T4 (vy v) (in_map vy _ _ Hv)).
    revert T1 T2 T3 T4. rnum. rewrite !Rleb_true. lra. }
  unfold box_contains in EB. revert EB. rnum.
  destruct (Rleb_spec (vx (bmin b)) (vx q)); [|intros _; left; intros v Hv; specialize (X v Hv); lra].
  destruct (Rltb_spec (vx q) (vx (bmax b))); [|intros _; right; left; intros v Hv; specialize (X v Hv); lra].
  destruct (Rltb_spec (vy (bmin b)) (vy q)); [|intros _; right; right; left; intros v Hv; specialize (X v Hv); lra].
  destruct (Rleb_spec (vy q) (vy (bmax b))); [|intros _; right; right; right; intros v Hv; specialize (X v Hv); lra].
  discriminate.
Qed.
Lemma fresh_convex (l : list pt) : convex_ccw l \/ convex_cw l -> visits_once l -> spread l -> fst (get_is_convex (pfresh l)) = Ok true.
Proof. intros H V Sp. pose proof (C53_complete l [] ) as K. cbn zeta in K. cbn [prun fold_left] in K. change (pverts (poly_from_points l)) with l in K. apply K; auto. Qed.
Lemma convex_routes (E : R) (q : pt) (p : poly R) : coh p -> rnone p -> yok p -> (3 < length (pverts p))%nat -> fst (get_is_convex (pfresh (pverts p))) = Ok true ->
  fst (contains_point E q p) = winding_test (pverts p) q \/ exists pl, split_y_polylines (pverts p) = Ok pl /\ forall r, fst (contains_point E r p) = y_monotone_test pl r.
Proof.
  intros Hco Hr Hy HL Hc. assert (Hcen : pcentroid p <> Some None) by (apply simple_centroid; auto; apply convex_simple; auto).
  destruct (pypl p) as [pl|] eqn:EP.
  - right. exists pl. split; [apply Hy; auto|]. intro r. apply chains_contains; auto.
  - left. apply filter_winding; auto.
Qed.
Lemma history_inv (vs : list pt) os : let p := prun (poly_from_points vs) os in coh p /\ rnone p /\ yok p.
Proof. split; [apply prun_coh, coh_cleared|]. split; [apply rnone_run; split; reflexivity|apply yok_run, yok_cleared]. Qed.
(** A polygon declared convex that is convex. *)
Lemma declared_inv (vs : list pt) os : (3 < length vs)%nat -> convex_ccw vs \/ convex_cw vs -> visits_once vs -> spread vs ->
  exists p0, poly_new vs (Some true) None = Ok p0 /\ pverts p0 = vs /\ coh (prun p0 os) /\ rnone (prun p0 os) /\ yok (prun p0 os).
Proof.
  intros L H V Sp. destruct (split_ok vs) as [pl Hpl]; [destruct vs; [cbn in L; lia|discriminate]|].
  assert (E : poly_new vs (Some true) None = Ok (mkPoly vs (Some true) (Some true) (Some pl) None None None None None None None)).
  { unfold poly_new, seq_new. rewrite map_vec2_of_R. destruct (Nat.ltb_spec (length vs) 3); [lia|]. unfold cleared. destruct (Nat.ltb_spec 3 (length vs)); [|lia]. cbn [pconvex bind andb]. rewrite Hpl. reflexivity. }
  eexists. split; [exact E|]. split; [reflexivity|]. pose proof (fresh_convex vs H V Sp) as FC. split; [|split].
  - apply prun_coh. split; cbn [pverts pconvex psimple pbbox pcentroid]; try discriminate; auto.
    + intros b K. injection K as <-. auto.
    + intros b K. injection K as <-. apply convex_simple; auto.
  - apply rnone_run. split; reflexivity.
  - apply yok_run. intros pl' K. cbn in *. congruence.
Qed.

(** ** C58 *)
(** The full statement is false, for detected and for declared convex polygons,
    counter-clockwise and clockwise. *)
Lemma z_monotone_false (l : list (Z * Z)) (q : Z * Z) (pq : list (Q * Q) * list (Q * Q)) : (3 < length l)%nat -> length l = 4%nat ->
  classify_core (map qv l) = Ok (true, false, 4%nat) -> split_y_polylines (map qv l) = Ok pq -> y_monotone_test pq (qv q) = Ok false ->
  fst (contains_point 0 (zv q) (snd (get_is_convex (poly_from_points (map zv l))))) = Ok false.
Proof.
  intros L L4 E S Y. rewrite <- z_classify_core in E. destruct (split_ok (map zv l)) as [pl Hpl]; [destruct l; [cbn in L; lia|discriminate]|].
  change (poly_from_points (map zv l)) with (pfresh (map zv l)). rewrite (convex_detected (map zv l) _ _ ltac:(rewrite map_length; lia) E Hpl). cbn [snd].
  rewrite (contains_pl4 _ _ _ pl) by (try reflexivity; cbn [pverts]; rewrite map_length; auto). cbn [fst]. rewrite z_split, S in Hpl. cbn [rmap] in Hpl. injection Hpl as <-. rewrite z_y_monotone. exact Y.
Qed.
Definition ccw_square : list (Z * Z) := [(0, 0); (10, 0); (10, 10); (0, 10)]%Z.
Definition cw_quad : list (Z * Z) := [(10, 0); (4, 4); (0, 10); (6, 6)]%Z.
Lemma quad_convex : convex_ccw (map zv ccw_square) /\ convex_cw (map zv cw_quad).
Proof.
  split; intros a b v He Hv; cbn in He, Hv; repeat match goal with H : _ \/ _ |- _ => destruct H as [H|H] | H : False |- _ => destruct H end; injection He as <- <-; subst v; unfold zv; ug; cbn; lra.
Qed.
Theorem C58_refuted :
  (exists (vs : list pt) (q : pt), let p := snd (get_is_convex (poly_from_points vs)) in
    convex_ccw vs /\ strictly_inside 1 vs q /\ winding_test vs q = Ok true /\ fst (contains_point 0 q p) = Ok false) /\
  (exists (vs : list pt) (q : pt), let p := snd (get_is_convex (poly_from_points vs)) in
    convex_cw vs /\ strictly_inside (-1) vs q /\ winding_test vs q = Ok true /\ fst (contains_point 0 q p) = Ok false).
Proof.
  split.
  - exists (map zv ccw_square), (zv (5, 5)%Z). cbn zeta. split; [apply quad_convex|]. split; [|split].
    + intros a b He N. cbn in He. repeat match goal with H : _ \/ _ |- _ => destruct H as [H|H] | H : False |- _ => destruct H end; injection He as <- <-; unfold zv; ug; cbn; lra.
    + rewrite z_winding. vm_compute. reflexivity.
    + eapply z_monotone_false; [cbn; lia|reflexivity|vm_compute; reflexivity..].
  - exists (map zv cw_quad), (zv (5, 5)%Z). cbn zeta. split; [apply quad_convex|]. split; [|split].
    + intros a b He N. cbn in He. repeat match goal with H : _ \/ _ |- _ => destruct H as [H|H] | H : False |- _ => destruct H end; injection He as <- <-; unfold zv; ug; cbn; lra.
    + rewrite z_winding. vm_compute. reflexivity.
    + eapply z_monotone_false; [cbn; lia|reflexivity|vm_compute; reflexivity..].
Qed.
Print Assumptions C58_refuted.
(** For every convex polygon, in every state, either all answers are those of
    the winding test, or all answers are no. *)
Theorem C58_all_or_nothing : forall (vs : list pt) (os : list (pop R)) (E : R), let p := prun (poly_from_points vs) os in
  (3 < length (pverts p))%nat -> convex_ccw (pverts p) \/ convex_cw (pverts p) -> visits_once (pverts p) -> spread (pverts p) ->
  (forall q, fst (contains_point E q p) = winding_test (pverts p) q) \/ (forall q, fst (contains_point E q p) = Ok false).
Proof.
  intros vs os E p L H V Sp. destruct (history_inv vs os) as (H1 & H2 & H3). fold p in H1, H2, H3. pose proof (fresh_convex _ H V Sp) as FC.
  assert (Hcen : pcentroid p <> Some None) by (apply simple_centroid; auto; apply convex_simple; auto).
  destruct (pypl p) as [pl|] eqn:EP; [|left; intro q; apply filter_winding; auto].
  assert (X : exists s, tsign s /\ sided s (pverts p)). { destruct (sided_ccw (pverts p)) as [I1 I2]. destruct H as [H|H]; [exists 1|exists (-1)]; unfold tsign; rewrite ?I1, ?I2; auto. }
  destruct X as (s & Ts & Sd). destruct (split_agrees s _ Ts V Sd Sp) as (pl' & E' & D & _). rewrite (H3 pl EP) in E'. injection E' as <-.
  destruct D as [D|D]; [left|right]; intro q; rewrite (chains_contains E q p pl); auto.
Qed.
Print Assumptions C58_all_or_nothing.
(** The two tests agree for every convex polygon none of whose leftmost or
    rightmost vertices is also lowest or highest, whatever was called before:
    the answer is the one of the winding test. *)
Theorem C58_agree_partial : forall (vs : list pt) (os : list (pop R)) (E : R) (q : pt), let p := prun (poly_from_points vs) os in
  (3 < length (pverts p))%nat -> convex_ccw (pverts p) \/ convex_cw (pverts p) -> visits_once (pverts p) -> spread (pverts p) -> corner_free (pverts p) ->
  fst (contains_point E q p) = winding_test (pverts p) q.
Proof.
  intros vs os E q p L H V Sp C. destruct (history_inv vs os) as (H1 & H2 & H3). fold p in H1, H2, H3.
  destruct (convex_routes E q p H1 H2 H3 L (fresh_convex _ H V Sp)) as [R0|(pl & E1 & R0)]; auto. rewrite R0.
  assert (X : exists s, tsign s /\ sided s (pverts p)). { destruct (sided_ccw (pverts p)) as [I1 I2]. destruct H as [H|H]; [exists 1|exists (-1)]; unfold tsign; rewrite ?I1, ?I2; auto. }
  destruct X as (s & Ts & Sd). destruct (split_agrees s _ Ts V Sd Sp) as (pl' & E' & _ & D). rewrite E1 in E'. injection E' as <-. auto.
Qed.
Print Assumptions C58_agree_partial.
(** The same for polygons declared convex, which use the search from the start. *)
Theorem C58_declared_partial : forall (vs : list pt) (os : list (pop R)) (E : R) (q : pt),
  (3 < length vs)%nat -> convex_ccw vs \/ convex_cw vs -> visits_once vs -> spread vs -> corner_free vs ->
  exists p0, poly_new vs (Some true) None = Ok p0 /\ pypl p0 <> None /\ pverts p0 = vs /\
    (writes vs os = vs -> fst (contains_point E q (prun p0 os)) = winding_test vs q).
Proof.
  intros vs os E q L H V Sp C. destruct (declared_inv vs os L H V Sp) as (p0 & E0 & V0 & H1 & H2 & H3).
  exists p0. split; auto. split; [|split; auto].
  - unfold poly_new, seq_new in E0. rewrite map_vec2_of_R in E0. destruct (Nat.ltb_spec (length vs) 3); [lia|]. unfold cleared in E0. destruct (Nat.ltb_spec 3 (length vs)); [|lia].
    cbn [pconvex bind andb] in E0. destruct (split_y_polylines vs); [|discriminate]. cbn [bind] in E0. injection E0 as <-. discriminate.
  - intro W. assert (VV : pverts (prun p0 os) = vs) by (rewrite prun_verts, V0; auto).
    destruct (convex_routes E q (prun p0 os) H1 H2 H3) as [R0|(pl & E1 & R0)]; rewrite ?VV in *; auto; [apply fresh_convex; auto|]. rewrite R0.
    assert (X : exists s, tsign s /\ sided s vs). { destruct (sided_ccw vs) as [I1 I2]. destruct H as [H|H]; [exists 1|exists (-1)]; unfold tsign; rewrite ?I1, ?I2; auto. }
    destruct X as (s & Ts & Sd). destruct (split_agrees s _ Ts V Sd Sp) as (pl' & E' & _ & D). rewrite E1 in E'. injection E' as <-. auto.
Qed.
Print Assumptions C58_declared_partial.
Ltac pick H := repeat match type of H with _ \/ _ => destruct H as [H|H] | False => destruct H end.
Lemma penta_free : corner_free (map zv penta).
Proof.
  assert (I : forall v, In v penta -> In (zv v) (map zv penta)) by (intros; apply in_map; auto).
  intros v Hv. assert (vy v = 3).
  { destruct Hv as [[Hv Hm]|[Hv Hm]]; [specialize (Hm _ (I (-1, 3)%Z ltac:(cbn; tauto)))|specialize (Hm _ (I (5, 3)%Z ltac:(cbn; tauto)))]; cbn in Hv; pick Hv; subst v; cbn in *; lra. }
  split; intros (_ & Hm).
  - specialize (Hm _ (I (0, 0)%Z ltac:(cbn; tauto))). cbn in Hm. lra.
  - specialize (Hm _ (I (2, 5)%Z ltac:(cbn; tauto))). cbn in Hm. lra.
Qed.
Example C58_ex : let p := prun (poly_from_points (map zv penta)) [PRead QConvex] in
  (3 < length (pverts p))%nat /\ convex_ccw (pverts p) /\ visits_once (pverts p) /\ spread (pverts p) /\ corner_free (pverts p) /\ pypl p <> None /\
  fst (contains_point 0 (zv (2, 2)%Z) p) = Ok true.
Proof.
  cbn zeta. assert (VV : pverts (prun (poly_from_points (map zv penta)) [PRead QConvex]) = map zv penta) by (rewrite prun_verts; reflexivity).
  assert (W : fst (contains_point 0 (zv (2, 2)%Z) (prun (poly_from_points (map zv penta)) [PRead QConvex])) = winding_test (map zv penta) (zv (2, 2)%Z)).
  { etransitivity; [|rewrite <- VV at 1; reflexivity]. apply C58_agree_partial; rewrite VV; [cbn; lia|left; apply penta_ok|apply penta_ok|apply penta_ok|apply penta_free]. }
  rewrite VV. destruct penta_ok as (_ & Sp & V & C). split; [cbn; lia|]. split; auto. split; auto. split; auto. split; [apply penta_free|]. split; [|rewrite W, z_winding; vm_compute; reflexivity].
  cbn [prun fold_left op_state read_state]. destruct (split_ok (map zv penta)) as [pl Hpl]; [discriminate|].
  assert (E : classify_core (map zv penta) = Ok (true, false, 5%nat)) by (rewrite z_classify_core; vm_compute; reflexivity).
  change (poly_from_points (map zv penta)) with (pfresh (map zv penta)). rewrite (convex_detected (map zv penta) _ _ ltac:(cbn; lia) E Hpl). discriminate.
Qed.

(** ** C55 *)
Lemma winding_exact s (l : list pt) q : tsign s -> spread l -> sided s l -> exact_for s l (fun r => winding_test l r = Ok true) q.
Proof.
  intros Ts Sp Sd. assert (Ne : l <> []) by (intros ->; destruct Sp as (? & ? & ? & [] & _)).
  assert (Q : forall r, winding_test l r = Ok true <-> wnum l r <> 0%Z). { intro r. rewrite winding_test_num by auto. destruct (Z.eqb_spec (wnum l r) 0); cbn [negb]; split; intro; auto; try discriminate; contradiction. }
  split; [|split].
  - intro H. apply Q. apply (inside_nonzero s); auto. apply spread_edge; auto.
  - intros (a & b & He & H) K. apply Q in K. apply K. apply (outside_edge s l a b); auto.
  - eapply jrb_impl; [|apply (convex_half_open s l q Ts Sp Sd)]. cbn beta. intros r Hr. rewrite Q. auto.
Qed.
(** The full statement is false once the search structure exists. *)
Theorem C55_refuted : exists (vs : list pt) (q : pt), convex_ccw vs /\ spread vs /\ visits_once vs /\ strictly_inside 1 vs q /\
  fst (contains_point 0 q (snd (get_is_convex (poly_from_points vs)))) = Ok false.
Proof.
  exists (map zv ccw_square), (zv (5, 5)%Z). split; [apply quad_convex|]. split; [|split; [|split]].
  - exists (zv (0, 0)%Z), (zv (10, 0)%Z), (zv (10, 10)%Z). split; [cbn; tauto|split; [cbn; tauto|split; [cbn; tauto|]]]. unfold zv. ug. cbn. lra.
  - exists (map (fun v => (zv v, O)) ccw_square). split; [|exists [], (map zv ccw_square); auto].
    cbn. repeat constructor; cbn; intro K; pick K; try contradiction; unfold zv in *; apply mkV_inj in K; cbn in K; lra.
  - intros a b He N. cbn in He. pick He; injection He as <- <-; unfold zv; ug; cbn; lra.
  - eapply z_monotone_false; [cbn; lia|reflexivity|vm_compute; reflexivity..].
Qed.
Print Assumptions C55_refuted.
(** Exactness of the general test for every convex polygon (repeated vertices
    and straight corners allowed). *)
Theorem C55_winding_exact : forall (vs : list pt) (q : pt), spread vs ->
  (convex_ccw vs -> exact_for 1 vs (fun r => winding_test vs r = Ok true) q) /\ (convex_cw vs -> exact_for (-1) vs (fun r => winding_test vs r = Ok true) q).
Proof.
  intros vs q Sp. destruct (sided_ccw vs) as [I1 I2]. split; intro H; apply winding_exact; auto; unfold tsign; auto; [apply I1|apply I2]; auto.
Qed.
Print Assumptions C55_winding_exact.
(** contains_point is exact as long as the vertices have not been classified
    as convex since they were last assigned. *)
Theorem C55_unclassified_partial : forall (vs : list pt) (os : list (pop R)) (E : R) (q : pt), let p := prun (poly_from_points vs) os in
  (3 < length (pverts p))%nat -> pypl p = None -> pcentroid p <> Some None -> spread (pverts p) ->
  (convex_ccw (pverts p) -> exact_for 1 (pverts p) (fun r => fst (contains_point E r p) = Ok true) q) /\
  (convex_cw (pverts p) -> exact_for (-1) (pverts p) (fun r => fst (contains_point E r p) = Ok true) q).
Proof.
  intros vs os E q p L Y C Sp. destruct (history_inv vs os) as (H1 & H2 & H3). fold p in H1, H2, H3.
  assert (Q : forall r, fst (contains_point E r p) = winding_test (pverts p) r) by (intro r; apply filter_winding; auto).
  assert (X : forall s, exact_for s (pverts p) (fun r => winding_test (pverts p) r = Ok true) q -> exact_for s (pverts p) (fun r => fst (contains_point E r p) = Ok true) q).
  { intros s (A & B & D). unfold exact_for. rewrite Q. auto. }
  destruct (C55_winding_exact (pverts p) q Sp) as [W1 W2]. auto.
Qed.
Print Assumptions C55_unclassified_partial.
(** ... and in every state when no leftmost or rightmost vertex is also lowest
    or highest. *)
Theorem C55_corner_free_partial : forall (vs : list pt) (os : list (pop R)) (E : R) (q : pt), let p := prun (poly_from_points vs) os in
  (3 < length (pverts p))%nat -> visits_once (pverts p) -> spread (pverts p) -> corner_free (pverts p) ->
  (convex_ccw (pverts p) -> exact_for 1 (pverts p) (fun r => fst (contains_point E r p) = Ok true) q) /\
  (convex_cw (pverts p) -> exact_for (-1) (pverts p) (fun r => fst (contains_point E r p) = Ok true) q).
Proof.
  intros vs os E q p L V Sp C.
  assert (X : convex_ccw (pverts p) \/ convex_cw (pverts p) -> forall s, exact_for s (pverts p) (fun r => winding_test (pverts p) r = Ok true) q -> exact_for s (pverts p) (fun r => fst (contains_point E r p) = Ok true) q).
  { intros H s (A & B & D). assert (Q : forall r, fst (contains_point E r p) = winding_test (pverts p) r) by (intro r; apply C58_agree_partial; auto). unfold exact_for. rewrite Q. auto. }
  destruct (C55_winding_exact (pverts p) q Sp) as [W1 W2]. auto.
Qed.
Print Assumptions C55_corner_free_partial.
Example C55_ex : let p := prun (poly_from_points (map zv penta)) [PRead QSimple; PCopy] in
  (3 < length (pverts p))%nat /\ visits_once (pverts p) /\ spread (pverts p) /\ corner_free (pverts p) /\ convex_ccw (pverts p) /\ strictly_inside 1 (pverts p) (zv (2, 2)%Z).
Proof.
  cbn zeta. rewrite prun_verts. change (writes (pverts (poly_from_points (map zv penta))) [PRead QSimple; PCopy]) with (map zv penta).
  destruct penta_ok as (_ & Sp & V & C). split; [cbn; lia|]. split; auto. split; auto. split; [apply penta_free|]. split; auto.
  intros a b He N. cbn in He. pick He; injection He as <- <-; unfold zv; ug; cbn; lra.
Qed.

(** ** C38 *)
Definition rect (b : bbox R) : list pt := [bmin b; mkV (vx (bmin b)) (vy (bmax b)); bmax b; mkV (vx (bmax b)) (vy (bmin b))].
Section Rect.
  Variable b : bbox R.
  Hypothesis HX : vx (bmin b) < vx (bmax b).
  Hypothesis HY : vy (bmin b) < vy (bmax b).
  Lemma rect_cw : convex_cw (rect b).
  Proof.
    destruct b as [[x0 y0] [x1 y1]]. cbn [bmin bmax vx vy] in *. unfold rect. cbn [bmin bmax vx vy].
    intros a c v He Hv. cbn in He, Hv. assert (0 < (x1 - x0) * (y1 - y0)) by (apply Rmult_lt_0_compat; lra).
    pick He; injection He as <- <-; pick Hv; subst v; ug; nra.
  Qed.
  Lemma rect_spread : spread (rect b).
  Proof.
    destruct b as [[x0 y0] [x1 y1]]. cbn [bmin bmax vx vy] in *. unfold rect. cbn [bmin bmax vx vy].
    exists (mkV x0 y0), (mkV x0 y1), (mkV x1 y1). split; [cbn; tauto|split; [cbn; tauto|split; [cbn; tauto|]]]. assert (0 < (x1 - x0) * (y1 - y0)) by (apply Rmult_lt_0_compat; lra). ug. nra.
  Qed.
  Lemma rect_once : visits_once (rect b).
  Proof.
    exists (map (fun v => (v, O)) (rect b)). split.
    - destruct b as [[x0 y0] [x1 y1]]. cbn [bmin bmax vx vy] in *. unfold rect. cbn. repeat constructor; cbn; intro K; pick K; try contradiction; apply mkV_inj in K; lra.
    - exists [], (rect b). split; auto.
  Qed.
  Lemma rect_split : split_y_polylines (rect b) = Ok (map yx [bmin b; mkV (vx (bmin b)) (vy (bmax b))], map yx [bmin b; mkV (vx (bmax b)) (vy (bmin b)); bmax b; mkV (vx (bmin b)) (vy (bmax b))]).
  Proof.
    destruct b as [[x0 y0] [x1 y1]]. cbn [bmin bmax vx vy] in *. unfold rect, split_y_polylines, find_extrema. cbn [bmin bmax vx vy enumerate_from fold_left].
    assert (B : forall x y : R, x < y -> Rltb x y = true) by (intros; apply Rltb_true; auto).
    assert (B' : forall x y : R, y <= x -> Rltb x y = false) by (intros x y H; destruct (Rltb_spec x y); auto; lra).
    unfold ext_step. rnum. cbn [x_min_i x_min_y x_max_i x_max_y x_left_i x_min_x x_right_i x_max_x vx vy].
    repeat (first [rewrite (B' x0 x0) by lra|rewrite (B' y0 y0) by lra|rewrite (B y0 y1) by lra|rewrite (B' y1 y0) by lra|rewrite (B' y1 y1) by lra|rewrite (B x0 x1) by lra|rewrite (B' x1 x0) by lra|rewrite (B' x1 x1) by lra];
      cbn [x_min_i x_min_y x_max_i x_max_y x_left_i x_min_x x_right_i x_max_x vx vy bind]).
    cbn. rnum. rewrite (B' y1 y0), (B y0 y1) by lra. reflexivity.
  Qed.
  Lemma rect_test q : y_monotone_test (map yx [bmin b; mkV (vx (bmin b)) (vy (bmax b))], map yx [bmin b; mkV (vx (bmax b)) (vy (bmin b)); bmax b; mkV (vx (bmin b)) (vy (bmax b))]) q = Ok (box_contains b q).
  Proof.
    destruct b as [[x0 y0] [x1 y1]]. unfold box_contains. cbn [bmin bmax vx vy] in *. rnum. destruct (Rltb_spec y0 (vy q)) as [K|K].
    - destruct (Rleb_spec (vy q) y1) as [K'|K'].
      + rewrite (y_test_edges [] (mkV x0 y0) (mkV x0 y1) [] [mkV x0 y0] (mkV x1 y0) (mkV x1 y1) [mkV x0 y1]).
        * f_equal. rewrite andb_true_r. f_equal.
          { destruct (Rleb_spec (orient (mkV x0 y0) (mkV x0 y1) q) 0) as [O|O], (Rleb_spec x0 (vx q)) as [U|U]; auto; exfalso; revert O; ug; intro O.
            - assert (0 < (x0 - vx q) * (y1 - y0)) by (apply Rmult_lt_0_compat; lra). lra.
            - assert (0 <= (vx q - x0) * (y1 - y0)) by (apply Rmult_le_pos; lra). lra. }
          { destruct (Rltb_spec 0 (orient (mkV x1 y0) (mkV x1 y1) q)) as [O|O], (Rltb_spec (vx q) x1) as [U|U]; auto; exfalso; revert O; ug; intro O.
            - assert (0 <= (vx q - x1) * (y1 - y0)) by (apply Rmult_le_pos; lra). lra.
            - assert (0 < (x1 - vx q) * (y1 - y0)) by (apply Rmult_lt_0_compat; lra). lra. }
        * unfold asc. cbn [app]. repeat constructor; unfold yle; cbn [vy]; lra.
        * unfold asc. cbn [app]. repeat constructor; unfold yle; cbn [vy]; lra.
        * cbn [vy]. lra.
        * cbn [vy]. lra.
      + rewrite y_test_above; [rewrite !andb_false_r; auto|]. intros v Hv. cbn in Hv. pick Hv; subst v; cbn [vy]; lra.
    - rewrite y_test_below; [cbn [andb]; rewrite andb_false_r; auto|]. intros v Hv. cbn in Hv. pick Hv; subst v; cbn [vy]; lra.
  Qed.
  Lemma rect_winding q : winding_test (rect b) q = Ok (box_contains b q).
  Proof.
    assert (Ts : tsign (-1)) by (right; auto). assert (Sd : sided (-1) (rect b)) by (apply sided_ccw, rect_cw).
    destruct (split_agrees (-1) (rect b) Ts rect_once Sd rect_spread) as (pl & E & D & _). rewrite rect_split in E. injection E as <-.
    destruct D as [D|D].
    - rewrite <- D. apply rect_test.
    - exfalso. specialize (D (mkV ((vx (bmin b) + vx (bmax b)) / 2) ((vy (bmin b) + vy (bmax b)) / 2))). rewrite rect_test in D. injection D as D. revert D. unfold box_contains. cbn [vx vy]. rnum.
      repeat match goal with |- context [Rleb ?x ?y] => destruct (Rleb_spec x y) | |- context [Rltb ?x ?y] => destruct (Rltb_spec x y) end; cbn; try discriminate; lra.
  Qed.
  Lemma rect_bbox : box_from_points (rect b) = Ok b.
  Proof.
    destruct (box_from_points_tight R_ordlaws (rect b)) as (c & Hc & Ht); [discriminate|apply all_ord|]. rewrite Hc. f_equal.
    destruct Ht as ((M1 & T1) & (M2 & T2) & (M3 & T3) & (M4 & T4)).
    assert (IB : forall v, In v (rect b) -> vx (bmin c) <= vx v <= vx (bmax c) /\ vy (bmin c) <= vy v <= vy (bmax c)).
    { intros v Hv. specialize (T1 (vx v) (in_map vx _ _ Hv)). specialize (T2 (vy v) (in_map vy _ _ Hv)). specialize (T3 (vx v) (in_map vx _ _ Hv)). specialize (T4 (vy v) (in_map vy _ _ Hv)).
      revert T1 T2 T3 T4. rnum. rewrite !Rleb_true. lra. }
    pose proof (IB (bmin b) ltac:(cbn; tauto)). pose proof (IB (bmax b) ltac:(cbn; tauto)). clear IB T1 T2 T3 T4 Hc.
    destruct b as [[x0 y0] [x1 y1]], c as [[c0 d0] [c1 d1]]. cbn in *.
    f_equal; vext; pick M1; pick M2; pick M3; pick M4; lra.
  Qed.
End Rect.
(** For every box of positive area and after any calls that leave the vertices
    as they were. *)
Theorem C38_box_polygon : forall b : bbox R, vx (bmin b) < vx (bmax b) -> vy (bmin b) < vy (bmax b) ->
  exists p0, box_to_polygon b = Ok p0 /\ (convex_ccw (pverts p0) \/ convex_cw (pverts p0)) /\
    forall (os : list (pop R)) (E : R) (q : pt), writes (pverts p0) os = pverts p0 -> let p := prun p0 os in
      fst (get_is_convex p) = Ok true /\ fst (get_bbox p) = Ok b /\ fst (contains_point E q p) = Ok (box_contains b q).
Proof.
  intros b HX HY. assert (H : convex_ccw (rect b) \/ convex_cw (rect b)) by (right; apply rect_cw; auto).
  pose proof (rect_once b HX HY) as V. pose proof (rect_spread b HX HY) as Sp. assert (L : (3 < length (rect b))%nat) by (cbn; lia).
  destruct (declared_inv (rect b) [] L H V Sp) as (p0 & E0 & V0 & _). exists p0. split; [exact E0|]. rewrite V0. split; auto.
  intros os E q W p. destruct (declared_inv (rect b) os L H V Sp) as (p1 & E1 & _ & H1 & H2 & H3). rewrite E0 in E1. injection E1 as <-. fold p in H1, H2, H3.
  assert (VV : pverts p = rect b) by (unfold p; rewrite prun_verts, V0; auto). pose proof (fresh_convex _ H V Sp) as FC. split; [|split].
  - rewrite read_convex, VV; auto.
  - destruct (read_bbox p H1) as (-> & _). rewrite VV. unfold get_bbox. rewrite pfresh_bbox, pverts_fresh, rect_bbox by auto. reflexivity.
  - destruct (convex_routes E q p H1 H2 H3) as [R0|(pl & E1 & R0)]; rewrite ?VV in *; auto.
    + rewrite R0. apply rect_winding; auto.
    + rewrite R0. rewrite rect_split in E1 by auto. injection E1 as <-. apply (rect_test b); auto.
Qed.
Print Assumptions C38_box_polygon.
Example C38_ex : let b := mkBox (mkV 0 0) (mkV 2 1) in vx (bmin b) < vx (bmax b) /\ vy (bmin b) < vy (bmax b) /\ box_contains b (mkV 0 1) = true /\ box_contains b (mkV 2 1) = false.
Proof.
  cbn. rewrite ?andb_true_iff. rnum. split; [lra|]. split; [lra|]. unfold box_contains. cbn. rnum. split.
  - repeat match goal with |- context [Rleb ?x ?y] => destruct (Rleb_spec x y) | |- context [Rltb ?x ?y] => destruct (Rltb_spec x y) end; cbn; auto; lra.
  - repeat match goal with |- context [Rleb ?x ?y] => destruct (Rleb_spec x y) | |- context [Rltb ?x ?y] => destruct (Rltb_spec x y) end; cbn; auto; lra.
Qed.

(** ** C50, continued *)
(** No reads change the answer for convex polygons none of whose leftmost or
    rightmost vertices is also lowest or highest; these do switch to the binary
    search. *)
Theorem C50_convex_partial : forall (vs : list pt) (qs : list (pread R)) (E : R) (q : pt),
  (3 < length vs)%nat -> convex_ccw vs \/ convex_cw vs -> visits_once vs -> spread vs -> corner_free vs ->
  fst (contains_point E q (preads (poly_from_points vs) qs)) = fst (contains_point E q (poly_from_points vs)).
Proof.
  intros vs qs E q L H V Sp C.
  assert (R0 : forall qs p, preads p qs = prun p (map (@PRead R) qs)). { intros l. induction l as [|x l IH]; intro p; auto. cbn. apply IH. }
  assert (W : forall qs, writes vs (map (@PRead R) qs) = vs). { intro l. induction l; auto. }
  assert (G : forall qs, fst (contains_point E q (preads (poly_from_points vs) qs)) = winding_test vs q).
  { intro l. rewrite R0. pose proof (C58_agree_partial vs (map (@PRead R) l) E q) as A. cbn zeta in A. rewrite prun_verts in A. change (pverts (poly_from_points vs)) with vs in A. rewrite W in A. auto. }
  rewrite G. symmetry. apply (G []).
Qed.
Print Assumptions C50_convex_partial.
Example C50_convex_ex : (3 < length (map zv penta))%nat /\ convex_ccw (map zv penta) /\ visits_once (map zv penta) /\ spread (map zv penta) /\ corner_free (map zv penta).
Proof. destruct penta_ok as (_ & Sp & V & C). split; [cbn; lia|]. split; auto. split; auto. split; auto. apply penta_free. Qed.
