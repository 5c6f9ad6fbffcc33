(** * Properties C98, C108: exactly which convex polygons keep their answers under
      transforms and for equal polygons *)
From Coq Require Import ZArith QArith List Bool Reals Lra Lia Permutation.
From Verif Require Import Num Vec Affine Box Seq Polygon PolyOps OrdLaws SpecPoly SpecGeom SpecCycle SpecMass SpecConvex SpecExtreme SpecSplit SpecAffine SpecWind RBase VecFacts2 AffineFacts
  PolyCache PolyCache2 PolyCache3 NumHom RComp PolyEq CentroidFacts WindFacts TransFacts ConvexFacts ConvexFacts3 ConvexFacts4 MonoFacts5 PropPoly PropPolyEq PropPnp PropSimple PropSplit PropTrans PropSame PropHullTrans.
Import ListNotations.
Local Open Scope R_scope.

Lemma misread_sign (k s : R) (l : list pt) : 0 < k -> (misread (k * s) l <-> misread s l).
Proof.
  intro K. assert (A : k * s < 0 <-> s < 0) by (split; intro; nra). assert (B : 0 < k * s <-> 0 < s) by (split; intro; nra). unfold misread. setoid_rewrite A. setoid_rewrite B. reflexivity.
Qed.
Lemma strict_off (s : R) (l : list pt) q : NoDup l -> spread l -> strictly_inside s l q -> off_edges q l.
Proof.
  intros N Sp H a b He (t & Ht & E). pose proof (H a b He (RegionFacts.edge_apart _ N Sp a b He)) as K. rewrite E in K. replace (orient a b (between a b t)) with 0 in K by (ug; ring). lra.
Qed.
Lemma fresh_answers (E : R) (vs : list pt) q : (3 < length vs)%nat -> fst (contains_point E q (poly_from_points vs)) = winding_test vs q.
Proof. exact (fresh_winding E vs q). Qed.

(** C108: two equal convex polygons with distinct vertices give the same answers,
    whatever was called on each, if and only if neither is misread. *)
Theorem C108_convex_exact : forall (s s' : R) (vs ws : list pt), s = 1 \/ s = -1 -> s' = 1 \/ s' = -1 -> (3 < length vs)%nat -> NoDup vs -> spread vs ->
  (forall a b v, In (a, b) (cyc_pairs vs) -> In v vs -> 0 <= s * orient a b v) -> (forall a b v, In (a, b) (cyc_pairs ws) -> In v ws -> 0 <= s' * orient a b v) ->
  poly_eqb (poly_from_points vs) (poly_from_points ws) = Ok true ->
  (forall (os os' : list (pop R)) (E E' : R) (x : pt), writes vs os = vs -> writes ws os' = ws ->
     fst (contains_point E x (prun (poly_from_points vs) os)) = fst (contains_point E' x (prun (poly_from_points ws) os'))) <-> ~ misread s vs /\ ~ misread s' ws.
Proof.
  intros s s' vs ws Ts Ts' L N Sp Sd Sd' H. pose proof (C64_sizes _ _ _ _ H) as HL. change (pverts (poly_from_points vs)) with vs in HL. change (pverts (poly_from_points ws)) with ws in HL.
  assert (EQ : poly_eqb_verts vs ws = Ok true) by exact H.
  assert (P : Permutation vs ws) by (apply equal_vertices; auto; lia). assert (Nw : NoDup ws) by (eapply Permutation_NoDup; eauto).
  assert (Sw : spread ws). { destruct Sp as (a & b & c & Ha & Hb & Hc & O). exists a, b, c. split; [|split; [|split]]; auto; eapply Permutation_in; eauto. }
  assert (W : forall x, winding_test vs x = winding_test ws x) by (intro x; apply equal_winding; auto; lia). split.
  - intro K. split.
    + destruct (C58_exact s vs 0 Ts L N Sd Sp) as (p0 & _ & X & _). apply X. intro q. rewrite W, <- (fresh_answers 0 ws q) by lia. apply (K [PRead QConvex] [] 0 0 q); reflexivity.
    + destruct (C58_exact s' ws 0 Ts' ltac:(lia) Nw Sd' Sw) as (p0 & _ & X & _). apply X. intro q. rewrite <- W, <- (fresh_answers 0 vs q) by lia. symmetry. apply (K [] [PRead QConvex] 0 0 q); reflexivity.
  - intros (M & M') os os' E E' x O O'.
    pose proof (C58_not_misread_partial s vs os E x) as A. cbn zeta in A. rewrite prun_verts in A. change (pverts (poly_from_points vs)) with vs in A. rewrite O in A. rewrite A by auto.
    pose proof (C58_not_misread_partial s' ws os' E' x) as B. cbn zeta in B. rewrite prun_verts in B. change (pverts (poly_from_points ws)) with ws in B. rewrite O' in B. rewrite B by (auto; lia). apply W.
Qed.
Print Assumptions C108_convex_exact.

(** C98: the answers of a convex polygon with distinct vertices and of its image
    correspond, off the edges and whatever was called on each, if and only if
    neither is misread. *)
Theorem C98_convex_exact : forall (s : R) (vs : list pt) (m : affine R), s = 1 \/ s = -1 -> (3 < length vs)%nat -> NoDup vs -> spread vs -> det m <> 0 ->
  (forall a b v, In (a, b) (cyc_pairs vs) -> In v vs -> 0 <= s * orient a b v) -> let ws := map (aapply m) vs in
  (forall (os os' : list (pop R)) (E E' : R) (x : pt), writes vs os = vs -> writes ws os' = ws -> off_edges x vs ->
     fst (contains_point E' (aapply m x) (prun (poly_mul (poly_from_points vs) m) os')) = fst (contains_point E x (prun (poly_from_points vs) os))) <-> ~ misread s vs /\ ~ misread (det m * s) ws.
Proof.
  intros s vs m Ts L N Sp D Sd ws. assert (EW : ws = map (img m) vs) by (apply map_aapply_img). set (s' := if Rlt_dec 0 (det m) then s else - s).
  assert (Ts' : s' = 1 \/ s' = -1) by (unfold s'; destruct (Rlt_dec 0 (det m)), Ts; lra).
  assert (MS : misread (det m * s) ws <-> misread s' ws).
  { unfold s'. destruct (Rlt_dec 0 (det m)) as [K|K]; [apply misread_sign; auto|]. replace (det m * s) with (- det m * - s) by ring. apply misread_sign. lra. }
  rewrite MS. clear MS. assert (Sw : spread ws) by (rewrite EW; apply spread_img; auto). assert (Nw : NoDup ws) by (rewrite EW; apply nodup_img; auto). assert (Lw : length ws = length vs) by (unfold ws; apply map_length).
  assert (Sd' : forall a b v, In (a, b) (cyc_pairs ws) -> In v ws -> 0 <= s' * orient a b v).
  { intros a b v He Hv. rewrite EW in He, Hv. rewrite cyc_map in He. apply in_map_iff in He as ([a' b'] & Q & He). cbn [fst snd] in Q. injection Q as <- <-. apply in_map_iff in Hv as (v' & <- & Hv).
    rewrite orient_img. specialize (Sd a' b' v' He Hv). unfold s'. destruct (Rlt_dec 0 (det m)); nra. }
  assert (W : forall x, off_edges x vs -> winding_test ws (aapply m x) = winding_test vs x) by (intros x Hx; rewrite EW, aapply_R; apply winding_img; auto).
  assert (FR : poly_mul (poly_from_points vs) m = poly_from_points ws) by (rewrite mul_fresh, EW; reflexivity). rewrite FR. split.
  - intro K. split.
    + intro M. destruct (C58_exact s vs 0 Ts L N Sd Sp) as (p0 & _ & _ & _ & X). destruct (X M) as (X1 & q & Q & Wq). pose proof (strict_off s vs q N Sp Q) as O.
      specialize (K [PRead QConvex] [] 0 0 q eq_refl eq_refl O). rewrite (fresh_answers 0 ws) in K by lia. rewrite W in K by auto. destruct (X1 q) as (X2 & _). change (fst (contains_point 0 q (prun (poly_from_points vs) [PRead QConvex])) = Ok false) in X2. congruence.
    + intro M. destruct (C58_exact s' ws 0 Ts' ltac:(lia) Nw Sd' Sw) as (p0 & _ & _ & _ & X). destruct (X M) as (X1 & q & Q & Wq). pose proof (strict_off s' ws q Nw Sw Q) as O.
      assert (IQ : exists x, q = aapply m x /\ off_edges x vs).
      { exists (img (inv_mat m) q). assert (R1 : img m (img (inv_mat m) q) = q). { destruct q as [x y]. unfold img, inv_mat. cbn. unfold det in *. vext; field; auto. }
        split; [rewrite aapply_R; auto|]. intros a b He Ho. apply (O (img m a) (img m b)); [rewrite EW, cyc_map; apply in_map_iff; exists (a, b); auto|]. rewrite <- R1. apply on_segment_img; auto. }
      destruct IQ as (x & -> & Ox). specialize (K [] [PRead QConvex] 0 0 x eq_refl eq_refl Ox). change (prun (poly_from_points vs) []) with (poly_from_points vs) in K. destruct (X1 (aapply m x)) as (X2 & _). rewrite (fresh_answers 0 vs) in K by lia.
      change (fst (contains_point 0 (aapply m x) (prun (poly_from_points ws) [PRead QConvex])) = Ok false) in X2. rewrite W in Wq by auto. congruence.
  - intros (M & M') os os' E E' x O O' Ox.
    pose proof (C58_not_misread_partial s vs os E x) as A. cbn zeta in A. rewrite prun_verts in A. change (pverts (poly_from_points vs)) with vs in A. rewrite O in A. rewrite A by auto.
    pose proof (C58_not_misread_partial s' ws os' E' (aapply m x)) as B. cbn zeta in B. rewrite prun_verts in B. change (pverts (poly_from_points ws)) with ws in B. rewrite O' in B. rewrite B by (auto; lia). apply W. auto.
Qed.
Print Assumptions C98_convex_exact.

(** Example: the square from its second corner, magnified, and against its
    reverse. *)
Definition sq2 : list (Z * Z) := [(10, 0); (10, 10); (0, 10); (0, 0)]%Z.
Example C98_exact_ex : let vs := map zv sq2 in let m := mkA 2 0 0 0 2 0 in
  (3 < length vs)%nat /\ NoDup vs /\ spread vs /\ det m <> 0 /\ (forall a b v, In (a, b) (cyc_pairs vs) -> In v vs -> 0 <= 1 * orient a b v) /\ ~ misread 1 vs /\
  poly_eqb (poly_from_points vs) (poly_from_points (map zv cw_square)) = Ok true.
Proof.
  cbn zeta. split; [cbn; lia|]. split; [unfold sq2; znd|]. split; [|split; [|split; [|split]]].
  - exists (zv (10, 0)%Z), (zv (10, 10)%Z), (zv (0, 10)%Z). cbn [map sq2 In]. split; [auto|]. split; [auto|]. split; [auto|]. unfold zv. ug. cbn. lra.
  - unfold det. cbn. lra.
  - intros a c v He Hv. cbn in He, Hv. pick He; injection He as <- <-; pick Hv; subst v; unfold zv; ug; cbn; lra.
  - apply C58_misread_ex.
  - unfold poly_eqb, poly_from_points. rewrite !pverts_cleared. rewrite z_poly_eqb. vm_compute. reflexivity.
Qed.
