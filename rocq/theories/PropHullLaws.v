(** * Property C111: hulls of more points, of inner points, of parts, and of convex polygons *)
From Coq Require Import ZArith QArith List Bool Reals Lra Lia Permutation.
From Verif Require Import Num Vec Affine Box Seq Polygon BoxPoly Hull Tangent PolyOps OrdLaws SpecPoly SpecCycle SpecAffine SpecGeom SpecMass SpecWind SpecConvex SpecExtreme SpecSplit SpecHull SpecRegion SpecTri RBase VecFacts2 NumHom RComp
  HullFacts4 AffineFacts CentroidFacts ConvexFacts3 ConvexFacts4 RegionFacts PolyCache PolyCache2 PolyCache3 PropPoly PropPolyEq PropPnp PropSimple PropHull PropHullWide PropHullPoly PropRegion PropTrans PropHullTrans.
Import ListNotations.
Local Open Scope R_scope.

Lemma spread_mono (l m : list pt) : (forall v, In v l -> In v m) -> spread l -> spread m.
Proof. intros I (a & b & c & Ha & Hb & Hc & O). exists a, b, c. auto 6. Qed.
Lemma spread_exists (so : list pt -> list pt) (pts : list pt) : reorders so -> spread pts -> exists p, convex_hull so pts = Ok p.
Proof.
  intros Hs (a & b & c & Ha & Hb & Hc & O). pose proof (C66_raises so pts Hs) as K. destruct (convex_hull so pts) as [p|]; [eauto|exfalso].
  destruct K as [[K _]|(_ & _ & K)]; [rewrite K in Ha; contradiction|]. destruct (K a b c Ha Hb Hc) as [ -> | [ -> | -> ]]; apply O; ug; ring.
Qed.
(** Clockwise convex polygons on the same corners compare equal. *)
Lemma cw_equal (p q : poly R) : NoDup (pverts p) -> NoDup (pverts q) -> convex_cw (pverts p) -> convex_cw (pverts q) \/ convex_ccw (pverts q) -> spread (pverts p) -> no_three (pverts p) ->
  (forall v, In v (pverts p) <-> In v (pverts q)) -> poly_eqb p q = Ok true.
Proof.
  intros N N' C C' Sp NT I. assert (CY : same_cycle (pverts p) (pverts q)).
  { destruct C' as [C'|C']; [left; apply cw_rotated; auto|]. right. apply cw_rotated; auto using cw_rev, NoDup_rev. intro w. rewrite <- in_rev. auto. }
  assert (LN : length (pverts p) = length (pverts q)) by (apply Permutation_length, NoDup_Permutation; auto).
  apply (C64_same_cycle_equal R RNum (fun _ => True) R_ordlaws _ _ (pverts q)); auto.
  - apply (three (pverts p)); auto.
  - apply Forall_forall. intros; split; auto.
  - apply Forall_forall. intros; split; auto.
  - clear. unfold same_points. induction (pverts q) as [|a l IH]; constructor; auto. apply vec_eqb_R; auto.
Qed.

(** More points never make the hull smaller. *)
Theorem C111_monotone : forall (so so' : list pt -> list pt) (pts more : list pt) (p p' : poly R), reorders so -> reorders so' -> spread pts -> hull_sound pts -> hull_sound more ->
  (forall v, In v pts -> In v more) -> convex_hull so pts = Ok p -> convex_hull so' more = Ok p' -> forall q, encloses (pverts p) q -> encloses (pverts p') q.
Proof.
  intros so so' pts more p p' Hso Hso' Sp HS HS' I E E' q. rewrite (C107_region so pts p Hso Sp HS E q), (C107_region so' more p' Hso' (spread_mono _ _ I Sp) HS' E' q).
  apply in_hull_mono. intros v Hv. apply in_hull_in; auto.
Qed.
Print Assumptions C111_monotone.

(** Points that the hull encloses already do not change it. *)
Theorem C111_inner : forall (so so' : list pt -> list pt) (pts more : list pt) (p p' : poly R), reorders so -> reorders so' -> spread pts -> hull_sound pts -> hull_sound more ->
  (forall v, In v pts -> In v more) -> convex_hull so pts = Ok p -> (forall v, In v more -> encloses (pverts p) v) -> convex_hull so' more = Ok p' ->
  (forall q, encloses (pverts p') q <-> encloses (pverts p) q) /\
  (no_three (pverts p) -> no_three (pverts p') -> poly_eqb p p' = Ok true /\ forall v, In v (pverts p') <-> In v (pverts p)).
Proof.
  intros so so' pts more p p' Hso Hso' Sp HS HS' I E En E'. pose proof (spread_mono _ _ I Sp) as Sp'.
  pose proof (C107_region so pts p Hso Sp HS E) as R1. pose proof (C107_region so' more p' Hso' Sp' HS' E') as R2.
  assert (HH : forall q, in_hull more q <-> in_hull pts q).
  { intro q. split; [|apply in_hull_mono; intros v Hv; apply in_hull_in; auto]. apply in_hull_mono. intros v Hv. apply R1; auto. }
  split; [intro q; rewrite R1, R2; apply HH|]. intros NT NT'.
  assert (X : forall v, In v (pverts p') <-> In v (pverts p)).
  { intro v. rewrite (vertex_iff so pts p v), (vertex_iff so' more p' v); auto. split; intros (A & B).
    - split; [apply (proj1 (HH _)); exact A|]. intros a b Ha Hb. apply B; apply (proj2 (HH _)); assumption.
    - split; [apply (proj2 (HH _)); exact A|]. intros a b Ha Hb. apply B; apply (proj1 (HH _)); assumption. }
  split; [|exact X]. destruct (C106_shape so pts p Hso Sp HS E) as (N & Cw & Sh & _). destruct (C106_shape so' more p' Hso' Sp' HS' E') as (N' & Cw' & _).
  apply cw_equal; auto. intro v. symmetry. apply X.
Qed.
Print Assumptions C111_inner.

(** Hulls of parts can be merged: the hull of the vertices of two hulls bounds
    what the hull of all the points bounds. *)
Theorem C111_merge : forall (s1 s2 s3 s4 : list pt -> list pt) (l1 l2 : list pt) (p1 p2 p3 p4 : poly R), reorders s1 -> reorders s2 -> reorders s3 -> reorders s4 ->
  spread l1 -> spread l2 -> hull_sound l1 -> hull_sound l2 -> hull_sound (l1 ++ l2) -> hull_sound (pverts p1 ++ pverts p2) ->
  convex_hull s1 l1 = Ok p1 -> convex_hull s2 l2 = Ok p2 -> convex_hull s3 (pverts p1 ++ pverts p2) = Ok p3 -> convex_hull s4 (l1 ++ l2) = Ok p4 ->
  (forall q, encloses (pverts p3) q <-> encloses (pverts p4) q) /\ (no_three (pverts p3) -> no_three (pverts p4) -> poly_eqb p3 p4 = Ok true).
Proof.
  intros s1 s2 s3 s4 l1 l2 p1 p2 p3 p4 H1 H2 H3 H4 Sp1 Sp2 HS1 HS2 HS4 HS3 E1 E2 E3 E4.
  destruct (C106_shape s1 l1 p1 H1 Sp1 HS1 E1) as (_ & _ & Sh1 & _ & I1 & _). destruct (C106_shape s2 l2 p2 H2 Sp2 HS2 E2) as (_ & _ & _ & _ & I2 & _).
  assert (I : forall v, In v (pverts p1 ++ pverts p2) -> In v (l1 ++ l2)) by (intros v Hv; apply in_app_iff in Hv; apply in_app_iff; destruct Hv; auto).
  assert (Sp3 : spread (pverts p1 ++ pverts p2)) by (apply (spread_mono (pverts p1)); auto; intros v Hv; apply in_app_iff; auto).
  destruct (C111_inner s3 s4 (pverts p1 ++ pverts p2) (l1 ++ l2) p3 p4) as (A & B); auto.
  - intros v Hv. apply in_app_iff in Hv as [Hv|Hv].
    + apply (C107_region s3 _ p3 H3 Sp3 HS3 E3). apply (in_hull_mono (pverts p1)); [intros w Hw; apply in_hull_in, in_app_iff; auto|].
      destruct (C106_shape s1 l1 p1 H1 Sp1 HS1 E1) as (N & Cw & Sh & _ & _ & En & _). apply enclosed_hull; auto.
    + apply (C107_region s3 _ p3 H3 Sp3 HS3 E3). apply (in_hull_mono (pverts p2)); [intros w Hw; apply in_hull_in, in_app_iff; auto|].
      destruct (C106_shape s2 l2 p2 H2 Sp2 HS2 E2) as (N & Cw & Sh & _ & _ & En & _). apply enclosed_hull; auto.
  - split; [intro q; symmetry; apply A|]. intros NT NT'. apply B; auto.
Qed.
Print Assumptions C111_merge.

(** A convex polygon without three vertices on a line is the hull of its
    vertices. *)
Theorem C111_convex_polygon : forall (so : list pt -> list pt) (q : poly R), reorders so -> NoDup (pverts q) -> convex_cw (pverts q) \/ convex_ccw (pverts q) -> spread (pverts q) -> no_three (pverts q) -> hull_sound (pverts q) ->
  exists p, convex_hull so (pverts q) = Ok p /\ poly_eqb p q = Ok true /\ length (pverts p) = length (pverts q).
Proof.
  intros so q Hso N C Sp NT HS. destruct (spread_exists so (pverts q) Hso Sp) as (p & E). exists p. split; [exact E|]. destruct (C106_shape so _ p Hso Sp HS E) as (N' & Cw' & Sh & _ & I & En & _).
  assert (NT' : no_three (pverts p)) by (intros a b c Ha Hb Hc; apply NT; auto).
  assert (X : forall v, In v (pverts p) <-> In v (pverts q)).
  { intro v. split; [apply I|]. intro Hv. apply (C107_corners so (pverts q) p); auto.
    assert (K : forall l : list pt, NoDup l -> convex_cw l -> spread l -> no_three l -> In v l -> extreme (in_hull l) v).
    { intros l Nl Cl Sl NTl Hl. destruct (vertex_extreme l v Nl Cl Sl NTl Hl) as (X1 & X2). assert (Z : forall w, encloses l w <-> in_hull l w). { intro w. split; [apply enclosed_hull; auto|]. apply hull_encloses. intros u Hu a b Hab. apply Cl; auto. }
      split; [apply (proj1 (Z _)); exact X1|]. intros a b Ha Hb. apply X2; apply (proj2 (Z _)); assumption. }
    destruct C as [C|C]; [apply K; auto|]. assert (K' : extreme (in_hull (rev (pverts q))) v).
    { apply K; auto using cw_rev, NoDup_rev; [apply (spread_mono (pverts q)); auto; intros u Hu; apply -> in_rev; auto| |apply -> in_rev; auto]. intros a b c Ha Hb Hc. rewrite <- in_rev in Ha, Hb, Hc. apply NT; auto. }
    assert (HR : forall w, in_hull (rev (pverts q)) w <-> in_hull (pverts q) w) by (intro w; apply hull_same; intro u; symmetry; apply in_rev).
    destruct K' as (A & B). split; [apply (proj1 (HR _)); exact A|]. intros a b Ha Hb. apply B; apply (proj2 (HR _)); assumption. }
  split; [apply cw_equal; auto|]. apply Permutation_length, NoDup_Permutation; auto.
Qed.
Print Assumptions C111_convex_polygon.

(** Without the condition on the points more points can make the hull smaller:
    the eight points of C67_refuted against three of them. *)
Theorem C111_refuted : exists (pts more : list pt) (q : pt), spread pts /\ (forall v, In v pts -> In v more) /\ In q pts /\
  forall so so', reorders so -> reorders so' -> exists p p', convex_hull so pts = Ok p /\ convex_hull so' more = Ok p' /\ encloses (pverts p) q /\ ~ encloses (pverts p') q.
Proof.
  set (pts := map zv [(0, 0); (4000, -3000); (10, 1200)]%Z). exists pts, (map zv hull_w), (zv (10, 1200)%Z).
  assert (Sp : spread pts). { exists (zv (0, 0)%Z), (zv (4000, -3000)%Z), (zv (10, 1200)%Z). cbn [map pts In]. split; [auto|]. split; [auto|]. split; [auto|]. unfold zv. ug. cbn. lra. }
  assert (I : forall v, In v pts -> In v (map zv hull_w)). { intros v Hv. apply in_map_iff in Hv as (z & <- & Hz). apply in_map. cbn in Hz. pick Hz; subst z; cbn; auto 10. }
  split; [exact Sp|]. split; [exact I|]. split; [cbn; auto|]. intros so so' Hso Hso'.
  destruct (spread_exists so pts Hso Sp) as (p & E). destruct (spread_exists so' (map zv hull_w) Hso' (spread_mono _ _ I Sp)) as (p' & E'). exists p, p'. split; [exact E|]. split; [exact E'|]. split.
  - assert (H7 : hull_sound pts) by (left; unfold pts; cbn; lia). destruct (C106_shape so pts p Hso Sp H7 E) as (_ & _ & _ & _ & _ & En & _). apply En. cbn. auto.
  - pose proof (new_verts (map zv hull_w_h)) as NV. cbn [map hull_w_h length Nat.ltb Nat.leb] in NV. destruct NV as (p0 & E0 & Ep).
    unfold convex_hull in E'. rewrite hull_w_run in E' by auto. cbn [bind] in E'. assert (p0 = p') as ->. { change (poly_new (map zv hull_w_h) (Some true) None = Ok p') in E'. change (poly_new (map zv hull_w_h) (Some true) None = Ok p0) in E0. congruence. }
    rewrite Ep. intro H. specialize (H (zv (1,1000)%Z) (zv (500,800)%Z)). cbn in H. specialize (H (or_intror (or_introl eq_refl))). unfold orient, pcross, psub, zv in H. cbn [vx vy fst snd] in H. lra.
Qed.
Print Assumptions C111_refuted.

(** ** Example: four corners, and the same with a point inside. *)
Definition four : list (Z * Z) := [(0, 2); (2, 4); (5, 3); (3, 0)]%Z.
Example C111_ex : let pts := map zv four in let more := map zv (four ++ [(2, 2)]%Z) in exists p p', convex_hull (fun x => x) pts = Ok p /\ convex_hull (fun x => x) more = Ok p' /\
  spread pts /\ hull_sound pts /\ hull_sound more /\ no_three (pverts p) /\ no_three (pverts p') /\ (forall v, In v more -> encloses (pverts p) v) /\ NoDup pts /\ convex_cw pts /\ poly_eqb p p' = Ok true.
Proof.
  intros pts more. assert (R0 : reorders (fun x : list pt => x)) by (intro; apply Permutation_refl).
  assert (Sp : spread pts). { exists (zv (0, 2)%Z), (zv (2, 4)%Z), (zv (5, 3)%Z). unfold pts. cbn [map four In]. split; [auto|]. split; [auto|]. split; [auto|]. unfold zv. ug. cbn. lra. }
  assert (HS : hull_sound pts) by (left; unfold pts; cbn; lia). assert (HS' : hull_sound more) by (left; unfold more; cbn; lia).
  assert (I : forall v, In v pts -> In v more). { intros v Hv. unfold more. rewrite map_app. apply in_app_iff. left. exact Hv. }
  assert (N : NoDup pts) by (unfold pts, four; znd).
  assert (C : convex_cw pts). { intros a b v He Hv. unfold pts in He, Hv. cbn in He, Hv. pick He; injection He as <- <-; pick Hv; subst v; unfold zv; ug; cbn; lra. }
  assert (NT : no_three pts). { intros a b c Ha Hb Hc N1 N2 N3. unfold pts in Ha, Hb, Hc. cbn in Ha, Hb, Hc. pick Ha; subst a; pick Hb; subst b; try congruence; pick Hc; subst c; try congruence; unfold zv; ug; cbn; lra. }
  assert (NT' : no_three more). { intros a b c Ha Hb Hc N1 N2 N3. unfold more in Ha, Hb, Hc. cbn in Ha, Hb, Hc. pick Ha; subst a; pick Hb; subst b; try congruence; pick Hc; subst c; try congruence; unfold zv; ug; cbn; lra. }
  destruct (C111_convex_polygon (fun x => x) (poly_from_points pts) R0 N (or_introl C) Sp NT HS) as (p & E & _). change (pverts (poly_from_points pts)) with pts in E.
  destruct (spread_exists (fun x => x) more R0 (spread_mono _ _ I Sp)) as (p' & E'). exists p, p'.
  destruct (C106_shape _ pts p R0 Sp HS E) as (_ & _ & _ & _ & J & En & _). destruct (C106_shape _ more p' R0 (spread_mono _ _ I Sp) HS' E') as (_ & _ & _ & _ & J' & _).
  assert (NP : no_three (pverts p)) by (intros a b c Ha Hb Hc; apply NT; auto). assert (NP' : no_three (pverts p')) by (intros a b c Ha Hb Hc; apply NT'; auto).
  assert (EM : forall v, In v more -> encloses (pverts p) v).
  { intros v Hv. apply (C107_region _ pts p R0 Sp HS E). unfold more in Hv. rewrite map_app in Hv. apply in_app_iff in Hv as [Hv|[<-|[]]]; [apply in_hull_in; exact Hv|].
    apply enclosed_hull; auto. intros a b He. unfold pts in He. cbn in He. pick He; injection He as <- <-; unfold zv; ug; cbn; lra. }
  split; [exact E|]. split; [exact E'|]. split; [exact Sp|]. split; [exact HS|]. split; [exact HS'|]. split; [exact NP|]. split; [exact NP'|]. split; [exact EM|]. split; [exact N|]. split; [exact C|].
  apply (C111_inner (fun x => x) (fun x => x) pts more p p'); auto.
Qed.
