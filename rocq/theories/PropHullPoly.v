(** * Property C106: hulls as polygons *)
From Coq Require Import ZArith QArith List Bool Reals Lra Lia Permutation.
From Verif Require Import Num Vec Affine Box Seq Polygon BoxPoly Hull Tangent PolyOps SpecPoly SpecGeom SpecMass SpecWind SpecConvex SpecExtreme SpecSplit SpecHull RBase VecFacts2 NumHom RComp
  HullFacts HullFacts2 HullFacts3 HullFacts4 HullFacts5 HullFacts6 ConvexFacts ConvexFacts3 PolyEq WindFacts MonoFacts5 PropPoly PropPnp PropSimple PropSplit PropHull PropHullWide PolyCache PolyCache2 PolyCache3 PolyCache5 SpecTri PropTri PropTrans.
Import ListNotations.
Local Open Scope R_scope.

Lemma spread_wide (pts : list pt) : spread pts -> exists a b, In a pts /\ In b pts /\ vx a <> vx b.
Proof.
  intros (a & b & c & Ha & Hb & Hc & O). destruct (Req_dec (vx a) (vx b)) as [X|X]; [|eauto]. destruct (Req_dec (vx a) (vx c)) as [Y|Y]; [|eauto]. exfalso. apply O. ug. rewrite <- X, <- Y. ring.
Qed.
(** Points for which the hull encloses all of them (C67). *)
Definition hull_sound (pts : list pt) : Prop := (length pts <= 7)%nat \/ between_ends pts.

(** The hull is a clockwise convex polygon with distinct vertices taken from
    the points, it starts at a leftmost point, and it has a point inside. *)
Theorem C106_shape : forall (so : list pt -> list pt) (pts : list pt) (p : poly R), reorders so -> spread pts -> hull_sound pts -> convex_hull so pts = Ok p ->
  NoDup (pverts p) /\ convex_cw (pverts p) /\ spread (pverts p) /\ (exists l t, pverts p = l :: t /\ leftmost pts l) /\
  (forall v, In v (pverts p) -> In v pts) /\ (forall q, In q pts -> encloses (pverts p) q) /\ (exists q, strictly_inside (-1) (pverts p) q).
Proof.
  intros so pts p Hso Sp HS E. pose proof (spread_wide pts Sp) as Hx.
  assert (En : forall q, In q pts -> encloses (pverts p) q). { intros q Hq. destruct HS as [HS|HS]; [apply (C67_few_partial so pts p Hso Hx HS E q Hq)|apply (C67_between_partial so pts p Hso Hx HS E q Hq)]. }
  unfold convex_hull in E. destruct (quick_hull so pts) as [h|] eqn:EQ; [|discriminate]. cbn [bind] in E. apply new_verts_any in E. rewrite map_vec2_of_R in E.
  destruct (quick_nodup so pts h Hso Hx EQ) as (N & I & F & S0). rewrite E in *.
  assert (Cw : convex_cw h). { intros a b v He Hv. apply (En v); auto. }
  split; auto. split; auto. split; auto. split; auto. split; auto. split; auto. apply inside_point; auto; [apply sided_ccw; auto|right; auto].
Qed.
Print Assumptions C106_shape.

(** Containment in a hull of more than three vertices is exact in every state
    without new vertices: unlike other polygons known to be convex (C58), hulls
    are never misread. *)
Theorem C106_contains : forall (so : list pt -> list pt) (pts : list pt) (p : poly R) (os : list (pop R)) (E : R) (q : pt), reorders so -> spread pts -> hull_sound pts -> convex_hull so pts = Ok p ->
  (3 < length (pverts p))%nat -> writes (pverts p) os = pverts p ->
  exact_for (-1) (pverts p) (fun r => fst (contains_point E r (prun p os)) = Ok true) q.
Proof.
  intros so pts p os E q Hso Sp HS EH L W. destruct (C106_shape so pts p Hso Sp HS EH) as (N & Cw & Sh & (l & t & El & Hl) & I & _).
  unfold convex_hull in EH. destruct (quick_hull so pts) as [h|] eqn:EQ; [|discriminate]. cbn [bind] in EH. assert (EV := EH). apply new_verts_any in EV. rewrite map_vec2_of_R in EV.
  rewrite EV in *. rewrite El in *. assert (Ll : leftmost (l :: t) l) by (split; [left; auto|]; intros w Hw; apply Hl; auto).
  destruct (C55_left_first_partial l t os E q L N Cw Sh Ll) as (p0 & E0 & _ & K). cbn zeta in E0. rewrite E0 in EH. injection EH as ->. apply K; auto.
Qed.
Print Assumptions C106_contains.
(** So every given point that is on no edge line is contained, and no point
    outside some edge is. *)
Theorem C106_inputs : forall (so : list pt -> list pt) (pts : list pt) (p : poly R) (os : list (pop R)) (E : R) (q : pt), reorders so -> spread pts -> hull_sound pts -> convex_hull so pts = Ok p ->
  (3 < length (pverts p))%nat -> writes (pverts p) os = pverts p -> In q pts -> (forall a b, In (a, b) (cyc_pairs (pverts p)) -> orient a b q <> 0) ->
  fst (contains_point E q (prun p os)) = Ok true.
Proof.
  intros so pts p os E q Hso Sp HS EH L W Hq Hn. destruct (C106_contains so pts p os E q Hso Sp HS EH L W) as (A & _). apply A. intros a b He _.
  destruct (C106_shape so pts p Hso Sp HS EH) as (_ & _ & _ & _ & _ & En & _). pose proof (En q Hq a b He). specialize (Hn a b He). lra.
Qed.
Print Assumptions C106_inputs.
(** Three vertices: exact after any reads, when the vertices are at least
    EPSILON apart from bottom to top (C56). *)
Theorem C106_triangle : forall (so : list pt -> list pt) (pts : list pt) (p : poly R) (qs : list (pread R)) (E : R) (q : pt), reorders so -> spread pts -> hull_sound pts -> convex_hull so pts = Ok p ->
  length (pverts p) = 3%nat -> 0 <= E -> roomy E (pverts p) -> Forall (same_eps E) qs ->
  exact_for (-1) (pverts p) (fun r => fst (contains_point E r (preads p qs)) = Ok true) q.
Proof.
  intros so pts p qs E q Hso Sp HS EH L HE HR HQ. destruct (C106_shape so pts p Hso Sp HS EH) as (N & Cw & Sh & _).
  assert (EP : p = poly_from_points (pverts p)).
  { unfold convex_hull in EH. destruct (quick_hull so pts) as [h|] eqn:EQ; [|discriminate]. cbn [bind] in EH. assert (EV := EH). apply new_verts_any in EV. rewrite map_vec2_of_R in EV. rewrite EV in *.
    destruct h as [|a [|b [|c [|]]]]; try discriminate. unfold poly_new, seq_new in EH. rewrite map_vec2_of_R in EH. cbn [length Nat.ltb Nat.leb cleared pconvex bind] in EH. injection EH as <-. reflexivity. }
  assert (WT : forall r, fst (contains_point E r (preads p qs)) = winding_test (pverts p) r) by (intro r; rewrite EP at 1; apply C56_agrees; auto).
  destruct (C55_winding_exact (pverts p) q Sh) as [_ K]. destruct (K Cw) as (A & B & C). split; [intro H; rewrite WT; auto|]. split; [intro H; rewrite WT; auto|].
  eapply jrb_impl; [|exact C]. cbn beta. intros r Hr. rewrite WT. exact Hr.
Qed.
Print Assumptions C106_triangle.

(** ** Example: four points around a fifth. *)
Definition four_one : list (Z * Z) := [(2, 2); (0, 2); (2, 4); (5, 3); (3, 0)]%Z.
Example C106_ex : reorders (fun x : list pt => x) /\ spread (map zv four_one) /\ hull_sound (map zv four_one) /\
  exists p, convex_hull (fun x => x) (map zv four_one) = Ok p /\ pverts p = map zv [(0, 2); (2, 4); (5, 3); (3, 0)]%Z /\ (3 < length (pverts p))%nat /\
    fst (contains_point 0 (zv (2, 2)%Z) p) = Ok true.
Proof.
  assert (R0 : reorders (fun x : list pt => x)) by (intro; auto).
  assert (Sp : spread (map zv four_one)). { exists (zv (0, 2)%Z), (zv (2, 4)%Z), (zv (5, 3)%Z). split; [apply in_map; cbn; auto|]. split; [apply in_map; cbn; auto|]. split; [apply in_map; cbn; auto 6|]. unfold zv. ug. cbn. lra. }
  assert (HS : hull_sound (map zv four_one)) by (left; cbn; lia).
  split; auto. split; auto. split; auto.
  assert (X : exists p, convex_hull (fun x => x) (map zv four_one) = Ok p /\ pverts p = map zv [(0, 2); (2, 4); (5, 3); (3, 0)]%Z).
  { unfold convex_hull. rewrite z_quick_hull. assert (E : quick_hull (fun x => x) (map qv four_one) = Ok (map qv [(0, 2); (2, 4); (5, 3); (3, 0)]%Z)) by (vm_compute; reflexivity).
    rewrite E. cbn [rmap bind]. rewrite <- map_zv. exact (new_verts (map zv [(0, 2); (2, 4); (5, 3); (3, 0)]%Z)). }
  destruct X as (p & EP & VP). exists p. split; auto. split; auto. split; [rewrite VP; cbn; lia|].
  apply (C106_inputs (fun x => x) (map zv four_one) p []); auto; [rewrite VP; cbn; lia|apply in_map; cbn; auto|].
  rewrite VP. intros a b He. cbn in He. pick He; injection He as <- <-; unfold zv; ug; cbn; lra.
Qed.
