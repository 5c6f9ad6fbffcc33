(** * Property C107: the region of a convex hull *)
From Coq Require Import ZArith QArith List Bool Reals Lra Lia Permutation.
From Verif Require Import Num Vec Affine Box Seq Polygon BoxPoly Hull Tangent PolyOps OrdLaws SpecPoly SpecGeom SpecMass SpecWind SpecConvex SpecExtreme SpecSplit SpecHull SpecRegion SpecTri RBase VecFacts2 NumHom RComp
  CentroidFacts RegionFacts PolyCache PolyCache2 PolyCache3 PropPoly PropPnp PropSimple PropHull PropHullPoly.
Import ListNotations.
Local Open Scope R_scope.

Lemma pt_dec (a b : pt) : {a = b} + {a <> b}.
Proof. destruct a as [x y], b as [z t]. destruct (Req_EM_T x z), (Req_EM_T y t); [left; congruence|right; congruence..]. Qed.

(** The polygon encloses exactly the smallest convex set around the points. *)
Theorem C107_region : forall (so : list pt -> list pt) (pts : list pt) (p : poly R), reorders so -> spread pts -> hull_sound pts -> convex_hull so pts = Ok p ->
  forall q, encloses (pverts p) q <-> in_hull pts q.
Proof.
  intros so pts p Hso Sp HS E q. destruct (C106_shape so pts p Hso Sp HS E) as (N & Cw & Sh & _ & I & En & _). split; intro H.
  - apply (in_hull_mono (pverts p)); [intros v Hv; apply in_hull_in; auto|]. apply enclosed_hull; auto.
  - apply (hull_encloses (pverts p) pts); auto.
Qed.
Print Assumptions C107_region.

(** So hulls of the same points bound the same region, whatever the order and
    the repetitions of the points and the iteration order of sets. *)
Theorem C107_order : forall (so so' : list pt -> list pt) (pts pts' : list pt) (p p' : poly R), reorders so -> reorders so' -> spread pts -> hull_sound pts -> hull_sound pts' -> (forall v, In v pts <-> In v pts') ->
  convex_hull so pts = Ok p -> convex_hull so' pts' = Ok p' -> forall q, encloses (pverts p) q <-> encloses (pverts p') q.
Proof.
  intros so so' pts pts' p p' Hso Hso' Sp HS HS' HI E E' q.
  assert (Sp' : spread pts') by (destruct Sp as (a & b & c & Ha & Hb & Hc & O); exists a, b, c; rewrite <- !HI; auto).
  rewrite (C107_region so pts p Hso Sp HS E q), (C107_region so' pts' p' Hso' Sp' HS' E' q).
  split; apply in_hull_mono; intros v Hv; apply in_hull_in, HI, Hv.
Qed.
Print Assumptions C107_order.

(** Every extreme point of the region is a vertex. *)
Theorem C107_corners : forall (so : list pt -> list pt) (pts : list pt) (p : poly R) (v : pt), reorders so -> spread pts -> hull_sound pts -> convex_hull so pts = Ok p ->
  extreme (in_hull pts) v -> In v (pverts p).
Proof.
  intros so pts p v Hso Sp HS E (Hv & X). destruct (C106_shape so pts p Hso Sp HS E) as (N & Cw & Sh & _ & I & En & _).
  destruct (in_dec pt_dec v (pverts p)) as [|K]; auto. exfalso.
  assert (H : in_hull (pverts p) v) by (apply enclosed_hull; auto; apply (C107_region so pts p Hso Sp HS E); auto).
  assert (M : forall q, in_hull (pverts p) q -> in_hull pts q) by (intro q; apply in_hull_mono; intros w Hw; apply in_hull_in; auto).
  apply (H (fun q => in_hull (pverts p) q /\ q <> v)).
  - intros a b t [Ha Na] [Hb Nb] Ht. split; [apply in_hull_convex; auto|]. intro EQ. destruct (X a b) as [E1|E1]; auto; try congruence. exists t. split; auto.
  - intros w Hw. split; [apply in_hull_in; auto|]. intros ->. contradiction.
  - reflexivity.
Qed.
Print Assumptions C107_corners.

Lemma deep_strict (so : list pt -> list pt) (pts : list pt) (p : poly R) q : reorders so -> spread pts -> hull_sound pts -> convex_hull so pts = Ok p -> deep (in_hull pts) q <-> strictly_inside (-1) (pverts p) q.
Proof.
  intros Hso Sp HS E. destruct (C106_shape so pts p Hso Sp HS E) as (N & Cw & Sh & _ & I & En & _). pose proof (C107_region so pts p Hso Sp HS E) as RG. split.
  - intros D a b Hab Nab. enough (orient a b q < 0) by lra. apply (no_room a b q (in_hull pts)); auto. intros v Hv. apply RG in Hv. apply Hv; auto.
  - intro H. destruct (room (cyc_pairs (pverts p)) q) as (r & R0 & HR).
    { intros a b Hab. specialize (H a b Hab (edge_apart (pverts p) N Sh a b Hab)). lra. }
    exists r. split; auto. intros x y Hx Hy. apply RG. intros a b Hab. apply HR; auto.
Qed.

(** contains_point on the hull: True well inside the region, False outside it,
    in every state without new vertices. *)
Theorem C107_contains : forall (so : list pt -> list pt) (pts : list pt) (p : poly R) (os : list (pop R)) (E : R) (q : pt), reorders so -> spread pts -> hull_sound pts -> convex_hull so pts = Ok p ->
  (3 < length (pverts p))%nat -> writes (pverts p) os = pverts p -> Forall not_centroid os ->
  (deep (in_hull pts) q -> fst (contains_point E q (prun p os)) = Ok true) /\
  (~ in_hull pts q -> fst (contains_point E q (prun p os)) = Ok false).
Proof.
  intros so pts p os E q Hso Sp HS EH L W NC. destruct (C106_contains so pts p os E q Hso Sp HS EH L W) as (A & B & _). split; [intro H; apply A; apply (deep_strict so pts p); auto|].
  intro H. rewrite <- (C107_region so pts p Hso Sp HS EH) in H.
  assert (X : exists a b, In (a, b) (cyc_pairs (pverts p)) /\ 0 < orient a b q).
  { clear - H. unfold encloses in H. induction (cyc_pairs (pverts p)) as [|[a b] l IH]; [exfalso; apply H; intros ? ? []|].
    destruct (Rlt_le_dec 0 (orient a b q)) as [K|K]; [exists a, b; split; [left|]; auto|]. destruct IH as (a' & b' & I & K'); [|exists a', b'; split; [right|]; auto].
    intro G. apply H. intros a' b' [EQ|I]; [injection EQ as <- <-; auto|auto]. }
  destruct X as (a & b & Hab & O). assert (B' : fst (contains_point E q (prun p os)) <> Ok true) by (apply B; exists a, b; split; auto; lra).
  destruct (C59_no_centroid_partial R RNum (fun _ => True) R_ordlaws E q p os) as [[|] K]; auto; try contradiction.
  - unfold convex_hull in EH. destruct (quick_hull so pts) as [h|]; [|discriminate]. eapply born_new, EH.
  - rewrite prun_verts, W. lia.
  - apply Forall_forall. intros v _. split; exact I.
Qed.
Print Assumptions C107_contains.

Lemma hull_sound_again (so : list pt -> list pt) (pts : list pt) (p : poly R) : reorders so -> spread pts -> hull_sound pts -> convex_hull so pts = Ok p -> hull_sound (pverts p).
Proof.
  intros Hso Sp HS E. destruct (C106_shape so pts p Hso Sp HS E) as (N & _ & _ & _ & I & _).
  destruct HS as [HS|HS].
    - left. pose proof (NoDup_incl_length N (fun v Hv => I v Hv)). lia.
    - right. destruct (C66_from_input so pts p Hso E) as (_ & (l & Hl & Ll) & (r & Hr & Rr)). intros l' r' q [L1 L2] [R1 R2] Hq. apply HS; auto.
      + split; auto. intros w Hw. pose proof (L2 l Hl). destruct Ll as [_ Ll]. specialize (Ll w Hw). lra.
      + split; auto. intros w Hw. pose proof (R2 r Hr). destruct Rr as [_ Rr]. specialize (Rr w Hw). lra.
Qed.
(** Taking the hull of a hull changes nothing: it is again defined and bounds
    the same region, with vertices among those of the first. *)
Theorem C107_again : forall (so so' : list pt -> list pt) (pts : list pt) (p : poly R), reorders so -> reorders so' -> spread pts -> hull_sound pts -> convex_hull so pts = Ok p ->
  exists p', convex_hull so' (pverts p) = Ok p' /\ (forall v, In v (pverts p') -> In v (pverts p)) /\ (forall q, encloses (pverts p') q <-> encloses (pverts p) q).
Proof.
  intros so so' pts p Hso Hso' Sp HS E. destruct (C106_shape so pts p Hso Sp HS E) as (N & Cw & Sh & _ & I & En & _).
  assert (HS' : hull_sound (pverts p)) by (apply (hull_sound_again so pts); auto).
  destruct (convex_hull so' (pverts p)) as [p'|x] eqn:E'.
  - exists p'. split; auto. destruct (C66_from_input so' _ _ Hso' E') as (F & _). split; auto. intro q. rewrite (C107_region so' _ _ Hso' Sh HS' E' q). split; [|apply enclosed_hull; auto].
    apply hull_encloses. intros v Hv a b Hab. apply Cw; auto.
  - exfalso. pose proof (C66_raises so' (pverts p) Hso') as K. rewrite E' in K. destruct Sh as (a & b & c & Ha & Hb & Hc & O). destruct K as [[K _]|(_ & _ & K)]; [rewrite K in Ha; contradiction|].
    destruct (K a b c Ha Hb Hc) as [ -> | [ -> | -> ]]; apply O; ug; ring.
Qed.
Print Assumptions C107_again.

(** If no three vertices are on a line, the second hull has the same vertices in
    the same order. *)
Theorem C107_again_same : forall (so so' : list pt -> list pt) (pts : list pt) (p : poly R), reorders so -> reorders so' -> spread pts -> hull_sound pts -> convex_hull so pts = Ok p -> no_three (pverts p) ->
  exists p', convex_hull so' (pverts p) = Ok p' /\ pverts p' = pverts p.
Proof.
  intros so so' pts p Hso Hso' Sp HS E NT. destruct (C106_shape so pts p Hso Sp HS E) as (N & Cw & Sh & (l & t & EL & HL) & I & En & _).
  destruct (C107_again so so' pts p Hso Hso' Sp HS E) as (p' & E' & I' & RG). exists p'. split; auto.
  assert (HS' : hull_sound (pverts p)) by (apply (hull_sound_again so pts); auto).
  destruct (C106_shape so' (pverts p) p' Hso' Sh HS' E') as (N' & Cw' & Sh' & _).
  assert (X : forall v, In v (pverts p) <-> In v (pverts p')).
  { intro v. split; auto. intro Hv. apply (C107_corners so' (pverts p) p' v); auto.
    destruct (vertex_extreme (pverts p) v N Cw Sh NT Hv) as (Y1 & Y2). split; [apply enclosed_hull; auto|].
    assert (M : forall q, in_hull (pverts p) q -> encloses (pverts p) q) by (intro q; apply hull_encloses; intros w Hw a b Hab; apply Cw; auto). auto. }
  assert (St : exists t', pverts p' = l :: t').
  { unfold convex_hull in E'. destruct (quick_hull so' (pverts p)) as [h|] eqn:EQ; [|discriminate]. cbn [bind] in E'. apply new_verts_any in E'. rewrite map_vec2_of_R in E'. rewrite E'. rewrite EL in EQ.
    apply (quick_start so' l t); auto. intros w Hw. apply HL. apply I. rewrite EL. right. auto. }
  destruct St as (t' & EL'). rewrite EL, EL' in *. f_equal. symmetry. apply (same_list l); auto.
Qed.
Print Assumptions C107_again_same.

(** ** Example: the five points of C106. *)
Example C107_ex : exists p, convex_hull (fun x => x) (map zv four_one) = Ok p /\ no_three (pverts p) /\ (3 < length (pverts p))%nat /\
  deep (in_hull (map zv four_one)) (zv (2, 2)%Z) /\ ~ in_hull (map zv four_one) (zv (9, 9)%Z) /\ extreme (in_hull (map zv four_one)) (zv (5, 3)%Z).
Proof.
  destruct C106_ex as (R0 & Sp & HS & p & EP & VP & L & _). exists p. split; auto. destruct (C106_shape _ _ p R0 Sp HS EP) as (N & Cw & Sh & _).
  assert (NT : no_three (pverts p)). { rewrite VP. intros a b c Ha Hb Hc N1 N2 N3. cbn in Ha, Hb, Hc. pick Ha; subst a; pick Hb; subst b; try (exfalso; apply N1; reflexivity); pick Hc; subst c; try (exfalso; apply N2; reflexivity); try (exfalso; apply N3; reflexivity); unfold zv; ug; cbn; lra. }
  split; auto. split; auto. pose proof (C107_region _ _ p R0 Sp HS EP) as RG. split; [|split].
  - apply (deep_strict (fun x => x) (map zv four_one) p); auto. rewrite VP. intros a b H _. cbn in H. pick H; injection H as <- <-; unfold zv; ug; cbn; lra.
  - rewrite <- RG, VP. intro K. specialize (K (zv (2, 4)%Z) (zv (5, 3)%Z)). cbn in K. specialize (K (or_intror (or_introl eq_refl))). revert K. unfold zv. ug. cbn. lra.
  - destruct (vertex_extreme (pverts p) (zv (5, 3)%Z) N Cw Sh NT) as (X1 & X2); [rewrite VP; cbn; auto|]. split; [apply RG; auto|]. intros a b Ha Hb. apply X2; apply RG; auto.
Qed.
