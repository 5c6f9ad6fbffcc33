(** * Property C67 (and C95) for points between their leftmost and rightmost ones *)
From Coq Require Import ZArith QArith Qreals List Bool Reals Lra Lia Permutation.
From Verif Require Import Num Vec Affine Box Seq Polygon Hull SpecGeom SpecHull SpecExtreme RBase VecFacts2 NumHom RComp NumFloat OrdLaws FloatFacts FloatFacts2 RelPoly RelHull SpecExact SpecHullGrid FloatExact FloatErr FloatErr2 HullGrid PropExact HullFacts HullFacts2 HullFacts3 HullFacts4 HullFacts5 PropHull PropHullGrid.
Import ListNotations.
Local Open Scope R_scope.

(** No point lies beyond the perpendiculars to the chord from a leftmost to a
    rightmost point through its ends. *)
Definition between_ends (pts : list pt) : Prop := forall l r q, leftmost pts l -> rightmost pts r -> In q pts ->
  0 <= pdot (psub r l) (psub q l) <= pdot (psub r l) (psub r l).

Lemma strip_fit (pts : list pt) (a b : pt) : 0 < pdot (psub b a) (psub b a) ->
  (forall q, In q pts -> 0 <= orient a b q /\ 0 <= pdot (psub b a) (psub q a) <= pdot (psub b a) (psub b a)) ->
  fit pts a b (mkV (- (vy b - vy a)) (vx b - vx a)) (mkV (vy b - vy a) (- (vx b - vx a))).
Proof.
  intros HD H. set (u := mkV (- (vy b - vy a)) (vx b - vx a)). set (w := mkV (vy b - vy a) (- (vx b - vx a))).
  assert (E1 : forall q, pcross u (psub q a) = - pdot (psub b a) (psub q a)) by (intro q; unfold u; ug; ring).
  assert (E2 : forall q, pcross w (psub q b) = pdot (psub b a) (psub q a) - pdot (psub b a) (psub b a)) by (intro q; unfold w; ug; ring).
  assert (E3 : pdot u (psub b a) = 0) by (unfold u; ug; ring). assert (E4 : pdot w (psub b a) = 0) by (unfold w; ug; ring).
  split; rewrite ?E1, ?E2, ?E3, ?E4; try lra.
  - intros q Hq. apply H; auto.
  - intros q Hq. rewrite E1. specialize (H q Hq). lra.
  - intros q Hq. rewrite E2. specialize (H q Hq). lra.
  - replace (pdot (psub b a) (psub a a)) with 0 by (ug; ring). lra.
Qed.
Lemma pdot_x (a b : pt) : vx a < vx b -> 0 < pdot (psub b a) (psub b a).
Proof. destruct a as [a1 a2], b as [b1 b2]. unfold pdot, psub. cbn [vx vy]. intro H. pose proof (Rle_0_sqr (b2 - a2)) as X. unfold Rsqr in X. assert (0 < (b1 - a1) * (b1 - a1)) by (apply Rmult_lt_0_compat; lra). lra. Qed.

Lemma wide_scans (so : list pt -> list pt) pts : reorders so -> (exists a b, In a pts /\ In b pts /\ vx a <> vx b) -> between_ends pts ->
  forall l a b, In (l, a, b) (hull_scans so pts) -> ahead l a b.
Proof.
  intros Hso (a & b & Ha & Hb & Hab) HW. assert (Hne : pts <> []) by (intros ->; destruct Ha).
  destruct (quick_shape so pts Hne) as (l & r & up & lo & Hl & Hr & Hup & Hlo & _ & _ & _ & HQ).
  assert (Hw : vx l < vx r). { destruct Hl as [_ HL], Hr as [_ HR]. pose proof (HL a Ha). pose proof (HL b Hb). pose proof (HR a Ha). pose proof (HR b Hb). lra. }
  pose proof (pdot_x l r Hw) as HD.
  assert (Hp : forall s q, In q (so s) -> In q s) by (intros s q; apply Permutation_in; symmetry; apply Hso).
  destruct pts as [|p t]; [contradiction|]. destruct (HQ p t eq_refl) as (E1 & u & w & E2 & Eu & El). unfold hull_scans. rewrite E1, E2.
  cbv zeta. rewrite <- Eu, <- El. intros s x y H. apply in_app_or in H. destruct H as [H|H].
  - eapply fit_scans; [|exact H]. apply strip_fit; auto. intros q Hq. apply Hp, Hup in Hq. destruct Hq as [Hq Ho]. split; [lra|]. apply HW; auto.
  - eapply fit_scans; [|exact H]. assert (K : pdot (psub l r) (psub l r) = pdot (psub r l) (psub r l)) by (ug; ring). apply strip_fit; [lra|]. intros q Hq. apply Hp, Hlo in Hq. destruct Hq as (Hq & Ho & _).
    split; [replace (orient r l q) with (- orient l r q) by (ug; ring); lra|]. specialize (HW l r q Hl Hr Hq). rewrite K.
    replace (pdot (psub l r) (psub q r)) with (pdot (psub r l) (psub r l) - pdot (psub r l) (psub q l)) by (ug; ring). lra.
Qed.

(** Partial: then the hull encloses all points, however many and in whatever
    iteration order of the sets. *)
Theorem C67_between_partial : forall (so : list pt -> list pt) (pts : list pt) (p : poly R), reorders so ->
  (exists a b, In a pts /\ In b pts /\ vx a <> vx b) -> between_ends pts -> convex_hull so pts = Ok p ->
  forall q, In q pts -> encloses (pverts p) q /\ exists a b, In a (pverts p) /\ In b (pverts p) /\ vx a <= vx q <= vx b.
Proof. intros so pts p Hso Hx HW E. apply (C67_ahead_partial so pts p); auto. apply wide_scans; auto. Qed.
Print Assumptions C67_between_partial.

(** In particular when leftmost and rightmost points are at the same height, or
    when no two points are further apart than they are. *)
Theorem C67_level_or_far_partial : forall (so : list pt -> list pt) (pts : list pt) (p : poly R), reorders so ->
  (exists a b, In a pts /\ In b pts /\ vx a <> vx b) ->
  (forall l r, leftmost pts l -> rightmost pts r ->
     vy l = vy r \/ forall a b, In a pts -> In b pts -> pdot (psub b a) (psub b a) <= pdot (psub r l) (psub r l)) ->
  convex_hull so pts = Ok p -> forall q, In q pts -> encloses (pverts p) q.
Proof.
  intros so pts p Hso Hx H E q Hq. apply (C67_between_partial so pts p); auto. clear q Hq. intros l r q Hl Hr Hq. destruct (H l r Hl Hr) as [Y|F].
  - destruct Hl as [Hl1 Hl2], Hr as [Hr1 Hr2]. specialize (Hl2 q Hq). specialize (Hr2 q Hq). destruct l as [l1 l2], r as [r1 r2], q as [q1 q2]. unfold pdot, psub. cbn [vx vy] in *. subst r2.
    assert (0 <= (r1 - l1) * (q1 - l1)) by (apply Rmult_le_pos; lra). assert (0 <= (r1 - l1) * (r1 - q1)) by (apply Rmult_le_pos; lra). lra.
  - assert (A : pdot (psub q l) (psub q l) <= pdot (psub r l) (psub r l)) by (apply F; auto; apply Hl).
    assert (B : pdot (psub q r) (psub q r) <= pdot (psub r l) (psub r l)) by (apply F; auto; apply Hr).
    assert (A0 : 0 <= pdot (psub q l) (psub q l)) by (unfold pdot; pose proof (Rle_0_sqr (vx (psub q l))); pose proof (Rle_0_sqr (vy (psub q l))); unfold Rsqr in *; lra).
    assert (B0 : 0 <= pdot (psub q r) (psub q r)) by (unfold pdot; pose proof (Rle_0_sqr (vx (psub q r))); pose proof (Rle_0_sqr (vy (psub q r))); unfold Rsqr in *; lra).
    assert (I : pdot (psub q r) (psub q r) = pdot (psub q l) (psub q l) + pdot (psub r l) (psub r l) - 2 * pdot (psub r l) (psub q l)) by (ug; ring). lra.
Qed.
Print Assumptions C67_level_or_far_partial.

(** On doubles of the coarse grid. *)
Theorem C95_encloses_between : forall (L : FloatLib) (e : Z) (so : list (vec PrimFloat.float) -> list (vec PrimFloat.float)) (pts : list (vec PrimFloat.float)) p,
  (-200 <= e <= 200)%Z -> Forall (coarse_pt e) pts -> reorders so -> (exists a b, In a pts /\ In b pts /\ toR (vx a) <> toR (vx b)) -> between_ends (map vecR pts) ->
  let N := FNum L in convex_hull so pts = Ok p -> forall q, In q pts -> encloses (map vecR (pverts p)) (vecR q).
Proof.
  intros L e so pts p He Hp Hso (a & b & Ha & Hb & Hab) HL N EP q Hq. destruct (C95_same_hull L e so pts He Hp Hso) as (so' & Hso' & E).
  change (FNum L) with N in E. rewrite EP in E. destruct (convex_hull so' (map vecR pts)) as [p'|] eqn:EQ; cbn [rmap] in E; [|discriminate]. injection E as EV _ _. rewrite EV.
  apply (C67_between_partial so' (map vecR pts) p' Hso'); auto; [|apply in_map; auto].
  exists (vecR a), (vecR b). split; [apply in_map; auto|]. split; [apply in_map; auto|]. exact Hab.
Qed.
Print Assumptions C95_encloses_between.

(** The ten points of C67_ex, for which a sorted scan is made. *)
Example C67_between_ex : between_ends (map zv hull_a).
Proof.
  assert (A : forall l, leftmost (map zv hull_a) l -> l = zv (0,0)%Z).
  { intros l [Hl HL]. specialize (HL (zv (0,0)%Z) (in_map zv hull_a (0,0)%Z (or_introl eq_refl))). cbn [vx zv fst snd] in HL. apply in_map_iff in Hl. destruct Hl as (z & <- & Hz). cbn [vx zv fst snd] in HL.
    cbn [hull_a In] in Hz. repeat (destruct Hz as [<-|Hz]; [cbn [fst snd] in HL; try (exfalso; lra); reflexivity|]). destruct Hz. }
  assert (B : forall r, rightmost (map zv hull_a) r -> r = zv (100,0)%Z).
  { intros l [Hl HL]. specialize (HL (zv (100,0)%Z) (in_map zv hull_a (100,0)%Z (or_intror (or_introl eq_refl)))). cbn [vx zv fst snd] in HL. apply in_map_iff in Hl. destruct Hl as (z & <- & Hz). cbn [vx zv fst snd] in HL.
    cbn [hull_a In] in Hz. repeat (destruct Hz as [<-|Hz]; [cbn [fst snd] in HL; try (exfalso; lra); reflexivity|]). destruct Hz. }
  intros l r q Hl Hr Hq. rewrite (A l Hl), (B r Hr). apply in_map_iff in Hq. destruct Hq as (z & <- & Hz).
  cbn [hull_a In] in Hz. repeat (destruct Hz as [<-|Hz]; [unfold pdot, psub, zv; cbn [vx vy fst snd]; lra|]). destruct Hz.
Qed.
