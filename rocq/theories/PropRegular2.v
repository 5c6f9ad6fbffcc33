(** * Property C73: exactly which squares are searched correctly *)
From Coq Require Import ZArith List Bool Reals Lra Lia Psatz.
From Verif Require Import Num Vec Affine Box Seq Polygon BoxPoly Tangent PolyOps SpecPoly SpecGeom SpecMass SpecWind SpecConvex SpecExtreme SpecSplit SpecRegular SpecTangent RBase VecFacts2 RComp RegularFacts SettledFacts
  ConvexFacts ConvexFacts3 MonoFacts4 MonoFacts5 PropPoly PropConvex PropPnp PropSplit PropRegular.
Import ListNotations.
Local Open Scope R_scope.

Lemma first4 (key : pt -> R) (a b c d v : pt) : first_least key [a; b; c; d] v ->
  (v = a /\ key a <= key b /\ key a <= key c /\ key a <= key d) \/ (v = b /\ key b < key a /\ key b <= key c /\ key b <= key d) \/
  (v = c /\ key c < key a /\ key c < key b /\ key c <= key d) \/ (v = d /\ key d < key a /\ key d < key b /\ key d < key c).
Proof.
  intros (x & y & E & A & B). destruct x as [|x1 [|x2 [|x3 [|x4 x]]]]; cbn [app] in E; injection E; intros; subst; cbn [In] in A, B.
  - left. repeat split; apply B; auto.
  - right; left. repeat split; [apply A|apply B|apply B]; auto.
  - right; right; left. repeat split; [apply A|apply A|apply B]; auto.
  - right; right; right. repeat split; apply A; auto.
  - destruct x; discriminate.
Qed.
(** The corners of a square: p and q are the first corner as seen from the centre. *)
Definition corners (c : pt) (p q : R) : list pt := [mkV (vx c + p) (vy c + q); mkV (vx c - q) (vy c + p); mkV (vx c - p) (vy c - q); mkV (vx c + q) (vy c - p)].
Lemma corners_misread (c : pt) (p q : R) : p <> 0 \/ q <> 0 -> (misread 1 (corners c p q) <-> leftmost (corners c p q) (mkV (vx c + p) (vy c + q)) /\ lowest (corners c p q) (mkV (vx c + p) (vy c + q))).
Proof.
  intro N. destruct c as [cx cy]. unfold corners. cbn [vx vy].
  assert (I : leftmost (corners (mkV cx cy) p q) (mkV (cx + p) (cy + q)) /\ lowest (corners (mkV cx cy) p q) (mkV (cx + p) (cy + q)) <-> p = q /\ p < 0).
  { unfold corners, leftmost, lowest. cbn [vx vy]. split.
    - intros [[_ A] [_ B]]. pose proof (A _ (or_intror (or_introl eq_refl))) as A1. pose proof (A _ (or_intror (or_intror (or_introl eq_refl)))) as A2. pose proof (A _ (or_intror (or_intror (or_intror (or_introl eq_refl))))) as A3.
      pose proof (B _ (or_intror (or_introl eq_refl))) as B1. pose proof (B _ (or_intror (or_intror (or_introl eq_refl)))) as B2. pose proof (B _ (or_intror (or_intror (or_intror (or_introl eq_refl))))) as B3.
      cbn [vx vy] in *. assert (p = q) by lra. split; auto. destruct (Rtotal_order p 0) as [|[|]]; auto; lra.
    - intros [-> K]. split; (split; [left; auto|]); intros w Hw; cbn in Hw; pick Hw; subst w; cbn; lra. }
  unfold corners in I. cbn [vx vy] in I. rewrite I. clear I. split.
  - intros (le & ri & lo & hi & F1 & F2 & F3 & F4 & H). apply first4 in F1, F2, F3, F4. cbn [vx vy] in *.
    destruct H as [[_ [E1 E2]]|[_ E1]].
    + exfalso. destruct F1 as [F1|[F1|[F1|F1]]], F4 as [F4|[F4|[F4|F4]]]; destruct F1 as (-> & X1 & X2 & X3), F4 as (-> & Y1 & Y2 & Y3); pose proof (f_equal vx E1) as Q1; pose proof (f_equal vy E1) as Q2; cbn [vx vy] in Q1, Q2; clear E1; try lra;
      (destruct F2 as [F2|[F2|[F2|F2]]], F3 as [F3|[F3|[F3|F3]]]; destruct F2 as (-> & Z1 & Z2 & Z3), F3 as (-> & W1 & W2 & W3); pose proof (f_equal vx E2) as Q3; pose proof (f_equal vy E2) as Q4; cbn [vx vy] in Q3, Q4; clear E2; try lra).
    + destruct F1 as [F1|[F1|[F1|F1]]], F3 as [F3|[F3|[F3|F3]]]; destruct F1 as (-> & X1 & X2 & X3), F3 as (-> & Y1 & Y2 & Y3); pose proof (f_equal vx E1) as Q1; pose proof (f_equal vy E1) as Q2; cbn [vx vy] in Q1, Q2; clear E1; try (exfalso; lra).
      all: assert (p = q) by lra; split; auto; destruct (Rtotal_order p 0) as [|[|]]; auto; exfalso; lra.
  - intros [<- K]. exists (mkV (cx + p) (cy + p)), (mkV (cx - p) (cy + p)), (mkV (cx + p) (cy + p)), (mkV (cx - p) (cy - p)). split; [|split; [|split; [|split]]].
    + exists [], [mkV (cx - p) (cy + p); mkV (cx - p) (cy - p); mkV (cx + p) (cy - p)]. split; [reflexivity|]. split; [intros w []|]. intros w Hw; cbn in Hw; pick Hw; subst w; cbn; lra.
    + exists [mkV (cx + p) (cy + p)], [mkV (cx - p) (cy - p); mkV (cx + p) (cy - p)]. split; [reflexivity|]. split; intros w Hw; cbn in Hw; pick Hw; subst w; cbn; lra.
    + exists [], [mkV (cx - p) (cy + p); mkV (cx - p) (cy - p); mkV (cx + p) (cy - p)]. split; [reflexivity|]. split; [intros w []|]. intros w Hw; cbn in Hw; pick Hw; subst w; cbn; lra.
    + exists [mkV (cx + p) (cy + p); mkV (cx - p) (cy + p)], [mkV (cx + p) (cy - p)]. split; [reflexivity|]. split; intros w Hw; cbn in Hw; pick Hw; subst w; cbn; lra.
    + right. split; [|reflexivity]. right. split; [lra|]. exists [], [mkV (cx - p) (cy + p)], [mkV (cx + p) (cy - p)]. reflexivity.
Qed.
Lemma square_corners (r : R) (c : pt) (a : R) : r <> 0 -> exists p q, regular_points 4 r c a = corners c p q /\ (p <> 0 \/ q <> 0).
Proof.
  intro Hr. exists (r * cos (deg a)), (r * sin (deg a)). split.
  - unfold regular_points, corners. cbn [seq map]. rewrite !polar_xy.
    replace (deg (a + INR 0 * (360 / INR 4))) with (deg a) by (unfold deg; cbn [INR]; field).
    replace (deg (a + INR 1 * (360 / INR 4))) with (deg a + PI / 2) by (unfold deg; cbn [INR]; field).
    replace (deg (a + INR 2 * (360 / INR 4))) with (deg a + PI) by (unfold deg; cbn [INR]; field).
    replace (deg (a + INR 3 * (360 / INR 4))) with (deg a + PI + PI / 2) by (unfold deg; cbn [INR]; field).
    repeat rewrite ?cos_plus, ?sin_plus. rewrite cos_PI, sin_PI, cos_PI2, sin_PI2. repeat (apply f_equal2; [vext; ring|]). reflexivity.
  - pose proof (sin2_cos2 (deg a)) as S. unfold Rsqr in S. destruct (Req_dec (cos (deg a)) 0) as [C|C]; [right|left]; intro K; apply Rmult_integral in K as [K|K]; auto. rewrite C, K in S. lra.
Qed.
(** A square answers every query as the winding test does, whatever was read
    before, unless its first corner is leftmost and lowest; then it answers no
    to every query. *)
Theorem C73_square_exact : forall (r : R) (c : pt) (a : R), r <> 0 -> exists p v t, poly_regular 4 r c a = Ok p /\ pverts p = v :: t /\
  ((forall qs E q, fst (contains_point E q (preads p qs)) = winding_test (pverts p) q) <-> ~ (leftmost (pverts p) v /\ lowest (pverts p) v)) /\
  (leftmost (pverts p) v /\ lowest (pverts p) v -> (forall E q, fst (contains_point E q p) = Ok false) /\ winding_test (pverts p) c = Ok true).
Proof.
  intros r c a Hr. destruct (regular_run 4 r c a) as (pl & ER & HP); [lia|]. destruct (square_corners r c a Hr) as (x & y & EC & N). pose proof (corners_misread c x y N) as MR.
  cbn [Nat.ltb Nat.leb] in HP. destruct HP as (pl' & -> & HP).
  exists (regular_state 4 r c a (Some pl')), (mkV (vx c + x) (vy c + y)), (tl (corners c x y)). split; [exact ER|]. cbn [regular_state pverts]. split; [rewrite EC; reflexivity|].
  assert (SC : strictly_convex 1 (regular_points 4 r c a)) by (apply regular_strict; auto; lia).
  assert (Ts : tsign 1) by (left; auto). assert (Sp : spread (regular_points 4 r c a)) by (apply (strict_spread 1); auto). assert (Sd : sided 1 (regular_points 4 r c a)) by (apply strict_sided; auto).
  destruct (split_exact 1 (regular_points 4 r c a) Ts) as (pl & E1 & G & B); [apply SC|auto|auto|]. rewrite HP in E1. injection E1 as <-. rewrite EC in G, B |- *. rewrite MR in G, B.
  assert (A4 : forall E q, fst (contains_point E q (regular_state 4 r c a (Some pl'))) = y_monotone_test pl' q).
  { intros E q. rewrite (contains_pl4 _ _ _ pl') by (try reflexivity; apply regular_length). reflexivity. }
  assert (Wc : winding_test (corners c x y) c = Ok true).
  { rewrite <- EC. apply (winding_exact 1 (regular_points 4 r c a) c Ts Sp Sd). rewrite EC. intros u w He _. cbn in He. pick He; injection He as <- <-; destruct c as [cx cy]; ug; (assert (K : 0 < x * x + y * y) by nra); nra. }
  split; [split|].
  - intros H M. specialize (H [] 0 c). cbn [preads fold_left] in H. rewrite A4, (B M), Wc in H. discriminate.
  - intros M qs E q. destruct (regular_answer 4 r c a pl' qs E q ltac:(lia) Hr HP) as [->| ->]; [rewrite EC; reflexivity|]. auto.
  - intro M. split; auto. intros E q. rewrite A4. auto.
Qed.
Print Assumptions C73_square_exact.
(** A square that answers no to everything, and one that does not. *)
Example C73_square_ex : (exists p v t, poly_regular 4 (sqrt 2) (mkV 0 0) 225 = Ok p /\ pverts p = v :: t /\ leftmost (pverts p) v /\ lowest (pverts p) v) /\
  (exists p v t, poly_regular 4 1 (mkV 0 0) 0 = Ok p /\ pverts p = v :: t /\ ~ leftmost (pverts p) v).
Proof.
  split.
  - destruct (regular_run 4 (sqrt 2) (mkV 0 0) 225) as (pl & ER & _); [lia|]. exists (regular_state 4 (sqrt 2) (mkV 0 0) 225 pl), (zv (-1, -1)%Z), (map zv [(1, -1); (1, 1); (-1, 1)]%Z). split; [exact ER|].
    cbn [regular_state pverts]. rewrite square_points. split; [reflexivity|]. split; (split; [left; auto|]); intros w Hw; cbn in Hw; pick Hw; subst w; cbn; lra.
  - destruct (regular_run 4 1 (mkV 0 0) 0) as (pl & ER & _); [lia|]. destruct (square_corners 1 (mkV 0 0) 0) as (x & y & EC & _); [lra|].
    exists (regular_state 4 1 (mkV 0 0) 0 pl), (mkV (0 + x) (0 + y)), (tl (corners (mkV 0 0) x y)). split; [exact ER|]. cbn [regular_state pverts]. split; [rewrite EC; reflexivity|].
    assert (EX : mkV (0 + x) (0 + y) = polar_at (mkV 0 0) 1 (0 + INR 0 * (360 / INR 4))) by (symmetry; exact (f_equal (hd (mkV 0 0)) EC)).
    rewrite polar_xy in EX. cbn [vx vy] in EX. replace (deg (0 + INR 0 * (360 / INR 4))) with 0 in EX by (unfold deg; cbn [INR]; field). rewrite cos_0, sin_0 in EX. pose proof (f_equal vx EX) as X. cbn [vx] in X.
    rewrite EC. intros [_ H]. specialize (H (mkV (0 - x) (0 - y)) (or_intror (or_intror (or_introl eq_refl)))). cbn in H. lra.
Qed.
