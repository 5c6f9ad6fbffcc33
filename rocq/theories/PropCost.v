(** * Property C93: documented running times *)
From Coq Require Import ZArith List Bool Reals Lra Lia Psatz.
From Verif Require Import Num Vec Affine Box Seq Polygon Tangent Hull PolyOps SpecGeom SpecAffine SpecMass SpecConvex SpecTangent SpecExtreme SpecRegular RBase VecFacts VecFacts2 Cost CostFacts CostFacts2 CostFacts3 CostFacts4 CostFacts5 CostFacts6
  PolyCache PolyCache2 PolyCache3 PolyCache5 ConvexFacts4 BoxFacts2 RegularFacts RComp PropTangent PropRegular.
Import ListNotations.

(** The counted methods are the methods: same results, same states. *)
Theorem C93_same_results : forall (T : Type) (N : Num T) (sortc : nat -> nat) (so : list (vec T) -> list (vec T)) (p : poly T) (E : T) (q : vec T) (pts : list (vec T)) c s,
  fst (poly_new_c pts c s) = poly_new pts c s /\ fst (get_bbox_c p) = get_bbox p /\
  fst (get_is_convex_c p) = get_is_convex p /\ fst (get_is_simple_c sortc p) = get_is_simple p /\ fst (get_centroid_c sortc p) = get_centroid p /\
  fst (contains_point_c sortc E q p) = contains_point E q p /\ fst (tangents_to_point_c q p) = tangents_to_point q p /\
  fst (convex_hull_c sortc so pts) = convex_hull so pts /\ fst (convex_hull_poly_c sortc so p) = convex_hull_poly so p.
Proof.
  intros. repeat split; [apply poly_new_erase|apply bbox_erase|apply is_convex_erase|apply is_simple_erase|apply centroid_erase|apply contains_erase|apply tangents_erase|apply hull_erase|apply hull_poly_erase].
Qed.
Print Assumptions C93_same_results.

(** Construction, bounding box and is_convex are linear, for every polygon in
    every state; a known answer is free. *)
Theorem C93_linear : forall (T : Type) (N : Num T) (p : poly T) (pts : list (vec T)) c s,
  snd (poly_new_c pts c s) <= 11 * length pts /\
  snd (get_bbox_c p) <= length (pverts p) /\
  snd (get_is_convex_c p) <= 12 * length (pverts p) /\
  (is_convex_known p = true -> snd (get_is_convex_c p) = 0).
Proof.
  intros. split; [apply poly_new_steps|]. split; [apply bbox_steps|]. split; [apply is_convex_steps|]. unfold is_convex_known, get_is_convex_c. destruct (pconvex p); [reflexivity|discriminate].
Qed.
Print Assumptions C93_linear.

(** is_simple: linear when the polygon turns out to be convex, otherwise
    quadratic plus one sort of 2 n elements. *)
Theorem C93_is_simple : forall (T : Type) (N : Num T) (sortc : nat -> nat) (vs : list (vec T)) (os : list (pop T)), let p := prun (poly_from_points vs) os in let n := length (pverts p) in
  (fst (get_is_convex p) = Ok true -> snd (get_is_simple_c sortc p) <= 12 * n) /\
  snd (get_is_simple_c sortc p) <= 19 * n + 8 * (n * n) + sortc (2 * n).
Proof.
  intros T N sortc vs os p n. split; [|apply is_simple_steps]. assert (Hp : coh p) by (apply prun_coh, coh_cleared). intro HC. unfold get_is_simple_c. destruct (psimple p) eqn:ES; [rewrite snd_ret; lia|].
  unfold get_is_convex in HC. destruct (pconvex p) as [[|]|] eqn:EC; [rewrite (co_cs _ Hp EC) in ES; discriminate|discriminate|].
  steps. pose proof (classify_steps p) as HS. fold n in HS. rewrite classify_erase. destruct (classify p) as [p1|] eqn:EP; [|rewrite snd_ret; lia].
  assert (ES1 : psimple p1 = Some true).
  { destruct (pconvex p1) as [b|] eqn:EC1; cbn [fst] in HC; [|discriminate]. injection HC as ->. unfold classify in EP. destruct (classify_core (pverts p)) as [[[c d] k]|]; cbn [bind] in EP; [|discriminate].
    destruct (c && negb d); [destruct (split_y_polylines (pverts p)); cbn [bind] in EP; [|discriminate]|]; injection EP as <-; cbn [pconvex psimple] in *; injection EC1 as ->; reflexivity. }
  rewrite ES1, snd_ret. lia.
Qed.
Print Assumptions C93_is_simple.

(** centroid: linear when it is known whether the polygon is simple. *)
Theorem C93_centroid : forall (T : Type) (N : Num T) (sortc : nat -> nat) (p : poly T),
  (is_simple_known p = true -> snd (get_centroid_c sortc p) <= length (pverts p)) /\
  snd (get_centroid_c sortc p) <= snd (get_is_simple_c sortc p) + length (pverts p).
Proof.
  intros. split; [|apply centroid_steps]. unfold is_simple_known. intro H. destruct (psimple p) as [b|] eqn:E; [|discriminate]. apply (centroid_known_steps sortc p b E).
Qed.
Print Assumptions C93_centroid.

(** contains_point: constant for triangles, linear for every polygon. *)
Theorem C93_contains_linear : forall (T : Type) (N : Num T) (sortc : nat -> nat) (vs : list (vec T)) (os : list (pop T)) (E : T) (q : vec T), let p := prun (poly_from_points vs) os in let n := length (pverts p) in
  (n = 3 -> snd (contains_point_c sortc E q p) <= 3 + sortc 3) /\
  (n <> 3 -> snd (contains_point_c sortc E q p) <= 2 * n + 4).
Proof.
  intros T N sortc vs os E q p n. assert (Y : yok p) by (apply yok_run, yok_cleared). split; intro Hn; [apply contains_triangle_steps; exact Hn|].
  destruct (pypl p) as [pl|] eqn:EP.
  - pose proof (contains_chain_steps sortc E q p pl Y Hn EP) as H. fold n in H. assert (L : Nat.log2 (S n) < S n) by (apply Nat.log2_lt_lin; lia). lia.
  - pose proof (contains_plain_steps sortc E q p Hn EP) as H. fold n in H. lia.
Qed.
Print Assumptions C93_contains_linear.
(** Logarithmic for a polygon declared convex with more than three vertices,
    whatever is read in between. *)
Theorem C93_contains_declared : forall (T : Type) (N : Num T) (sortc : nat -> nat) (vs : list (vec T)) (s : option bool) (p0 : poly T) (qs : list (pread T)) (E : T) (q : vec T),
  poly_new vs (Some true) s = Ok p0 -> 3 < length vs -> snd (contains_point_c sortc E q (preads p0 qs)) <= 2 * S (Nat.log2 (S (length vs))).
Proof.
  intros T N sortc vs s p0 qs E q H HL. unfold poly_new, seq_new in H. set (ws := map vec2_of vs) in H. assert (W : length ws = length vs) by apply map_length.
  destruct (Nat.ltb_spec (length ws) 3); [discriminate|]. unfold cleared in H. destruct (Nat.ltb_spec 3 (length ws)) as [L|]; [|lia]. cbn [pconvex bind andb] in H.
  destruct (split_y_polylines ws) as [pl|] eqn:ES; cbn [bind] in H; [|discriminate].
  assert (K : pverts p0 = ws /\ pconvex p0 = Some true /\ pypl p0 = Some pl) by (destruct s; cbn [psimple] in H; injection H as <-; auto). destruct K as (K1 & K2 & K3).
  destruct (kept_reads qs p0) as (A & B & C & _); [congruence|]. rewrite <- W, <- K1, <- A. apply (contains_chain_steps sortc E q _ pl); [|rewrite A, K1; lia|congruence].
  intros pl' Epl. rewrite A, K1. congruence.
Qed.
Print Assumptions C93_contains_declared.
(** Logarithmic for a strictly convex polygon after its convexity was read. *)
Theorem C93_contains_read : forall (sortc : nat -> nat) (s : R) (vs : list pt) (qs : list (pread R)) (E : R) (q : pt),
  strictly_convex s vs -> 3 < length vs -> snd (contains_point_c sortc E q (preads (snd (get_is_convex (poly_from_points vs))) qs)) <= 2 * S (Nat.log2 (S (length vs))).
Proof.
  intros sortc s vs qs E q SC HL. pose proof (strict_class s vs SC) as EC. destruct (split_ok vs) as [pl Hpl]; [destruct vs; [cbn in HL; lia|discriminate]|].
  change (poly_from_points vs) with (pfresh vs). rewrite (convex_detected vs _ pl HL EC Hpl). cbn [snd]. set (p0 := mkPoly _ _ _ _ _ _ _ _ _ _ _).
  destruct (kept_reads qs p0) as (A & B & C & _); [discriminate|]. change (length vs) with (length (pverts p0)). rewrite <- A. apply (contains_chain_steps sortc E q _ pl); [|rewrite A; cbn; lia|rewrite C; reflexivity].
  intros pl' Epl. rewrite A. rewrite C in Epl. cbn in Epl |- *. congruence.
Qed.
Print Assumptions C93_contains_read.
(** No step at all for a regular polygon when a radius decides. *)
Theorem C93_contains_radial : forall (sortc : nat -> nat) (n : nat) (r : R) (c : pt) (a : R) (qs : list (pread R)) (E : R) (q : pt), 4 < n ->
  (dist q c < Rabs r * cos (PI / INR n) \/ Rabs r < dist q c)%R ->
  exists p, poly_regular n r c a = Ok p /\ snd (contains_point_c sortc E q (preads p qs)) = 0.
Proof.
  intros sortc n r c a qs E q Hn HD. destruct (regular_run n r c a) as (pl & ER & _); [lia|]. exists (regular_state n r c a pl). split; [exact ER|].
  destruct (regular_query n r c a pl qs E q Hn) as (b & Eb & Ebb & _). unfold contains_point_c. cbv zeta. destruct (Nat.eqb_spec (length (pverts (preads (regular_state n r c a pl) qs))) 3) as [L|L].
  - exfalso. destruct (kept_reads qs (regular_state n r c a pl)) as (A & _); [discriminate|]. rewrite A in L. cbn [pverts regular_state] in L. rewrite regular_length in L. lia.
  - rewrite Eb, Ebb. pose proof (Rabs_pos r) as P0. pose proof (Rsqr_abs r) as SA. unfold Rsqr in SA. pose proof (dist_pos q c) as D0. assert (C0 : (0 < cos (PI / INR n))%R) by (apply cos_half; lia).
    destruct (Rltb _ (inner2 n r)) eqn:E1; [reflexivity|]. apply Rltb_false in E1. destruct (Rltb (r * r) _) eqn:E2; [reflexivity|]. apply Rltb_false in E2. exfalso. unfold inner2 in E1. destruct HD as [HD|HD]; [|nra].
    assert (C1 : (cos (PI / INR n) <= 1)%R) by apply COS_bound. nra.
Qed.
Print Assumptions C93_contains_radial.

(** The documented O(log n) for convex polygons is not met in two cases.
    contains_point alone never finds out that a polygon is convex: for every n
    there is a convex polygon with n vertices and a point inside for which,
    after any number of earlier queries, the query still takes n steps.  And
    copy.deepcopy loses the chains of a polygon known to be convex for good. *)
Lemma unread_inv (vs : list pt) (l : list (R * pt)) : 4 < length vs -> let p := preads (poly_from_points vs) (map (fun eq => QContains (fst eq) (snd eq)) l) in
  pverts p = vs /\ pypl p = None /\ pcentroid p = None /\ (pbbox p = None \/ exists b, box_from_points vs = Ok b /\ pbbox p = Some b).
Proof.
  intro HL. cbv zeta. unfold preads. set (INV := fun p : poly R => pverts p = vs /\ pypl p = None /\ pcentroid p = None /\ (pbbox p = None \/ exists b, box_from_points vs = Ok b /\ pbbox p = Some b)).
  assert (G : forall l p, INV p -> INV (fold_left (fun p q => read_state q p) (map (fun eq => QContains (fst eq) (snd eq)) l) p)).
  { clear l. induction l as [|[e q] l IH]; intros p HP; [exact HP|]. cbn [map fold_left fst snd]. apply IH. clear IH. destruct HP as (A & B & C & D). cbn [read_state]. unfold contains_point. cbv zeta. rewrite A. destruct (Nat.eqb_spec (length vs) 3); [lia|].
    unfold radial_shortcut. rewrite C, B. destruct (Nat.ltb 4 _); (destruct (Nat.eqb_spec (length vs) 4); [lia|]); unfold get_bbox; rewrite A;
    (destruct D as [D|(b & D1 & D2)]; [rewrite D; destruct (box_from_points vs) as [b|] eqn:EB; [|cbn [snd]; repeat split; auto]|rewrite D2]; try destruct (box_contains b q); cbn [snd]; repeat split; cbn [pverts pypl pcentroid pbbox]; auto; right; eauto). }
  apply G. unfold INV, poly_from_points, cleared. cbn [pverts pypl pcentroid pbbox]. repeat split; auto.
Qed.
Theorem C93_contains_unread_refuted : forall n, 5 <= n -> exists (vs : list pt) (q : pt), length vs = n /\ strictly_convex 1 vs /\ strictly_inside 1 vs q /\
  forall (sortc : nat -> nat) (E : R) (l : list (R * pt)), n <= snd (contains_point_c sortc E q (preads (poly_from_points vs) (map (fun eq => QContains (fst eq) (snd eq)) l))).
Proof.
  intros n Hn. exists (bowl n), bowl_q. split; [apply bowl_length|]. split; [apply bowl_strict; lia|]. split; [apply bowl_inside; lia|]. intros sortc E l.
  destruct (unread_inv (bowl n) l) as (A & B & C & D); [rewrite bowl_length; lia|]. set (p := preads _ _) in *. clearbody p. destruct (bowl_boxed n) as (b & Eb & Cb); [lia|].
  unfold contains_point_c. cbv zeta. rewrite A, bowl_length. destruct (Nat.eqb_spec n 3); [lia|]. unfold radial_shortcut. rewrite A, bowl_length, C, B. destruct (Nat.ltb 4 n); (destruct (Nat.eqb_spec n 4); [lia|]); steps; rewrite bbox_erase; unfold get_bbox; rewrite A;
  (destruct D as [D|(b' & D1 & D2)]; [rewrite D, Eb|rewrite D2; assert (b' = b) as -> by congruence]); rewrite Cb; steps; cbn [pverts]; rewrite ?A, winding_steps_exact, bowl_length by (intro Z; pose proof (bowl_length n) as L; rewrite Z in L; cbn in L; lia); lia.
Qed.
Print Assumptions C93_contains_unread_refuted.
Theorem C93_contains_deepcopy_refuted : forall n, 5 <= n -> exists (vs : list pt) (q : pt) (p0 : poly R), length vs = n /\ strictly_convex 1 vs /\ strictly_inside 1 vs q /\ poly_new vs (Some true) None = Ok p0 /\
  forall (sortc : nat -> nat) (E : R) (qs : list (pread R)), (forall r, In r qs -> r <> QCentroid) -> n <= snd (contains_point_c sortc E q (preads (poly_deepcopy p0) qs)).
Proof.
  intros n Hn. pose proof (bowl_length n) as BL. destruct (split_ok (bowl n)) as [pl Hpl]; [intro Z; rewrite Z in BL; cbn in BL; lia|].
  exists (bowl n), bowl_q, (mkPoly (bowl n) (Some true) (Some true) (Some pl) None None None None None None None). split; [exact BL|]. split; [apply bowl_strict; lia|]. split; [apply bowl_inside; lia|]. split.
  { unfold poly_new, seq_new. rewrite map_vec2_of_R. rewrite BL. destruct (Nat.ltb_spec n 3); [lia|]. unfold cleared. rewrite BL. destruct (Nat.ltb_spec 3 n); [|lia]. cbn [pconvex bind andb]. rewrite Hpl. reflexivity. }
  intros sortc E qs HQ. set (p0 := poly_deepcopy _). destruct (bowl_boxed n) as (b & Eb & Cb); [lia|].
  assert (INV : pcentroid (preads p0 qs) = None /\ (pbbox (preads p0 qs) = None \/ pbbox (preads p0 qs) = Some b)).
  { assert (G : forall qs p, (forall r, In r qs -> r <> QCentroid) -> pverts p = bowl n -> pconvex p = Some true -> psimple p = Some true -> pcentroid p = None -> (pbbox p = None \/ pbbox p = Some b) -> pcentroid (preads p qs) = None /\ (pbbox (preads p qs) = None \/ pbbox (preads p qs) = Some b)).
    { clear qs HQ p0. induction qs as [|r qs IH]; intros p HQ A B S0 C D; [auto|]. cbn [preads fold_left]. assert (NQ : r <> QCentroid) by (apply HQ; left; auto).
      destruct (kept_read r p) as (K1 & K2 & _); [congruence|]. 
      assert (X : psimple (read_state r p) = Some true /\ pcentroid (read_state r p) = None /\ (pbbox (read_state r p) = None \/ pbbox (read_state r p) = Some b)).
      { clear IH K1 K2. assert (BB : psimple (snd (get_bbox p)) = Some true /\ pcentroid (snd (get_bbox p)) = None /\ (pbbox (snd (get_bbox p)) = None \/ pbbox (snd (get_bbox p)) = Some b)).
        { unfold get_bbox. destruct D as [D|D]; rewrite D; [|auto]. rewrite A, Eb. cbn. auto. }
        destruct r; cbn [read_state]; [| |congruence|exact BB| |].
        - unfold get_is_convex. rewrite B. auto.
        - unfold get_is_simple. rewrite S0. auto.
        - unfold contains_point. cbv zeta. destruct (Nat.eqb _ 3); [unfold triangle_test; destruct (ptri p); auto; destruct (tri_build _ _) as [[|]|]; auto|]. destruct (radial_shortcut p pt) as [[|]|]; auto. destruct (pypl p); auto. destruct (Nat.eqb _ 4); auto.
          destruct (get_bbox p) as [[b1|] p1]; cbn [snd] in *; auto. destruct (box_contains b1 pt); auto.
        - unfold tangents_to_point. destruct (Nat.ltb _ _); auto. unfold get_is_convex. rewrite B. destruct (pdupe p) as [[|]|]; auto. }
      destruct X as (X1 & X2 & X3). apply IH; auto; [intros r' Hr'; apply HQ; right; auto|congruence|congruence]. }
    apply G; auto. }
  destruct INV as (C & D). destruct (kept_reads qs p0) as (A & _ & B & _); [discriminate|]. cbn [p0 poly_deepcopy pverts pypl] in A, B. set (p := preads p0 qs) in *. clearbody p.
  unfold contains_point_c. cbv zeta. rewrite A, BL. destruct (Nat.eqb_spec n 3); [lia|]. unfold radial_shortcut. rewrite A, BL, C, B. destruct (Nat.ltb 4 n); (destruct (Nat.eqb_spec n 4); [lia|]); steps; rewrite bbox_erase; unfold get_bbox; rewrite A;
  (destruct D as [D|D]; rewrite D; [rewrite Eb|]); rewrite Cb; steps; cbn [pverts]; rewrite ?A, winding_steps_exact, BL by (intro Z; rewrite Z in BL; cbn in BL; lia); lia.
Qed.
Print Assumptions C93_contains_deepcopy_refuted.

(** tangents_to_point: linear always (14 n with the classification), and
    logarithmic for strictly convex polygons with more than 20 vertices and
    points off the lines of the edges, once is_convex was read, and for
    regular polygons. *)
Theorem C93_tangents_linear : forall (T : Type) (N : Num T) (p : poly T) (q : vec T),
  snd (tangents_to_point_c q p) <= 14 * length (pverts p) /\ (is_convex_known p = true -> snd (tangents_to_point_c q p) <= 2 * length (pverts p)).
Proof.
  intros. pose proof (tangents_any_steps q p) as H. pose proof (is_convex_steps p) as H1. split; [lia|]. unfold is_convex_known. intro K. unfold get_is_convex_c in H. destruct (pconvex p); [|discriminate]. rewrite snd_ret in H. lia.
Qed.
Print Assumptions C93_tangents_linear.
Theorem C93_tangents_read_partial : forall (s : R) (vs : list pt) (qs : list (pread R)) (q : pt),
  strictly_convex s vs -> 20 < length vs -> beyond_edge s vs q -> off_edge_lines vs q ->
  snd (tangents_to_point_c q (preads (snd (get_is_convex (poly_from_points vs))) qs)) <= 2 * S (Nat.log2 (length vs)).
Proof.
  intros s vs qs q SC HL BE OFF. pose proof (strict_class s vs SC) as EC. destruct (split_ok vs) as [pl Hpl]; [destruct vs; [cbn in HL; lia|discriminate]|].
  change (poly_from_points vs) with (pfresh vs). rewrite (convex_detected vs _ pl ltac:(lia) EC Hpl). cbn [snd]. set (p0 := mkPoly _ _ _ _ _ _ _ _ _ _ _).
  destruct (kept_reads qs p0) as (A & B & _ & D); [discriminate|]. apply (strict_log s vs q); auto. rewrite D. cbn [p0 pdupe]. rewrite Nat.ltb_irrefl. reflexivity.
Qed.
Print Assumptions C93_tangents_read_partial.
Theorem C93_tangents_regular_partial : forall (n : nat) (r : R) (c : pt) (a : R) (qs : list (pread R)) (q : pt), 20 < n -> r <> 0%R -> exists p, poly_regular n r c a = Ok p /\
  (beyond_edge 1 (pverts p) q -> off_edge_lines (pverts p) q -> snd (tangents_to_point_c q (preads p qs)) <= 2 * S (Nat.log2 n)).
Proof.
  intros n r c a qs q Hn Hr. destruct (regular_run n r c a) as (pl & ER & _); [lia|]. exists (regular_state n r c a pl). split; [exact ER|]. cbn [pverts regular_state]. intros BE OFF.
  destruct (kept_reads qs (regular_state n r c a pl)) as (A & B & _ & D); [discriminate|]. pose proof (regular_length n r c a) as RL. replace (S (Nat.log2 n)) with (S (Nat.log2 (length (regular_points n r c a)))) by (rewrite RL; reflexivity). apply (strict_log 1); auto; [apply regular_strict; auto; lia|lia].
Qed.
Print Assumptions C93_tangents_regular_partial.
(** A polygon declared convex gets none of it: every query takes n steps. *)
Theorem C93_tangents_declared_refuted : forall n, 20 < n -> exists (vs : list pt) (p0 : poly R), length vs = n /\ strictly_convex 1 vs /\ poly_new vs (Some true) None = Ok p0 /\
  forall (qs : list (pread R)) (q : pt), snd (tangents_to_point_c q (preads p0 qs)) = n.
Proof.
  intros n Hn. pose proof (bowl_length n) as BL. destruct (split_ok (bowl n)) as [pl Hpl]; [intro Z; rewrite Z in BL; cbn in BL; lia|].
  exists (bowl n), (mkPoly (bowl n) (Some true) (Some true) (Some pl) None None None None None None None). split; [exact BL|]. split; [apply bowl_strict; lia|]. split.
  { unfold poly_new, seq_new. rewrite map_vec2_of_R. rewrite BL. destruct (Nat.ltb_spec n 3); [lia|]. unfold cleared. rewrite BL. destruct (Nat.ltb_spec 3 n); [|lia]. cbn [pconvex bind andb]. rewrite Hpl. reflexivity. }
  intros qs q. set (p0 := mkPoly _ _ _ _ _ _ _ _ _ _ _). destruct (kept_reads qs p0) as (A & B & _ & D); [discriminate|]. cbn [p0 pverts pconvex pdupe] in A, B, D. set (p := preads p0 qs) in *. clearbody p.
  unfold tangents_to_point_c. rewrite A, BL. destruct (Nat.ltb_spec 20 n); [|lia]. unfold get_is_convex_c. rewrite B. steps. rewrite D. steps. rewrite A, pt_tangents_exact, BL; lia.
Qed.
Print Assumptions C93_tangents_declared_refuted.

(** convex_hull: O(n log n) in the worst case, given a sort that is. *)
Theorem C93_hull : forall (T : Type) (N : Num T) (sortc : nat -> nat) (so : list (vec T) -> list (vec T)) (k : nat) (pts : list (vec T)),
  (forall l, length (so l) = length l) -> (forall m, sortc m <= k * m * S (Nat.log2 m)) ->
  snd (convex_hull_c sortc so pts) <= (98 + k) * length pts * S (Nat.log2 (length pts)).
Proof.
  intros T N sortc so k pts SO SC. set (n := length pts). set (L := S (Nat.log2 n)). assert (H : snd (convex_hull_c sortc so pts) <= n * (8 * depth n + k * L + 66)).
  { apply convex_hull_steps; auto. intros q Hq. eapply Nat.le_trans; [apply SC|]. assert (S (Nat.log2 q) <= L) by (apply le_n_S, Nat.log2_le_mono; exact Hq). nia. }
  eapply Nat.le_trans; [exact H|]. unfold depth. fold L. assert (1 <= L) by (unfold L; lia). clearbody L. replace ((98 + k) * n * L) with (n * ((98 + k) * L)) by ring. apply Nat.mul_le_mono_l. nia.
Qed.
Print Assumptions C93_hull.
(** The recursion of the hull is at most 4 (1 + log2 n) + 1 calls deep: more
    fuel changes nothing. *)
Theorem C93_hull_depth : forall (T : Type) (N : Num T) (pts : list (vec T)) (p0 p1 : vec T) (f : nat), 1 <= length pts -> 4 * S (Nat.log2 (length pts)) < f ->
  ahull_partition f pts p0 p1 = ahull_partition (S (length pts)) pts p0 p1 /\ forall g, f <= g -> ahull_partition g pts p0 p1 = ahull_partition f pts p0 p1.
Proof.
  intros T N pts p0 p1 f H Hf. assert (E : forall g, f <= g -> enough g (length pts)) by (intros g Hg; right; exists (depth (length pts)); split; [unfold depth; lia|apply depth_ok; exact H]).
  split; [apply ahull_depth; auto; left; lia|]. intros g Hg. apply ahull_depth; auto.
Qed.
Print Assumptions C93_hull_depth.

(** Cases. *)
Example C93_ex_convex : fst (get_is_convex (prun (poly_from_points (bowl 30)) [])) = Ok true /\ strictly_convex 1 (bowl 30) /\ 20 < length (bowl 30).
Proof.
  split; [|split; [apply bowl_strict; lia|rewrite bowl_length; lia]]. cbn [prun fold_left]. pose proof (strict_class 1 (bowl 30) ltac:(apply bowl_strict; lia)) as EC.
  destruct (split_ok (bowl 30)) as [pl Hpl]; [intro Z; pose proof (bowl_length 30) as L; rewrite Z in L; cbn in L; lia|]. change (poly_from_points (bowl 30)) with (pfresh (bowl 30)). assert (L3 : 3 < length (bowl 30)) by (rewrite bowl_length; lia). rewrite (convex_detected _ _ pl L3 EC Hpl). reflexivity.
Qed.
Example C93_ex_tangent : beyond_edge 1 (bowl 30) (mkV 1 (-1/2))%R /\ off_edge_lines (bowl 30) (mkV 1 (-1/2))%R.
Proof.
  assert (O1 : forall i, orient (bowl_at i) (bowl_at (S i)) (mkV 1 (-1/2))%R = (INR i * INR i - INR i - 3/2)%R) by (intro; unfold bowl_at; ug; rewrite S_INR; field). split.
  - exists (bowl_at 0), (bowl_at 1). split; [|rewrite O1; cbn; lra]. unfold bowl. left. reflexivity.
  - intros a b H. apply bowl_edge in H as [(i & Hi & -> & ->)|(-> & ->)].
    + rewrite O1. intro Z. destruct i as [|[|i]]; [cbn in Z; lra|cbn in Z; lra|]. rewrite !S_INR in Z. pose proof (pos_INR i). nra.
    + set (m := (30 - 1)). replace (orient (bowl_at m) (bowl_at 0) (mkV 1%R (-1/2)%R)) with (INR m * (INR m + 1/2))%R by (unfold bowl_at; ug; cbn [INR]; field). assert (0 < INR m)%R by (apply lt_0_INR; unfold m; lia). nra.
Qed.
Example C93_ex_hull : (forall l : list pt, length ((fun x => x) l) = length l) /\ (forall m, (fun m => m * S (Nat.log2 m)) m <= 1 * m * S (Nat.log2 m)).
Proof. split; intros; [reflexivity|]. nia. Qed.
