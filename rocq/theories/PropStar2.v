(** * Properties C70, C71, C74, C75 and C96: stars with any radii *)
From Coq Require Import ZArith List Bool Reals Lra Lia Psatz.
From Verif Require Import Num Vec Affine Box Seq Polygon Tangent PolyOps SpecGeom SpecAffine SpecMass SpecWind SpecSimple SpecExtreme SpecRegular RBase OrdLaws VecFacts VecFacts2 BoxFacts BoxFacts2
  PolyCache PolyCache2 PolyCache3 NumHom RComp SpecCycle PolyEq CentroidFacts WindFacts TriFacts ConvexFacts ConvexFacts2 ConvexFacts3 ConvexFacts4 MonoFacts MonoFacts4 RegularFacts StarFacts StarFacts2 StarFacts3 SimpleFacts SettledFacts
  PropConvex PropSimple PropTri PropPnp PropRegular PropStar.
Import ListNotations.
Local Open Scope R_scope.

(** ** The constructor *)
Definition both_pos (r1 r2 : R) : bool := Bool.eqb (Rltb 0 r1) (Rltb 0 r2).
Definition both_nonneg (r1 r2 : R) : bool := Bool.eqb (Rleb 0 r1) (Rleb 0 r2).
Definition far_r (r1 r2 : R) : R := Rmax (Rabs r1) (Rabs r2).
Definition near_r (r1 r2 : R) : R := Rmin (Rabs r1) (Rabs r2).
(** The object returned by [star] for different radii. *)
Definition star_obj (n : nat) (r1 r2 : R) (c : pt) (a : R) : poly R :=
  mkPoly (star_points n r1 r2 c a) (Some false) (if both_pos r1 r2 then Some true else None) None (if Rltb 0 r1 && Rltb 0 r2 then Some false else None) None None
    (if both_pos r1 r2 then Some (Some c) else None) (Some (far_r r1 r2 * far_r r1 r2)) (if both_nonneg r1 r2 then Some (near_r r1 r2 * near_r r1 r2) else None) None.
Lemma star_obj_run n r1 r2 c a : (2 <= n)%nat -> r1 <> r2 -> poly_star n r1 r2 c a = Ok (star_obj n r1 r2 c a).
Proof.
  intros Hn NE. unfold poly_star. destruct (Nat.ltb_spec n 2); [lia|]. rewrite star_step by auto. cbn [bind].
  assert (EV : star_verts n c r1 r2 a (180 / INR n) = star_points n r1 r2 c a) by (rewrite star_verts_R; reflexivity). rewrite EV.
  pose proof (star_length n r1 r2 c a) as HL. rnum. fold (both_pos r1 r2). fold (both_nonneg r1 r2). unfold star_obj. replace (Reqb r1 r2) with false by (destruct (Reqb_spec r1 r2); congruence).
  unfold poly_new, seq_new. rewrite map_vec2_of_R, HL. destruct (Nat.ltb_spec (2 * n) 3); [lia|]. unfold cleared. rewrite HL. destruct (Nat.ltb_spec 3 (2 * n)); [|lia].
  cbn [pconvex bind andb psimple pverts pypl pdupe pdegen pbbox pcentroid pmaxr2 pminr2 ptri get_is_convex]. rewrite pymax_R, pymin_R, vec2_of_R. fold (far_r r1 r2). fold (near_r r1 r2).
  destruct (both_pos r1 r2); destruct (both_nonneg r1 r2); cbn [pconvex bind andb psimple pverts pypl pdupe pdegen pbbox pcentroid pmaxr2 pminr2 ptri get_is_convex]; reflexivity.
Qed.
(** The object returned for equal radii: a regular polygon, except that only a
    positive radius rules out coincident vertices. *)
Definition even_obj (n : nat) (r : R) (c : pt) (a : R) (pl : list (R * R) * list (R * R)) : poly R :=
  mkPoly (star_points n r r c a) (Some true) (Some true) (Some pl) (if Rltb 0 r then Some false else None) None None (Some (Some c)) (Some (r * r)) (Some (inner2 (2 * n) r)) None.
Lemma even_obj_run n r c a : (2 <= n)%nat -> exists pl, split_y_polylines (star_points n r r c a) = Ok pl /\ poly_star n r r c a = Ok (even_obj n r c a pl).
Proof.
  intro Hn. destruct (regular_run (2 * n) r c a) as (pl & ER & HP); [lia|]. destruct (Nat.ltb_spec 3 (2 * n)); [|lia]. destruct HP as (pl' & -> & HP). exists pl'. rewrite star_equal by auto. split; [exact HP|].
  assert (N0 : 0 < INR n) by (apply lt_0_INR; lia). unfold poly_star. destruct (Nat.ltb_spec n 2); [lia|]. rewrite star_step by auto. cbn [bind].
  assert (EV : star_verts n c r r a (180 / INR n) = regular_points (2 * n) r c a) by (rewrite <- star_equal by auto; rewrite star_verts_R; reflexivity). rewrite EV.
  pose proof (regular_length (2 * n) r c a) as HL. rnum. rewrite !Bool.eqb_reflx, andb_diag. replace (Reqb r r) with true by (destruct (Reqb_spec r r); congruence).
  unfold poly_regular in ER. assert (ED : pydiv (nlit 360) (nlit (Z.of_nat (2 * n))) = Ok (360 / INR (2 * n))) by (rnum; rewrite <- INR_IZR_INZ; apply pydiv_R; apply not_0_INR; lia). rewrite ED in ER. cbn [bind] in ER.
  assert (EW : regular_verts (2 * n) c r a (360 / INR (2 * n)) = regular_points (2 * n) r c a) by apply regular_verts_R. rewrite EW in ER.
  unfold poly_new, seq_new in ER. rewrite map_vec2_of_R, HL in ER. unfold poly_new, seq_new. rewrite map_vec2_of_R, HL. destruct (Nat.ltb_spec (2 * n) 3); [lia|]. unfold cleared in ER. unfold cleared. rewrite HL in ER. rewrite HL. destruct (Nat.ltb_spec 3 (2 * n)); [|lia].
  cbn [pconvex bind andb psimple pverts pypl pdupe pdegen pbbox pcentroid pmaxr2 pminr2 ptri get_is_convex] in *. rewrite HP in ER. rewrite HP.
  cbn [pconvex bind andb psimple pverts pypl pdupe pdegen pbbox pcentroid pmaxr2 pminr2 ptri get_is_convex] in *.
  destruct (py_get (regular_points (2 * n) r c a) 0) as [v0|]; cbn [bind] in *; [|discriminate]. destruct (py_get (regular_points (2 * n) r c a) 1) as [v1|]; cbn [bind] in *; [|discriminate].
  unfold regular_state in ER. unfold even_obj. rewrite star_equal by auto. rewrite vec2_of_R in ER. injection ER as EM. match goal with |- context [vlength ?z] => replace (Rmult (vlength z) (vlength z)) with (inner2 (2 * n) r) by (symmetry; exact EM) end. rewrite ?vec2_of_R, pymax_R. cbn [pconvex psimple pverts pypl pdupe pdegen pbbox pcentroid pmaxr2 pminr2 ptri]. unfold Rmax. pose proof (Rsqr_abs r) as A. unfold Rsqr in A. destruct (Rle_dec _ _); rewrite <- A; reflexivity.
Qed.

(** ** C71: convexity, for all radii *)
(** The answer is "equal radii".  The truth: equal radii; or four vertices; or
    radii of the same sign with the inner corners beyond the chords of the outer
    ones; or the double triangle of star(3, r, -r). *)
Theorem C71_all_radii : forall (n : nat) (r1 r2 : R) (c : pt) (a : R), (2 <= n)%nat ->
  exists p, poly_star n r1 r2 c a = Ok p /\ (fst (get_is_convex p) = Ok true <-> r1 = r2) /\ (fst (get_is_convex p) = Ok false <-> r1 <> r2) /\
    (convex_ccw (pverts p) \/ convex_cw (pverts p) <->
     r1 = r2 \/ n = 2%nat \/ (0 < r1 * r2 /\ Rmax (Rabs r1) (Rabs r2) * cos (PI / INR n) <= Rmin (Rabs r1) (Rabs r2)) \/ (n = 3%nat /\ r1 = - r2)).
Proof.
  intros n r1 r2 c a Hn. pose proof (star_convex_iff n r1 r2 c a Hn) as G. destruct (Req_dec r1 r2) as [<-|NE].
  - destruct (even_obj_run n r1 c a Hn) as (pl & _ & E). eexists. split; [exact E|]. cbn [even_obj pverts get_is_convex pconvex fst]. split; [tauto|]. split; [split; [discriminate|tauto]|exact G].
  - eexists. split; [apply star_obj_run; auto|]. cbn [star_obj pverts get_is_convex pconvex fst]. split; [split; [discriminate|tauto]|]. split; [tauto|exact G].
Qed.
Print Assumptions C71_all_radii.
(** A true answer is never wrong; the answer is wrong exactly for the convex
    stars with different radii. *)
Theorem C71_true_is_right : forall (n : nat) (r1 r2 : R) (c : pt) (a : R) (p : poly R), (2 <= n)%nat -> poly_star n r1 r2 c a = Ok p -> fst (get_is_convex p) = Ok true -> convex_ccw (pverts p) \/ convex_cw (pverts p).
Proof. intros n r1 r2 c a p Hn E H. destruct (C71_all_radii n r1 r2 c a Hn) as (p' & E' & A & _ & G). rewrite E in E'. injection E' as <-. apply G. left. apply A. exact H. Qed.
Print Assumptions C71_true_is_right.
Example C71_ex_double : exists p, poly_star 3 2 (-2) (mkV 0 0) 0 = Ok p /\ fst (get_is_convex p) = Ok false /\ (convex_ccw (pverts p) \/ convex_cw (pverts p)).
Proof. destruct (C71_all_radii 3 2 (-2) (mkV 0 0) 0) as (p & E & _ & A & G); [lia|]. exists p. split; auto. split; [apply A; lra|]. apply G. right. right. right. split; [reflexivity|lra]. Qed.

(** ** C75: simplicity, for all radii *)
(** The answer is true exactly if both radii are positive, or neither is, or
    there are two peaks.  The truth is that no two non-adjacent edges share a
    point exactly if the radii have the same sign, or opposite signs and there
    are two peaks. *)
Lemma both_pos_spec r1 r2 : both_pos r1 r2 = true <-> (0 < r1 /\ 0 < r2) \/ (r1 <= 0 /\ r2 <= 0).
Proof. unfold both_pos. destruct (Rltb_spec 0 r1), (Rltb_spec 0 r2); cbn [Bool.eqb]; split; intro; try discriminate; try reflexivity; lra. Qed.
Theorem C75_all_radii : forall (n : nat) (r1 r2 : R) (c : pt) (a : R), (2 <= n)%nat ->
  exists p, poly_star n r1 r2 c a = Ok p /\
    (fst (get_is_simple p) = Ok true <-> (0 < r1 /\ 0 < r2) \/ (r1 <= 0 /\ r2 <= 0) \/ n = 2%nat) /\ (fst (get_is_simple p) = Ok true \/ fst (get_is_simple p) = Ok false) /\
    (~ some_far_edges (pverts p) share <-> 0 < r1 * r2 \/ (n = 2%nat /\ r1 * r2 < 0)).
Proof.
  intros n r1 r2 c a Hn. pose proof (star_apart_iff n r1 r2 c a Hn) as G. destruct (Req_dec r1 r2) as [<-|NE].
  - destruct (even_obj_run n r1 c a Hn) as (pl & _ & E). eexists. split; [exact E|]. cbn [even_obj pverts get_is_simple psimple fst]. split; [split; [|reflexivity]|split; [auto|exact G]]. intros _. destruct (Rlt_le_dec 0 r1); lra.
  - eexists. split; [apply star_obj_run; auto|]. unfold get_is_simple, star_obj. cbn [pverts psimple pconvex]. pose proof (both_pos_spec r1 r2) as B. destruct (both_pos r1 r2); cbn [psimple].
    + cbn [fst]. split; [split; [intros _; tauto|reflexivity]|split; [auto|exact G]].
    + cbn [fst psimple pverts]. pose proof (star_check n r1 r2 c a Hn) as K. destruct (check_is_simple (star_points n r1 r2 c a)) eqn:EC.
      * split; [split; [intros _|reflexivity]|split; [auto|exact G]]. destruct (Nat.eq_dec n 2) as [|N2]; auto. exfalso. assert (true = false); [|discriminate]. apply K. split; [lia|]. split; auto.
        assert (~ (0 < r1 /\ 0 < r2)) by (intro; assert (false = true) by tauto; discriminate). assert (~ (r1 <= 0 /\ r2 <= 0)) by (intro; assert (false = true) by tauto; discriminate). nra.
      * destruct K as [K _]. specialize (K eq_refl). split; [split; [discriminate|]|split; [auto|exact G]]. intros [H|[H|H]]; [assert (false = true) by tauto; discriminate|assert (false = true) by tauto; discriminate|lia].
Qed.
Print Assumptions C75_all_radii.
(** It is wrong exactly when a radius is zero and the other is not positive, or
    a radius is zero and there are two peaks: a star that is declared simple
    although edges share the centre.  A false answer is never wrong. *)
Theorem C75_wrong_exactly : forall (n : nat) (r1 r2 : R) (c : pt) (a : R) (p : poly R), (2 <= n)%nat -> poly_star n r1 r2 c a = Ok p ->
  (fst (get_is_simple p) = Ok true /\ some_far_edges (pverts p) share <-> r1 * r2 = 0 /\ (n = 2%nat \/ (r1 <= 0 /\ r2 <= 0))) /\
  (fst (get_is_simple p) = Ok false -> some_far_edges (pverts p) meet).
Proof.
  intros n r1 r2 c a p Hn E. destruct (C75_all_radii n r1 r2 c a Hn) as (p' & E' & A & _ & G). rewrite E in E'. injection E' as <-.
  assert (V : pverts p = star_points n r1 r2 c a).
  { destruct (Req_dec r1 r2) as [<-|NE]; [destruct (even_obj_run n r1 c a Hn) as (pl & _ & E1)|pose proof (star_obj_run n r1 r2 c a Hn NE) as E1]; rewrite E in E1; injection E1 as ->; reflexivity. }
  split.
  - rewrite A. split.
    + intros [H S]. assert (NG : ~ (0 < r1 * r2 \/ n = 2%nat /\ r1 * r2 < 0)) by (intro K; apply G in K; tauto). assert (O : r1 * r2 <= 0) by (apply Rnot_lt_le; tauto).
      destruct H as [[P1 P2]|[[P1 P2]|H]]; [exfalso; nra|split; [nra|auto]|split; [|auto]]. destruct (Req_dec (r1 * r2) 0); auto. exfalso. apply NG. right. split; auto. lra.
    + intros [Z H]. split; [tauto|]. rewrite V. apply zero_share; auto.
  - intro F. assert (N : ~ ((0 < r1 /\ 0 < r2) \/ (r1 <= 0 /\ r2 <= 0) \/ n = 2%nat)) by (intro K; apply A in K; congruence). rewrite V.
    assert (O : r1 * r2 <= 0 /\ r1 <> r2). { split; [|intros <-; destruct (Rlt_le_dec 0 r1); tauto]. destruct (Rlt_le_dec 0 r1), (Rlt_le_dec 0 r2); try tauto; nra. }
    assert (K : check_is_simple (star_points n r1 r2 c a) = false) by (apply star_check; auto; split; [lia|tauto]). apply check_R in K as (i & j & u & v & u1 & v1 & Fa & E1 & E2 & M & _). exists i, j, u, v, u1, v1. auto.
Qed.
Print Assumptions C75_wrong_exactly.
Example C75_ex_mixed : exists p, poly_star 5 3 (-1) (mkV 0 0) 90 = Ok p /\ fst (get_is_simple p) = Ok false /\ some_far_edges (pverts p) meet.
Proof.
  destruct (C75_all_radii 5 3 (-1) (mkV 0 0) 90) as (p & E & A & T & _); [lia|]. exists p. split; auto. assert (F : fst (get_is_simple p) = Ok false). { destruct T as [T|T]; auto. apply A in T as [T|[T|T]]; [lra|lra|discriminate]. }
  split; auto. destruct (C75_wrong_exactly 5 3 (-1) (mkV 0 0) 90 p) as [_ W]; [lia|auto|auto].
Qed.

(** ** C74: the stored centroid, for radii of the same sign *)
Theorem C74_same_sign : forall (n : nat) (r1 r2 : R) (c : pt) (a : R) (qs : list (pread R)), (2 <= n)%nat -> 0 < r1 * r2 ->
  exists p, poly_star n r1 r2 c a = Ok p /\ fst (get_centroid (preads p qs)) = Ok (Some (mass_centre (pverts p))).
Proof.
  intros n r1 r2 c a qs Hn O. assert (B : both_pos r1 r2 = true) by (apply both_pos_spec; destruct (Rlt_le_dec 0 r1); [left|right]; split; nra). destruct (Req_dec r1 r2) as [<-|NE].
  - destruct (even_obj_run n r1 c a Hn) as (pl & _ & E). eexists. split; [exact E|]. match goal with |- context [preads ?p0 qs] => assert (S : same_core p0 (preads p0 qs)) by (apply same_reads; split; [|split]; discriminate) end. destruct S.
    unfold get_centroid. rewrite sc_centroid. cbn [even_obj pcentroid fst pverts]. rewrite star_mass; auto. lra.
  - eexists. split; [apply star_obj_run; auto|]. unfold star_obj. rewrite B. match goal with |- context [preads ?p0 qs] => assert (S : same_core p0 (preads p0 qs)) by (apply same_reads; split; [|split]; discriminate) end. destruct S.
    unfold get_centroid. rewrite sc_centroid. cbn [pcentroid fst pverts]. rewrite star_mass; auto. lra.
Qed.
Print Assumptions C74_same_sign.
Example C74_ex_negative : exists p, poly_star 5 (-3) (-1) (mkV 7 (-2)) 90 = Ok p /\ fst (get_centroid p) = Ok (Some (mass_centre (pverts p))).
Proof. apply (C74_same_sign 5 (-3) (-1) (mkV 7 (-2)) 90 []); [lia|lra]. Qed.

(** ** C70 and C96: containment, for all radii *)
(** How an object with these vertices, no polylines and this centre answers. *)
Lemma star_reply n r1 r2 c a (p : poly R) E q : (2 <= n)%nat -> pverts p = star_points n r1 r2 c a -> pypl p = None -> pmaxr2 p = Some (far_r r1 r2 * far_r r1 r2) ->
  (n = 2%nat \/ pcentroid p = None \/ pcentroid p = Some (Some c)) -> (pbbox p = None \/ exists b, box_from_points (star_points n r1 r2 c a) = Ok b /\ pbbox p = Some b) ->
  fst (contains_point E q p) =
  if Nat.ltb 4 (2 * n) && match pcentroid p, pminr2 p with Some _, Some m => Rltb (dist q c * dist q c) m | _, _ => false end then Ok true else winding_test (star_points n r1 r2 c a) q.
Proof.
  intros Hn HV HY HM HC HB. pose proof (star_length n r1 r2 c a) as LV. assert (LN : length (pverts p) = (2 * n)%nat) by (rewrite HV; exact LV).
  set (vs := star_points n r1 r2 c a) in *. assert (Ne : vs <> []) by (intro Z; rewrite Z in LV; cbn in LV; lia).
  assert (D : length2 (vsub c q) = dist q c * dist q c) by (rewrite dist_sq; unfold length2, vsub; rnum; cbn [vx vy]; ring).
  assert (BX : fst (match get_bbox p with (Err e, p1) => (Err e, p1) | (Ok b, p1) => if box_contains b q then (winding_test (pverts p1) q, p1) else (Ok false, p1) end) = winding_test vs q).
  { destruct (box_from_points_tight R_ordlaws vs Ne) as (b & Hb & Ht). { apply all_ord. }
    assert (GB : exists p1, get_bbox p = (Ok b, p1) /\ pverts p1 = vs).
    { unfold get_bbox. destruct HB as [E0|(b' & E1 & E2)]; [rewrite E0, HV, Hb; eexists; split; [reflexivity|cbn; auto]|]. rewrite E2. rewrite Hb in E1. injection E1 as <-. eauto. }
    destruct GB as (p1 & -> & V1). rewrite V1. destruct (box_contains b q) eqn:EB; [reflexivity|]. cbn [fst].
    rewrite winding_test_num by auto. rewrite (wnum_outside q vs); auto. destruct Ht as ((_ & T1) & (_ & T2) & (_ & T3) & (_ & T4)).
    assert (X : forall v, In v vs -> vx (bmin b) <= vx v <= vx (bmax b) /\ vy (bmin b) <= vy v <= vy (bmax b)).
    { intros v Hv. specialize (T1 (vx v) (in_map vx _ _ Hv)). specialize (T2 (vy v) (in_map vy _ _ Hv)). specialize (T3 (vx v) (in_map vx _ _ Hv)). specialize (T4 (vy v) (in_map vy _ _ Hv)).
      revert T1 T2 T3 T4. rnum. rewrite !Rleb_true. lra. }
    unfold box_contains in EB. revert EB. rnum.
    destruct (Rleb_spec (vx (bmin b)) (vx q)); [|intros _; left; intros v Hv; specialize (X v Hv); lra].
    destruct (Rltb_spec (vx q) (vx (bmax b))); [|intros _; right; left; intros v Hv; specialize (X v Hv); lra].
    destruct (Rltb_spec (vy (bmin b)) (vy q)); [|intros _; right; right; left; intros v Hv; specialize (X v Hv); lra].
    destruct (Rleb_spec (vy q) (vy (bmax b))); [|intros _; right; right; right; intros v Hv; specialize (X v Hv); lra].
    discriminate. }
  unfold contains_point. rewrite LN. destruct (Nat.eqb_spec (2 * n) 3); [lia|]. unfold radial_shortcut. rewrite LN, HM, HY.
  destruct (Nat.ltb_spec 4 (2 * n)) as [L|L]; cbn [andb].
  - destruct HC as [HC|HC]; [lia|]. destruct (Nat.eqb_spec (2 * n) 4); [lia|]. destruct HC as [HC|HC]; rewrite HC; [exact BX|]. cbn zeta. rewrite D. rnum.
    assert (OUT : fst (match (if Rltb (far_r r1 r2 * far_r r1 r2) (dist q c * dist q c) then Some false else None) with Some b => (Ok b, p) | None => match get_bbox p with (Err e, p1) => (Err e, p1) | (Ok b, p1) => if box_contains b q then (winding_test (pverts p1) q, p1) else (Ok false, p1) end end) = winding_test vs q).
    { destruct (Rltb_spec (far_r r1 r2 * far_r r1 r2) (dist q c * dist q c)) as [O|O]; [|exact BX]. cbn [fst]. rewrite winding_test_num by auto. assert (0 <= far_r r1 r2) by (unfold far_r; apply Rle_trans with (Rabs r1); [apply Rabs_pos|apply Rmax_l]). pose proof (dist_pos q c).
      rewrite (outer_wnum vs c q (far_r r1 r2)); [reflexivity| |nra].
      intros v Hv. unfold vs in Hv. rewrite star_def in Hv. apply in_map_iff in Hv as (k & <- & _). rewrite s_dist. unfold far_r. destruct (rad_cases r1 r2 k) as [->| ->]; [apply Rmax_l|apply Rmax_r]. }
    destruct (pminr2 p) as [m|]; [|exact OUT]. destruct (Rltb (dist q c * dist q c) m); [reflexivity|exact OUT].
  - destruct (Nat.eqb_spec (2 * n) 4); [|lia]. cbn [fst]. rewrite HV. reflexivity.
Qed.
(** Radii of the same sign: the object is settled, so that nothing read before
    changes the answer. *)
Lemma negative_inner n r1 r2 c a q : (2 <= n)%nat -> 0 < r1 * r2 -> near_r r1 r2 <= far_r r1 r2 * cos (PI / INR n) -> dist q c < near_r r1 r2 -> (wnum (star_points n r1 r2 c a) q < 0)%Z.
Proof. intros Hn O HD D. destruct (same_sign n r1 r2 c a O) as (P1 & P2 & a' & ->). apply star_inner; auto. Qed.
Lemma near_pos r1 r2 : 0 < r1 * r2 -> 0 < near_r r1 r2.
Proof. intro O. destruct (same_sign 2 r1 r2 porigin 0 O) as (P1 & P2 & _). unfold near_r. apply Rmin_pos; auto. Qed.
Theorem C70_negative_deep_partial : forall (n : nat) (r1 r2 : R) (c : pt) (a : R) (qs : list (pread R)) (E : R) (q : pt), (2 <= n)%nat -> 0 < r1 * r2 -> r1 <> r2 ->
  n = 2%nat \/ Rmin (Rabs r1) (Rabs r2) <= Rmax (Rabs r1) (Rabs r2) * cos (PI / INR n) ->
  exists p, poly_star n r1 r2 c a = Ok p /\ fst (contains_point E q (preads p qs)) = winding_test (pverts p) q.
Proof.
  intros n r1 r2 c a qs E q Hn O NE HD. eexists. split; [apply star_obj_run; auto|]. assert (B : both_pos r1 r2 = true) by (apply both_pos_spec; destruct (Rlt_le_dec 0 r1); [left|right]; split; nra).
  assert (B2 : both_nonneg r1 r2 = true) by (unfold both_nonneg; destruct (Rleb_spec 0 r1), (Rleb_spec 0 r2); try reflexivity; exfalso; nra).
  assert (S : same_core (star_obj n r1 r2 c a) (preads (star_obj n r1 r2 c a) qs)) by (apply same_reads; unfold star_obj; rewrite B; split; [|split]; discriminate). destruct S.
  rewrite (star_reply n r1 r2 c a) by (try exact sc_box; rewrite ?sc_verts, ?sc_ypl, ?sc_max, ?sc_centroid; unfold star_obj in *; cbn [pverts pypl pmaxr2 pcentroid pbbox] in *; rewrite ?B; auto).
  rewrite sc_centroid, sc_min. unfold star_obj. cbn [pcentroid pminr2 pverts]. rewrite B, B2. destruct (Nat.ltb_spec 4 (2 * n)) as [L|L]; cbn [andb]; [|reflexivity]. destruct HD as [HD|HD]; [lia|].
  destruct (Rltb_spec (dist q c * dist q c) (near_r r1 r2 * near_r r1 r2)) as [I|I]; [|reflexivity].
  pose proof (star_length n r1 r2 c a) as LV. rewrite winding_test_num by (intro Z; rewrite Z in LV; cbn in LV; lia). f_equal. symmetry. apply negb_true_iff, Z.eqb_neq.
  assert (wnum (star_points n r1 r2 c a) q < 0)%Z; [|lia]. apply negative_inner; auto. pose proof (near_pos r1 r2 O). pose proof (dist_pos q c). nra.
Qed.
Print Assumptions C70_negative_deep_partial.
(** Equal radii, three or more peaks: exact; two peaks: never claims a point
    outside. *)
Lemma even_answer n r c a pl qs E q : (2 <= n)%nat -> r <> 0 -> split_y_polylines (star_points n r r c a) = Ok pl ->
  fst (contains_point E q (preads (even_obj n r c a pl) qs)) = fst (contains_point E q (preads (regular_state (2 * n) r c a (Some pl)) qs)).
Proof.
  intros Hn Hr Hpl. assert (S1 : same_core (even_obj n r c a pl) (preads (even_obj n r c a pl) qs)) by (apply same_reads; split; [|split]; discriminate).
  assert (S2 : same_core (regular_state (2 * n) r c a (Some pl)) (preads (regular_state (2 * n) r c a (Some pl)) qs)) by (apply same_reads; split; [|split]; discriminate). destruct S1, S2.
  assert (EV : pverts (even_obj n r c a pl) = pverts (regular_state (2 * n) r c a (Some pl))) by apply star_equal, Hn. assert (L : length (pverts (regular_state (2 * n) r c a (Some pl))) = (2 * n)%nat) by apply regular_length.
  unfold contains_point, radial_shortcut. rewrite sc_verts, sc_verts0, EV, L. destruct (Nat.eqb_spec (2 * n) 3); [lia|]. rewrite sc_centroid, sc_centroid0, sc_max, sc_max0, sc_min, sc_min0, sc_ypl, sc_ypl0. unfold even_obj, regular_state. cbn [pcentroid pmaxr2 pminr2 pypl].
  match goal with |- context [match (if Nat.ltb 4 (2 * n) then ?x else ?y) with _ => _ end] => destruct (if Nat.ltb 4 (2 * n) then x else y) as [[b|]|e] end; reflexivity.
Qed.
Theorem C70_even_partial : forall (n : nat) (r : R) (c : pt) (a : R) (qs : list (pread R)) (E : R) (q : pt), (2 <= n)%nat -> r <> 0 ->
  exists p, poly_star n r r c a = Ok p /\ ((3 <= n)%nat -> fst (contains_point E q (preads p qs)) = winding_test (pverts p) q) /\ (fst (contains_point E q (preads p qs)) = Ok true -> winding_test (pverts p) q = Ok true).
Proof.
  intros n r c a qs E q Hn Hr. destruct (even_obj_run n r c a Hn) as (pl & Hpl & ER). exists (even_obj n r c a pl). split; [exact ER|]. rewrite even_answer by auto. cbn [even_obj pverts].
  destruct (regular_run (2 * n) r c a) as (pl' & E' & HP); [lia|]. destruct (Nat.ltb_spec 3 (2 * n)); [|lia]. destruct HP as (pl2 & -> & HP). rewrite star_equal in Hpl |- * by auto. rewrite Hpl in HP. injection HP as <-. split.
  - intro H3. destruct (C73_exact (2 * n) r c a qs E q) as (p & EP & W); [lia|auto|]. rewrite E' in EP. injection EP as <-. exact W.
  - destruct (C73_never_wrong (2 * n) r c a qs E q) as (p & EP & W); [lia|auto|]. rewrite E' in EP. injection EP as <-. exact W.
Qed.
Print Assumptions C70_even_partial.

(** ** C96 *)
(** Reads other than of the centroid leave an unsettled star as it is, as far
    as containment is concerned. *)
Record steady (n : nat) (r1 r2 : R) (c : pt) (a : R) (p : poly R) : Prop := {
  sd_verts : pverts p = star_points n r1 r2 c a; sd_convex : pconvex p = Some false; sd_ypl : pypl p = None; sd_max : pmaxr2 p = Some (far_r r1 r2 * far_r r1 r2);
  sd_min : pminr2 p = (if both_nonneg r1 r2 then Some (near_r r1 r2 * near_r r1 r2) else None); sd_box : pbbox p = None \/ exists b, box_from_points (star_points n r1 r2 c a) = Ok b /\ pbbox p = Some b;
  sd_centroid : n = 2%nat \/ pcentroid p = None }.
Lemma steady_bbox n r1 r2 c a p : steady n r1 r2 c a p -> steady n r1 r2 c a (snd (get_bbox p)).
Proof. intro H. unfold get_bbox. destruct (pbbox p) eqn:EB; [exact H|]. destruct (box_from_points (pverts p)) eqn:E; [|exact H]. destruct H. cbn [snd]. split; auto. right. rewrite <- sd_verts0. eauto. Qed.
Lemma steady_simple n r1 r2 c a p : steady n r1 r2 c a p -> steady n r1 r2 c a (snd (get_is_simple p)).
Proof.
  intro H. unfold get_is_simple. destruct (psimple p) eqn:ES; [exact H|]. rewrite (sd_convex _ _ _ _ _ _ H), ES. cbn [snd]. destruct H. split; auto.
Qed.
Lemma steady_read n r1 r2 c a q p : (n = 2%nat \/ q <> QCentroid) -> steady n r1 r2 c a p -> steady n r1 r2 c a (read_state q p).
Proof.
  intros NC H. destruct q; cbn [read_state].
  - unfold get_is_convex. rewrite (sd_convex _ _ _ _ _ _ H). exact H.
  - apply steady_simple; auto.
  - destruct NC as [E2|NC]; [|congruence]. unfold get_centroid. destruct (pcentroid p); [exact H|]. pose proof (steady_simple _ _ _ _ _ _ H) as K. destruct (get_is_simple p) as [[[|]|e] p1]; cbn [snd] in *; auto.
    + destruct (centroid_value (pverts p1)); auto. destruct K. cbn [snd]. split; auto.
    + destruct K. split; auto.
  - apply steady_bbox; auto.
  - unfold contains_point. destruct (Nat.eqb _ 3).
    + unfold triangle_test. destruct (ptri p); [exact H|]. destruct (tri_build E (pverts p)) as [[z|]|]; try exact H; destruct H; split; auto.
    + destruct (radial_shortcut p pt) as [[b|]|]; try exact H. destruct (pypl p); [exact H|]. destruct (Nat.eqb _ 4); [exact H|].
      pose proof (steady_bbox _ _ _ _ _ _ H) as H1. destruct (get_bbox p) as [[b|] p1]; cbn [snd] in *; auto. destruct (box_contains b pt); auto.
  - unfold tangents_to_point, get_is_convex. destruct (Nat.ltb _ _); [|exact H]. rewrite (sd_convex _ _ _ _ _ _ H). destruct H; split; auto.
Qed.
Lemma steady_reads n r1 r2 c a qs : forall p, (n = 2%nat \/ ~ In QCentroid qs) -> steady n r1 r2 c a p -> steady n r1 r2 c a (preads p qs).
Proof.
  induction qs as [|q qs IH]; intros p NC H; [exact H|]. apply IH; [destruct NC as [|NC]; auto; right; intro; apply NC; right; auto|]. apply steady_read; auto. destruct NC as [|NC]; auto. right. intros ->. apply NC. left. reflexivity.
Qed.
(** Radii that are zero or of opposite signs: whatever was read before except
    the centroid, containment is what the boundary winds around. *)
Theorem C96_mixed_radii_partial : forall (n : nat) (r1 r2 : R) (c : pt) (a : R) (qs : list (pread R)) (E : R) (q : pt), (2 <= n)%nat -> r1 * r2 <= 0 -> r1 <> r2 -> n = 2%nat \/ ~ In QCentroid qs ->
  exists p, poly_star n r1 r2 c a = Ok p /\ fst (contains_point E q (preads p qs)) = winding_test (pverts p) q.
Proof.
  intros n r1 r2 c a qs E q Hn O NE NC. exists (star_obj n r1 r2 c a). split; [apply star_obj_run; auto|]. cbn [star_obj pverts].
  assert (NN : both_nonneg r1 r2 = true -> near_r r1 r2 = 0).
  { unfold both_nonneg, near_r. destruct (Rleb_spec 0 r1), (Rleb_spec 0 r2); cbn [Bool.eqb]; try discriminate; intros _; [|exfalso; nra]. pose proof (Rabs_pos r1); pose proof (Rabs_pos r2); assert (Rabs r1 = 0 \/ Rabs r2 = 0) as [Z|Z] by (assert (r1 = 0 \/ r2 = 0) as [->| ->] by (apply Rmult_integral; nra); [left|right]; apply Rabs_R0); unfold Rmin; destruct (Rle_dec _ _); lra. }
  assert (DQ : 0 <= dist q c * dist q c) by nra.
  assert (K : forall p' : poly R, pminr2 p' = (if both_nonneg r1 r2 then Some (near_r r1 r2 * near_r r1 r2) else None) -> match pcentroid p', pminr2 p' with Some _, Some m => Rltb (dist q c * dist q c) m | _, _ => false end = false).
  { intros p' ->. destruct (pcentroid p'); auto. destruct (both_nonneg r1 r2); auto. rewrite NN by auto. apply Rltb_false. lra. }
  destruct (both_pos r1 r2) eqn:B.
  - assert (S : same_core (star_obj n r1 r2 c a) (preads (star_obj n r1 r2 c a) qs)) by (apply same_reads; unfold star_obj; rewrite B; split; [|split]; discriminate). destruct S.
    rewrite (star_reply n r1 r2 c a) by (try exact sc_box; rewrite ?sc_verts, ?sc_ypl, ?sc_max, ?sc_centroid; unfold star_obj in *; cbn [pverts pypl pmaxr2 pcentroid pbbox] in *; rewrite ?B; auto).
    rewrite K by (rewrite sc_min; reflexivity). rewrite andb_false_r. reflexivity.
  - assert (S : steady n r1 r2 c a (preads (star_obj n r1 r2 c a) qs)) by (apply steady_reads; auto; unfold star_obj; rewrite B; split; auto). destruct S.
    rewrite (star_reply n r1 r2 c a); auto; [|tauto]. rewrite K by auto. rewrite andb_false_r. reflexivity.
Qed.
Print Assumptions C96_mixed_radii_partial.
(** Once the centroid of a star that crosses itself has been read, every
    containment query raises TypeError. *)
Theorem C96_centroid_breaks : forall (n : nat) (r1 r2 : R) (c : pt) (a : R) (E : R) (q : pt), (3 <= n)%nat -> r1 * r2 <= 0 -> r1 <> r2 -> 0 < r1 \/ 0 < r2 ->
  exists p, poly_star n r1 r2 c a = Ok p /\ fst (get_centroid p) = Ok None /\ fst (contains_point E q (read_state QCentroid p)) = Err TypeError.
Proof.
  intros n r1 r2 c a E q Hn O NE P. exists (star_obj n r1 r2 c a). split; [apply star_obj_run; auto; lia|]. assert (B : both_pos r1 r2 = false) by (destruct (both_pos r1 r2) eqn:B; auto; apply both_pos_spec in B; exfalso; nra).
  assert (CK : check_is_simple (star_points n r1 r2 c a) = false) by (apply star_check; [lia|]; auto). unfold star_obj. rewrite B.
  cbn [read_state]. unfold get_centroid, get_is_simple. cbn [psimple pconvex pcentroid pverts]. rewrite CK. cbn [fst snd set_simple set_centroid]. split; [reflexivity|].
  unfold contains_point, radial_shortcut. cbn [pverts pcentroid set_simple set_centroid]. rewrite star_length. destruct (Nat.eqb_spec (2 * n) 3); [lia|]. destruct (Nat.ltb_spec 4 (2 * n)); [|lia]. reflexivity.
Qed.
Print Assumptions C96_centroid_breaks.
Theorem C96_refuted : exists (n : nat) (r1 r2 : R) (c : pt) (a : R) (q : pt) (p : poly R), poly_star n r1 r2 c a = Ok p /\
  fst (contains_point 0 q p) = winding_test (pverts p) q /\ fst (contains_point 0 q (read_state QCentroid p)) = Err TypeError.
Proof.
  exists 5%nat, 3, (-1), (mkV 0 0), 90, (mkV 0 0). destruct (C96_mixed_radii_partial 5 3 (-1) (mkV 0 0) 90 [] 0 (mkV 0 0)) as (p & E & W); [lia|lra|lra|right; intros []|]. exists p. split; auto. split; auto.
  destruct (C96_centroid_breaks 5 3 (-1) (mkV 0 0) 90 0 (mkV 0 0)) as (p' & E' & _ & T); [lia|lra|lra|lra|]. rewrite E in E'. injection E' as <-. exact T.
Qed.
Print Assumptions C96_refuted.
Example C96_ex : exists p, poly_star 5 3 (-1) (mkV 0 0) 90 = Ok p /\ fst (contains_point 0 (mkV 1 0) (preads p [QSimple; QBbox])) = winding_test (pverts p) (mkV 1 0).
Proof. apply C96_mixed_radii_partial; [lia|lra|lra|]. right. intros [|[|[]]]; discriminate. Qed.
