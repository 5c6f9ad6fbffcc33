(** * Properties C69 and C73: regular polygons *)
From Coq Require Import ZArith QArith List Bool Reals Lra Lia Psatz Permutation.
From Verif Require Import Num Vec Affine Box Seq Polygon Tangent PolyOps SpecGeom SpecMass SpecWind SpecTri SpecConvex SpecExtreme SpecTangent SpecRegular RBase VecFacts VecFacts2 BoxFacts2
  PolyCache PolyCache2 NumHom RComp SpecCycle PolyEq CentroidFacts WindFacts TriFacts ConvexFacts ConvexFacts2 ConvexFacts3 ConvexFacts4 MonoFacts MonoFacts4 RegularFacts SettledFacts PropConvex PropTri PropPnp.
Import ListNotations.
Local Open Scope R_scope.

Lemma regular_verts_R c r step : forall k a, regular_verts k c r a step = map (fun j => polar_at c r (a + INR j * step)) (seq 0 k).
Proof.
  induction k as [|k IH]; intro a; [reflexivity|]. cbn [regular_verts seq map]. rewrite cos_sin_deg_R. rnum. f_equal.
  - rewrite polar_xy. replace (a + INR 0 * step) with a by (cbn; ring). unfold deg. vext; ring.
  - rewrite IH, <- seq_shift, map_map. apply map_ext. intro j. f_equal. rewrite S_INR. ring.
Qed.
Lemma regular_nth_error n r c a k : (k < n)%nat -> nth_error (regular_points n r c a) k = Some (polar_at c r (a + INR k * (360 / INR n))).
Proof. intro H. unfold regular_points. rewrite nth_error_map, (nth_error_nth' _ 0%nat) by (rewrite seq_length; exact H). rewrite seq_nth by exact H. reflexivity. Qed.
Lemma regular_nth n r c a k : (k < n)%nat -> match nth_error (regular_points n r c a) k with Some v => v | None => c end = polar_at c r (a + INR k * (360 / INR n)).
Proof. intro H. rewrite regular_nth_error by exact H. reflexivity. Qed.
Definition inner2 (n : nat) (r : R) : R := (Rabs r * cos (PI / INR n)) * (Rabs r * cos (PI / INR n)).
(** The object returned by [regular]. *)
Definition regular_state (n : nat) (r : R) (c : pt) (a : R) (pl : option (list (R * R) * list (R * R))) : poly R :=
  mkPoly (regular_points n r c a) (Some true) (Some true) pl (Some false) None None (Some (Some c)) (Some (r * r)) (Some (inner2 n r)) None.
Lemma regular_run n r c a : (3 <= n)%nat -> exists pl, poly_regular n r c a = Ok (regular_state n r c a pl) /\
  (if Nat.ltb 3 n then exists q, pl = Some q /\ split_y_polylines (regular_points n r c a) = Ok q else pl = None).
Proof.
  intro Hn. assert (N0 : 0 < INR n) by (apply lt_0_INR; lia). pose proof (regular_length n r c a) as HL. set (vs := regular_points n r c a) in *.
  assert (EV : regular_verts n c r a (360 / INR n) = vs) by apply regular_verts_R.
  assert (ED : pydiv (nlit 360) (nlit (Z.of_nat n)) = Ok (360 / INR n)).
  { rnum. rewrite <- INR_IZR_INZ. apply pydiv_R. lra. }
  assert (EM : forall v0 v1, py_get vs 0 = Ok v0 -> py_get vs 1 = Ok v1 -> let m := vlength (vsub (vscale (vadd v0 v1) nhalf) c) in m * m = inner2 n r).
  { intros v0 v1 E0 E1. cbn zeta. assert (v0 = polar_at c r (a + INR 0 * (360 / INR n)) /\ v1 = polar_at c r (a + INR 1 * (360 / INR n))) as (-> & ->).
    { rewrite <- (regular_nth n r c a 0), <- (regular_nth n r c a 1) by lia. fold vs. change 0%Z with (Z.of_nat 0) in E0. change 1%Z with (Z.of_nat 1) in E1. rewrite py_get_nat in E0, E1.
      destruct (nth_error vs 0) as [z0|]; [|discriminate]. destruct (nth_error vs 1) as [z1|]; [|discriminate]. split; congruence. }
    rewrite vlength_sq. rewrite !polar_xy, !(w_deg n a Hn). unfold vsub, vscale, vadd. rnum. cbn [vx vy]. unfold inner2. fold (half n).
    set (h := half n). cbn [INR]. replace (deg a + 0 * (2 * h)) with ((deg a + h) - h) by ring. replace (deg a + 1 * (2 * h)) with ((deg a + h) + h) by ring. set (m := deg a + h). clearbody m h.
    rewrite !cos_plus, !sin_plus, !cos_minus, !sin_minus. pose proof (sin2_cos2 m) as S. unfold Rsqr in S. pose proof (Rsqr_abs r) as A. unfold Rsqr in A.
    transitivity (r * r * (cos h * cos h) * (sin m * sin m + cos m * cos m)); [field|]. rewrite S, A. ring. }
  assert (G : exists v0 v1, py_get vs 0 = Ok v0 /\ py_get vs 1 = Ok v1).
  { change 0%Z with (Z.of_nat 0). change 1%Z with (Z.of_nat 1). rewrite !py_get_nat. unfold vs. rewrite !(regular_nth_error n r c a) by lia. eauto. }
  destruct G as (v0 & v1 & G0 & G1). specialize (EM v0 v1 G0 G1). cbn zeta in EM. destruct (split_ok vs) as [pl Hpl]; [destruct vs; [cbn in HL; lia|discriminate]|].
  exists (if Nat.ltb 3 n then Some pl else None). split.
  - unfold poly_regular. rewrite ED. cbn [bind]. rewrite EV. unfold poly_new, seq_new. rewrite map_vec2_of_R, HL. destruct (Nat.ltb_spec n 3); [lia|]. unfold cleared. rewrite HL.
    unfold regular_state. fold vs. destruct (Nat.ltb_spec 3 n) as [L|L]; cbn [pconvex bind andb psimple pverts pypl pdupe pdegen pbbox pcentroid pmaxr2 pminr2 ptri].
    + rewrite Hpl. cbn [bind psimple pverts pypl pdupe pdegen pbbox pcentroid pmaxr2 pminr2 ptri pconvex]. rewrite G0, G1. cbn [bind]. rewrite vec2_of_R. rnum. rewrite EM. reflexivity.
    + rewrite G0, G1. cbn [bind]. rewrite vec2_of_R. rnum. rewrite EM. reflexivity.
  - destruct (Nat.ltb_spec 3 n) as [L|L]; [exists pl; auto|reflexivity].
Qed.

(** n evenly spaced vertices at distance r from c; fewer than three raise. *)
Theorem C69_vertices : forall (n : nat) (r : R) (c : pt) (a : R), (3 <= n)%nat ->
  exists p, poly_regular n r c a = Ok p /\ length (pverts p) = n /\
    forall k, (k < n)%nat -> exists v, nth_error (pverts p) k = Some v /\ v = polar_at c r (a + INR k * (360 / INR n)) /\ dist v c = Rabs r.
Proof.
  intros n r c a Hn. destruct (regular_run n r c a Hn) as (pl & E & _). exists (regular_state n r c a pl). split; [exact E|]. cbn [regular_state pverts]. split; [apply regular_length|].
  intros k Hk. exists (polar_at c r (a + INR k * (360 / INR n))). split; [|split; [reflexivity|]].
  - unfold regular_points. rewrite nth_error_map, (nth_error_nth' _ 0%nat) by (rewrite seq_length; exact Hk). rewrite seq_nth by exact Hk. reflexivity.
  - apply Rsqr_inj; [apply dist_pos|apply Rabs_pos|]. rewrite <- Rsqr_abs. unfold Rsqr. rewrite dist_sq, polar_xy. cbn [vx vy]. set (t := deg _). pose proof (sin2_cos2 t) as S. unfold Rsqr in S.
    transitivity (r * r * (sin t * sin t + cos t * cos t)); [ring|]. rewrite S. ring.
Qed.
Print Assumptions C69_vertices.
Theorem C69_too_few : forall (r : R) (c : pt) (a : R), poly_regular 0 r c a = Err ZeroDivisionError /\ poly_regular 1 r c a = Err ValueError /\ poly_regular 2 r c a = Err ValueError.
Proof.
  intros r c a. split; [|split].
  - unfold poly_regular, pydiv. rnum. cbn [Z.of_nat]. replace (Reqb 0 0) with true by (symmetry; apply Reqb_true; reflexivity). reflexivity.
  - unfold poly_regular. rnum. rewrite pydiv_R by (cbn; lra). cbn [bind]. rewrite regular_verts_R. unfold poly_new, seq_new. rewrite map_vec2_of_R. reflexivity.
  - unfold poly_regular. rnum. rewrite pydiv_R by (cbn; lra). cbn [bind]. rewrite regular_verts_R. unfold poly_new, seq_new. rewrite map_vec2_of_R. reflexivity.
Qed.
Print Assumptions C69_too_few.
(** They form a strictly convex polygon, counter-clockwise. *)
Theorem C69_convex : forall (n : nat) (r : R) (c : pt) (a : R), (3 <= n)%nat -> r <> 0 ->
  exists p, poly_regular n r c a = Ok p /\ strictly_convex 1 (pverts p) /\ fst (get_is_convex p) = Ok true /\ fst (get_is_simple p) = Ok true /\ fst (get_centroid p) = Ok (Some c).
Proof.
  intros n r c a Hn Hr. destruct (regular_run n r c a Hn) as (pl & E & _). exists (regular_state n r c a pl). split; [exact E|]. split; [apply regular_strict; auto|]. repeat split.
Qed.
Print Assumptions C69_convex.

(** The radius shortcuts, whatever was read before (n > 4, where they apply):
    a point nearer to the centre than the inscribed circle is reported inside
    and is strictly inside every edge; a point beyond the circumscribed circle
    is reported outside and is strictly outside some edge. *)
Lemma regular_query n r c a pl qs E q : (4 < n)%nat -> exists b, radial_shortcut (preads (regular_state n r c a pl) qs) q = Ok b /\
  b = (if Rltb (dist q c * dist q c) (inner2 n r) then Some true else if Rltb (r * r) (dist q c * dist q c) then Some false else None) /\
  fst (contains_point E q (preads (regular_state n r c a pl) qs)) = match b with Some x => Ok x | None => fst (contains_point E q (preads (regular_state n r c a pl) qs)) end.
Proof.
  intro Hn. set (p0 := regular_state n r c a pl). assert (S : same_core p0 (preads p0 qs)) by (apply same_reads; split; [|split]; discriminate). destruct S. set (p := preads p0 qs) in *.
  cbn [p0 regular_state pverts pcentroid pminr2 pmaxr2] in *. assert (LN : length (pverts p) = n) by (rewrite sc_verts; apply regular_length).
  assert (D : length2 (vsub c q) = dist q c * dist q c) by (rewrite dist_sq; unfold length2, vsub; rnum; cbn [vx vy]; ring).
  eexists. split; [|split; [reflexivity|]].
  - unfold radial_shortcut. rewrite LN, sc_centroid, sc_max, sc_min. destruct (Nat.ltb_spec 4 n); [|lia]. cbn zeta. rewrite D. reflexivity.
  - unfold contains_point at 1. rewrite LN. destruct (Nat.eqb_spec n 3); [lia|]. unfold radial_shortcut. rewrite LN, sc_centroid, sc_max, sc_min. destruct (Nat.ltb_spec 4 n); [|lia]. cbn zeta. rewrite D. rnum.
    destruct (Rltb _ (inner2 n r)) eqn:E1; [reflexivity|]. destruct (Rltb (r * r) _) eqn:E2; [reflexivity|].
    unfold contains_point. rewrite LN. destruct (Nat.eqb_spec n 3); [lia|]. unfold radial_shortcut. rewrite LN, sc_centroid, sc_max, sc_min. destruct (Nat.ltb_spec 4 n); [|lia]. cbn zeta. rewrite D. rnum. rewrite E1, E2. reflexivity.
Qed.
Theorem C69_inner : forall (n : nat) (r : R) (c : pt) (a : R) (qs : list (pread R)) (E : R) (q : pt), (4 < n)%nat ->
  dist q c < Rabs r * cos (PI / INR n) ->
  exists p, poly_regular n r c a = Ok p /\ fst (contains_point E q (preads p qs)) = Ok true /\ strictly_inside 1 (pverts p) q.
Proof.
  intros n r c a qs E q Hn Hd. destruct (regular_run n r c a) as (pl & ER & _); [lia|]. exists (regular_state n r c a pl). split; [exact ER|]. split; [|apply inner_inside; auto; lia].
  destruct (regular_query n r c a pl qs E q Hn) as (b & _ & Eb & ->). subst b. replace (Rltb _ (inner2 n r)) with true; [reflexivity|]. symmetry. apply Rltb_true.
  unfold inner2. pose proof (dist_pos q c). nra.
Qed.
Print Assumptions C69_inner.
Theorem C69_outer : forall (n : nat) (r : R) (c : pt) (a : R) (qs : list (pread R)) (E : R) (q : pt), (4 < n)%nat -> r <> 0 ->
  Rabs r < dist q c ->
  exists p, poly_regular n r c a = Ok p /\ fst (contains_point E q (preads p qs)) = Ok false /\ exists x y, In (x, y) (cyc_pairs (pverts p)) /\ orient x y q < 0.
Proof.
  intros n r c a qs E q Hn Hr Hd. destruct (regular_run n r c a) as (pl & ER & _); [lia|]. exists (regular_state n r c a pl). split; [exact ER|]. split; [|apply outer_outside; auto; lia].
  destruct (regular_query n r c a pl qs E q Hn) as (b & _ & Eb & ->). subst b. pose proof (Rabs_pos r). pose proof (Rsqr_abs r) as A. unfold Rsqr in A.
  assert (C : 0 < cos (PI / INR n)) by (apply cos_half; lia). assert (C1 : cos (PI / INR n) <= 1) by apply COS_bound. unfold inner2.
  assert (X : Rabs r * cos (PI / INR n) <= Rabs r) by nra. assert (X0 : 0 <= Rabs r * cos (PI / INR n)) by nra.
  replace (Rltb _ (_ * _)) with false; [|symmetry; apply Rltb_false; nra]. replace (Rltb (r * r) _) with true; [reflexivity|]. symmetry. apply Rltb_true. rewrite A. nra.
Qed.
Print Assumptions C69_outer.

(** ** C73: containment in regular polygons is exact *)
Lemma strict_sided s vs : strictly_convex s vs -> sided s vs.
Proof.
  intros (Ts & _ & _ & H) a b v He Hv.
  assert (A : forall u w : pt, orient u w u = 0 /\ orient u w w = 0) by (intros; split; ug; ring).
  destruct (veq_dec_R v a) as [->|N1]; [rewrite (proj1 (A a b)); lra|]. destruct (veq_dec_R v b) as [->|N2]; [rewrite (proj2 (A a b)); lra|]. left. auto.
Qed.
Lemma nodup_once (l : list pt) : NoDup l -> visits_once l.
Proof.
  intro H. exists (map (fun v => (v, 0%nat)) l). split.
  - rewrite map_map. cbn [fst]. rewrite map_id. exact H.
  - exists [], l. split; [reflexivity|]. rewrite app_nil_r. clear H. induction l as [|v l IH]; [reflexivity|]. cbn [map flat_map fst snd repeat app]. f_equal. exact IH.
Qed.
Lemma strict_spread s vs : strictly_convex s vs -> spread vs.
Proof.
  intros (Ts & HL & HN & H). destruct vs as [|a [|b [|c l]]]; cbn in HL; try lia. exists a, b, c. split; [left; auto|]. split; [right; left; auto|]. split; [right; right; left; auto|].
  assert (He : In (a, b) (cyc_pairs (a :: b :: c :: l))) by (left; reflexivity).
  inversion HN as [|? ? N1 HN']; subst. inversion HN' as [|? ? N2 _]; subst. specialize (H a b c He). intro Z. rewrite Z, Rmult_0_r in H.
  assert (0 < 0); [|lra]. apply H; [right; right; left; auto|intros ->; apply N1; right; left; auto|intros ->; apply N2; left; auto].
Qed.

Section CornerFree.
  Variables (n : nat) (r : R) (c : pt) (a : R).
  Hypothesis Hn : (5 <= n)%nat.
  Hypothesis Hr : r <> 0.
  Let u (x : R) : pt := polar_at c r (a + x * (360 / INR n)).
  Lemma u_in k : (k < n)%nat -> In (u (INR k)) (regular_points n r c a).
  Proof. intro H. unfold regular_points. apply in_map_iff. exists k. split; [reflexivity|]. apply in_seq. lia. Qed.
  Lemma u_period x : u (x + INR n) = u x.
  Proof.
    assert (0 < INR n) by (apply lt_0_INR; lia). unfold u. rewrite !polar_xy. replace (deg (a + (x + INR n) * (360 / INR n))) with (deg (a + x * (360 / INR n)) + 2 * PI) by (unfold deg; field; lra).
    rewrite cos_plus, sin_plus, cos_2PI, sin_2PI. vext; ring.
  Qed.
  Lemma u_next k : (k < n)%nat -> In (u (INR k + 1)) (regular_points n r c a).
  Proof.
    intro H. destruct (Nat.eq_dec (S k) n) as [E|E].
    - replace (INR k + 1) with (INR 0 + INR n); [rewrite u_period; apply u_in; lia|]. rewrite <- E, S_INR. cbn. ring.
    - rewrite <- S_INR. apply u_in. lia.
  Qed.
  Lemma u_prev k : (k < n)%nat -> In (u (INR k - 1)) (regular_points n r c a).
  Proof.
    intro H. destruct k as [|k].
    - rewrite <- u_period. replace (INR 0 - 1 + INR n) with (INR (n - 1)); [apply u_in; lia|]. rewrite minus_INR by lia. cbn. ring.
    - rewrite S_INR. replace (INR k + 1 - 1) with (INR k) by ring. apply u_in. lia.
  Qed.
  (** Neighbouring edges turn by less than a right angle. *)
  Lemma u_obtuse x : pdot (psub (u (x + 1)) (u x)) (psub (u (x - 1)) (u x)) < 0.
  Proof.
    assert (N0 : 0 < INR n) by (apply lt_0_INR; lia). set (g := 2 * PI / INR n). set (t := deg (a + x * (360 / INR n))).
    assert (E1 : deg (a + (x + 1) * (360 / INR n)) = t + g) by (unfold t, g, deg; field; lra).
    assert (E2 : deg (a + (x - 1) * (360 / INR n)) = t - g) by (unfold t, g, deg; field; lra).
    assert (E : pdot (psub (u (x + 1)) (u x)) (psub (u (x - 1)) (u x)) = 2 * (r * r) * (cos g * (cos g - 1))).
    { unfold u. rewrite !polar_xy, E1, E2. fold t. clearbody t g. ug. rewrite cos_plus, cos_minus, sin_plus, sin_minus. pose proof (sin2_cos2 t) as S1. pose proof (sin2_cos2 g) as S2. unfold Rsqr in *.
      transitivity (r * r * ((cos t * cos t + sin t * sin t) * (cos g * cos g - sin g * sin g - 2 * cos g + 1))); [ring|]. replace (cos t * cos t + sin t * sin t) with 1 by lra. replace (sin g * sin g) with (1 - cos g * cos g) by lra. ring. }
    rewrite E. assert (G : 0 < g < PI / 2).
    { assert (5 <= INR n) by (replace 5 with (INR 5) by (cbn; ring); apply le_INR; exact Hn). pose proof PI_RGT_0. split; [unfold g; apply Rdiv_lt_0_compat; lra|]. unfold g. apply (Rmult_lt_reg_r (INR n)); [lra|].
      replace (2 * PI / INR n * INR n) with (2 * PI) by (field; lra). nra. }
    assert (0 < cos g) by (apply cos_gt_0; lra). assert (cos g < 1). { rewrite <- cos_0. apply cos_decreasing_1; pose proof PI_RGT_0; lra. }
    assert (0 < r * r) by nra. assert (0 < (r * r) * (cos g * (1 - cos g))) by (apply Rmult_lt_0_compat; [auto|]; apply Rmult_lt_0_compat; lra). lra.
  Qed.
  Lemma regular_corner_free : corner_free (regular_points n r c a).
  Proof.
    intros v Hv. assert (I : In v (regular_points n r c a)) by (destruct Hv as [[I _]|[I _]]; exact I). unfold regular_points in I. apply in_map_iff in I as (k & <- & K). apply in_seq in K.
    fold (u (INR k)) in *. pose proof (u_next k ltac:(lia)) as I1. pose proof (u_prev k ltac:(lia)) as I2. pose proof (u_obtuse (INR k)) as O.
    set (v := u (INR k)) in *. set (p := u (INR k + 1)) in *. set (q := u (INR k - 1)) in *. clearbody v p q. unfold pdot, psub in O. cbn [vx vy] in O.
    assert (X : 0 <= (vx p - vx v) * (vx q - vx v)) by (destruct Hv as [[_ M]|[_ M]]; pose proof (M p I1); pose proof (M q I2); nra).
    split; intros [_ M]; pose proof (M p I1); pose proof (M q I2); assert (0 <= (vy p - vy v) * (vy q - vy v)) by nra; lra.
  Qed.
End CornerFree.

Lemma outer_wnum (l : list pt) (c q : pt) (D : R) : (forall v, In v l -> dist v c <= D) -> D < dist q c -> wnum l q = 0%Z.
Proof.
  intros H HD. apply (wnum_half_plane (psub c q)). intros v Hv. specialize (H v Hv). pose proof (dist_sq q c) as Q. pose proof (dist_sq v c) as V. pose proof (dist_pos q c). pose proof (dist_pos v c).
  unfold pdot, psub. cbn [vx vy]. destruct q as [qx qy], c as [cx cy], v as [x y]. cbn [vx vy] in *.
  set (dq := dist (mkV qx qy) (mkV cx cy)) in *. set (dv := dist (mkV x y) (mkV cx cy)) in *. clearbody dq dv.
  assert (CS : Rsqr ((x - cx) * (cx - qx) + (y - cy) * (cy - qy)) <= Rsqr (dq * dv)). { unfold Rsqr. replace (dq * dv * (dq * dv)) with ((dq * dq) * (dv * dv)) by ring. rewrite Q, V.
    pose proof (Rle_0_sqr ((x - cx) * (cy - qy) - (y - cy) * (cx - qx))) as S. unfold Rsqr in S. lra. }
  apply Rsqr_le_abs_0 in CS. rewrite (Rabs_pos_eq (dq * dv)) in CS by nra. pose proof (Rle_abs (- ((x - cx) * (cx - qx) + (y - cy) * (cy - qy)))) as A. rewrite Rabs_Ropp in A.
  assert (dq * dv < dq * dq) by nra. lra.
Qed.
Lemma regular_dist n r c a v : (3 <= n)%nat -> In v (regular_points n r c a) -> dist v c = Rabs r.
Proof.
  intros Hn Hv. unfold regular_points in Hv. apply in_map_iff in Hv as (k & <- & _).
  apply Rsqr_inj; [apply dist_pos|apply Rabs_pos|]. rewrite <- Rsqr_abs. unfold Rsqr. rewrite dist_sq, polar_xy. cbn [vx vy]. set (t := deg _). pose proof (sin2_cos2 t) as S. unfold Rsqr in S.
  transitivity (r * r * (sin t * sin t + cos t * cos t)); [ring|]. rewrite S. ring.
Qed.
(** How a regular polygon of at least four vertices answers. *)
Lemma regular_answer n r c a pl qs E q : (4 <= n)%nat -> r <> 0 -> split_y_polylines (regular_points n r c a) = Ok pl ->
  fst (contains_point E q (preads (regular_state n r c a (Some pl)) qs)) = winding_test (regular_points n r c a) q \/
  fst (contains_point E q (preads (regular_state n r c a (Some pl)) qs)) = y_monotone_test pl q.
Proof.
  intros Hn Hr Hpl. set (p0 := regular_state n r c a (Some pl)). assert (S : same_core p0 (preads p0 qs)) by (apply same_reads; split; [|split]; discriminate). destruct S. set (p := preads p0 qs) in *.
  cbn [p0 regular_state pverts pcentroid pminr2 pmaxr2 pypl] in *. pose proof (regular_length n r c a) as LV. assert (LN : length (pverts p) = n) by (rewrite sc_verts; exact LV).
  set (vs := regular_points n r c a) in *. assert (Ne : vs <> []) by (intro Z; rewrite Z in LV; cbn in LV; lia).
  assert (D : length2 (vsub c q) = dist q c * dist q c) by (rewrite dist_sq; unfold length2, vsub; rnum; cbn [vx vy]; ring).
  unfold contains_point. rewrite LN. destruct (Nat.eqb_spec n 3); [lia|]. unfold radial_shortcut. rewrite LN, sc_centroid, sc_max, sc_min, sc_ypl.
  destruct (Nat.ltb_spec 4 n) as [L5|L5]; [|right; reflexivity]. cbn zeta. rewrite D. rnum. rewrite winding_test_num by auto.
  assert (C : 0 < cos (PI / INR n)) by (apply cos_half; lia). pose proof (Rabs_pos r). pose proof (Rabs_pos_lt r Hr). pose proof (dist_pos q c). pose proof (Rsqr_abs r) as A. unfold Rsqr in A. unfold inner2.
  destruct (Rltb_spec (dist q c * dist q c) (Rabs r * cos (PI / INR n) * (Rabs r * cos (PI / INR n)))) as [I|I].
  - left. cbn [fst]. f_equal. symmetry. apply negb_true_iff, Z.eqb_neq. assert (SC : strictly_convex 1 vs) by (apply regular_strict; auto; lia). apply (inside_nonzero 1).
    + left; reflexivity.
    + destruct SC as (_ & _ & ND & _). unfold vs in *. destruct (regular_points n r c a) as [|x [|y l]] eqn:EV; [contradiction|cbn in LV; lia|]. exists x, y. split; [left; reflexivity|]. inversion ND as [|? ? N1 _]; subst. intros ->. apply N1. left; auto.
    + apply inner_inside; [lia|]. assert (0 < Rabs r * cos (half n)) by (unfold half; nra). unfold half in *. nra.
  - destruct (Rltb_spec (r * r) (dist q c * dist q c)) as [O|O]; [|right; reflexivity]. left. cbn [fst]. rewrite (outer_wnum vs c q (Rabs r)); [reflexivity| |].
    + intros v Hv. right. apply (regular_dist n r c a); auto. lia.
    + nra.
Qed.
(** Whatever was read before, a regular polygon of five or more vertices
    contains exactly the points around which its boundary winds. *)
Theorem C73_exact : forall (n : nat) (r : R) (c : pt) (a : R) (qs : list (pread R)) (E : R) (q : pt), (5 <= n)%nat -> r <> 0 ->
  exists p, poly_regular n r c a = Ok p /\ fst (contains_point E q (preads p qs)) = winding_test (pverts p) q.
Proof.
  intros n r c a qs E q Hn Hr. destruct (regular_run n r c a) as (pl & ER & HP); [lia|]. exists (regular_state n r c a pl). split; [exact ER|]. destruct (Nat.ltb_spec 3 n); [|lia]. destruct HP as (pl' & -> & HP).
  assert (SC : strictly_convex 1 (regular_points n r c a)) by (apply regular_strict; auto; lia).
  destruct (regular_answer n r c a pl' qs E q ltac:(lia) Hr HP) as [->| ->]; [reflexivity|].
  destruct (split_agrees 1 (regular_points n r c a)) as (pl & E1 & _ & D); [left; auto|apply nodup_once; apply SC|apply strict_sided; auto|apply (strict_spread 1); auto|].
  rewrite HP in E1. injection E1 as <-. apply D. apply regular_corner_free; auto.
Qed.
Print Assumptions C73_exact.
(** A regular polygon never claims a point that its boundary does not wind
    around (n >= 4), and a square not aligned with the axes is exact too. *)
Theorem C73_never_wrong : forall (n : nat) (r : R) (c : pt) (a : R) (qs : list (pread R)) (E : R) (q : pt), (4 <= n)%nat -> r <> 0 ->
  exists p, poly_regular n r c a = Ok p /\ (fst (contains_point E q (preads p qs)) = Ok true -> winding_test (pverts p) q = Ok true).
Proof.
  intros n r c a qs E q Hn Hr. destruct (regular_run n r c a) as (pl & ER & HP); [lia|]. exists (regular_state n r c a pl). split; [exact ER|]. destruct (Nat.ltb_spec 3 n); [|lia]. destruct HP as (pl' & -> & HP).
  assert (SC : strictly_convex 1 (regular_points n r c a)) by (apply regular_strict; auto; lia).
  destruct (regular_answer n r c a pl' qs E q ltac:(lia) Hr HP) as [->| ->]; [auto|].
  destruct (split_agrees 1 (regular_points n r c a)) as (pl & E1 & [A|A] & _); [left; auto|apply nodup_once; apply SC|apply strict_sided; auto|apply (strict_spread 1); auto|..];
  rewrite HP in E1; injection E1 as <-; rewrite A; [auto|discriminate].
Qed.
Print Assumptions C73_never_wrong.
Theorem C73_square_partial : forall (r : R) (c : pt) (a : R) (qs : list (pread R)) (E : R) (q : pt), r <> 0 ->
  exists p, poly_regular 4 r c a = Ok p /\ (corner_free (pverts p) -> fst (contains_point E q (preads p qs)) = winding_test (pverts p) q).
Proof.
  intros r c a qs E q Hr. destruct (regular_run 4 r c a) as (pl & ER & HP); [lia|]. exists (regular_state 4 r c a pl). split; [exact ER|]. intro CF. cbn [Nat.ltb Nat.leb] in HP. destruct HP as (pl' & -> & HP).
  assert (SC : strictly_convex 1 (regular_points 4 r c a)) by (apply regular_strict; auto; lia).
  destruct (regular_answer 4 r c a pl' qs E q ltac:(lia) Hr HP) as [->| ->]; [reflexivity|].
  destruct (split_agrees 1 (regular_points 4 r c a)) as (pl & E1 & _ & D); [left; auto|apply nodup_once; apply SC|apply strict_sided; auto|apply (strict_spread 1); auto|].
  rewrite HP in E1. injection E1 as <-. apply D. exact CF.
Qed.
Print Assumptions C73_square_partial.
(** A square with sides along the axes that starts at its lower left corner
    claims to contain nothing, not even its centre. *)
Definition unit_square : list (Z * Z) := [(-1, -1); (1, -1); (1, 1); (-1, 1)]%Z.
Lemma square_points : regular_points 4 (sqrt 2) (mkV 0 0) 225 = map zv unit_square.
Proof.
  assert (S2 : sqrt 2 * (1 / sqrt 2) = 1) by (field; apply Rgt_not_eq, sqrt_lt_R0; lra).
  assert (C : cos (PI / 4) = 1 / sqrt 2) by apply cos_PI4. assert (S : sin (PI / 4) = 1 / sqrt 2) by apply sin_PI4. set (w := 1 / sqrt 2) in *. set (k := sqrt 2) in *. clearbody w k.
  unfold regular_points, unit_square, zv. cbn [seq map fst snd]. rewrite !polar_xy. cbn [vx vy].
  replace (deg (225 + INR 0 * (360 / INR 4))) with (PI / 4 + PI) by (unfold deg; cbn [INR]; field).
  replace (deg (225 + INR 1 * (360 / INR 4))) with (PI / 4 + PI + PI / 2) by (unfold deg; cbn [INR]; field).
  replace (deg (225 + INR 2 * (360 / INR 4))) with (PI / 4 + PI + PI) by (unfold deg; cbn [INR]; field).
  replace (deg (225 + INR 3 * (360 / INR 4))) with (PI / 4 + PI + PI + PI / 2) by (unfold deg; cbn [INR]; field).
  repeat rewrite ?cos_plus, ?sin_plus. rewrite cos_PI, sin_PI, cos_PI2, sin_PI2, C, S. repeat (apply f_equal2; [vext; lra|]). reflexivity.
Qed.
Theorem C73_refuted : exists (r : R) (c : pt) (a : R) (q : pt) (p : poly R), r <> 0 /\ poly_regular 4 r c a = Ok p /\
  q = c /\ strictly_inside 1 (pverts p) q /\ winding_test (pverts p) q = Ok true /\ forall E, fst (contains_point E q p) = Ok false.
Proof.
  destruct (regular_run 4 (sqrt 2) (mkV 0 0) 225) as (pl & ER & HP); [lia|]. cbn [Nat.ltb Nat.leb] in HP. destruct HP as (pl' & -> & HP).
  exists (sqrt 2), (mkV 0 0), 225, (mkV 0 0). eexists. assert (K : 0 < sqrt 2) by (apply sqrt_lt_R0; lra). split; [lra|]. split; [exact ER|]. split; [reflexivity|].
  unfold regular_state. cbn [pverts]. rewrite square_points in *. change (mkV 0 0) with (zv (0, 0)%Z). split; [|split].
  - intros a b He N. cbn in He. repeat match goal with H : _ \/ _ |- _ => destruct H as [H|H] | H : False |- _ => destruct H end; injection He as <- <-; unfold zv; ug; cbn; lra.
  - rewrite z_winding. vm_compute. reflexivity.
  - intro E. rewrite (contains_pl4 _ _ _ pl') by reflexivity. cbn [fst]. rewrite z_split in HP. destruct (split_y_polylines (map qv unit_square)) as [pq|] eqn:EQ; [|discriminate]. cbn [rmap] in HP. injection HP as <-.
    rewrite z_y_monotone. vm_compute in EQ. injection EQ as <-. vm_compute. reflexivity.
Qed.
Print Assumptions C73_refuted.
(** The regular hexagon of radius 2 around (1, 1): the exact statement applies
    and its inner circle has radius greater than 3/2. *)
Example C69_ex : exists p : poly R, poly_regular 6 2 (mkV 1 1) 0 = Ok p /\ strictly_convex 1 (pverts p) /\ dist (mkV 1 2) (mkV 1 1) < Rabs 2 * cos (PI / INR 6) /\ Rabs 2 < dist (mkV 1 4) (mkV 1 1) /\
  fst (contains_point 0 (mkV 1 2) p) = Ok true /\ fst (contains_point 0 (mkV 1 4) p) = Ok false.
Proof.
  assert (C : 3 / 2 < Rabs 2 * cos (PI / INR 6)).
  { rewrite Rabs_pos_eq by lra. replace (PI / INR 6) with (PI / 6) by (cbn [INR]; field). rewrite cos_PI6. assert (3 / 2 < sqrt 3); [|lra]. rewrite <- (sqrt_Rsqr (3 / 2)) by lra. apply sqrt_lt_1; unfold Rsqr; lra. }
  assert (D1 : dist (mkV 1 2) (mkV 1 1) = 1). { unfold dist, norm. ug. replace ((1 - 1) * (1 - 1) + (2 - 1) * (2 - 1)) with 1 by ring. apply sqrt_1. }
  assert (D3 : dist (mkV 1 4) (mkV 1 1) = 3). { unfold dist, norm. ug. replace ((1 - 1) * (1 - 1) + (4 - 1) * (4 - 1)) with (3 * 3) by ring. apply sqrt_square. lra. }
  rewrite D1, D3. destruct (C69_inner 6 2 (mkV 1 1) 0 [] 0 (mkV 1 2)) as (p & E & H1 & _); [lia|rewrite D1; lra|]. exists p. split; [exact E|].
  destruct (C69_convex 6 2 (mkV 1 1) 0) as (p1 & E1 & S & _); [lia|lra|]. destruct (C69_outer 6 2 (mkV 1 1) 0 [] 0 (mkV 1 4)) as (p2 & E2 & H2 & _); [lia|lra|rewrite D3, Rabs_pos_eq; lra|].
  rewrite E in E1, E2. injection E1 as <-. injection E2 as <-. split; [exact S|]. split; [lra|]. split; [rewrite Rabs_pos_eq; lra|]. split; assumption.
Qed.
Example C73_ex : exists p : poly R, poly_regular 4 1 (mkV 0 0) 0 = Ok p /\ corner_free (pverts p).
Proof.
  destruct (regular_run 4 1 (mkV 0 0) 0) as (pl & ER & _); [lia|]. eexists. split; [exact ER|]. cbn [regular_state pverts].
  assert (EV : regular_points 4 1 (mkV 0 0) 0 = map zv [(1, 0); (0, 1); (-1, 0); (0, -1)]%Z).
  { unfold regular_points, zv. cbn [seq map fst snd]. rewrite !polar_xy. cbn [vx vy].
    replace (deg (0 + INR 0 * (360 / INR 4))) with 0 by (unfold deg; cbn [INR]; field). replace (deg (0 + INR 1 * (360 / INR 4))) with (PI / 2) by (unfold deg; cbn [INR]; field).
    replace (deg (0 + INR 2 * (360 / INR 4))) with PI by (unfold deg; cbn [INR]; field). replace (deg (0 + INR 3 * (360 / INR 4))) with (PI + PI / 2) by (unfold deg; cbn [INR]; field).
    rewrite cos_plus, sin_plus, cos_PI, sin_PI, cos_PI2, sin_PI2, cos_0, sin_0. repeat (apply f_equal2; [vext; lra|]). reflexivity. }
  rewrite EV. assert (I : forall v, In v [(1, 0); (0, 1); (-1, 0); (0, -1)]%Z -> In (zv v) (map zv [(1, 0); (0, 1); (-1, 0); (0, -1)]%Z)) by (intros; apply in_map; auto).
  intros v Hv. assert (vy v = 0).
  { destruct Hv as [[Hv Hm]|[Hv Hm]]; [specialize (Hm _ (I (-1, 0)%Z ltac:(cbn; tauto)))|specialize (Hm _ (I (1, 0)%Z ltac:(cbn; tauto)))]; cbn in Hv; pick Hv; subst v; cbn in *; lra. }
  split; intros (_ & Hm); [specialize (Hm _ (I (0, -1)%Z ltac:(cbn; tauto)))|specialize (Hm _ (I (0, 1)%Z ltac:(cbn; tauto)))]; cbn in Hm; lra.
Qed.
