(** * Properties C70, C71, C74 and C75: star polygons *)
From Coq Require Import ZArith QArith List Bool Reals Lra Lia Psatz Permutation.
From Verif Require Import Num Vec Affine Box Seq Polygon Tangent PolyOps SpecGeom SpecAffine SpecMass SpecWind SpecTri SpecConvex SpecSimple SpecExtreme SpecTangent SpecRegular RBase OrdLaws VecFacts VecFacts2 BoxFacts BoxFacts2
  PolyCache PolyCache2 PolyCache3 NumHom RComp SpecCycle PolyEq CentroidFacts WindFacts TriFacts ConvexFacts ConvexFacts2 ConvexFacts3 ConvexFacts4 MonoFacts MonoFacts4 RegularFacts StarFacts StarFacts2 SettledFacts PropConvex PropSimple PropTri PropPnp PropRegular.
Import ListNotations.
Local Open Scope R_scope.

(** ** The constructor *)
Lemma star_verts_R c r1 r2 step : forall k a, star_verts k c r1 r2 a step = map (fun j => polar_at c (rad r1 r2 j) (a + INR j * step)) (seq 0 (2 * k)).
Proof.
  induction k as [|k IH]; intro a; [reflexivity|]. replace (2 * S k)%nat with (S (S (2 * k))) by lia. cbn [star_verts seq map]. rewrite !cos_sin_deg_R. rnum. apply f_equal2; [|apply f_equal2].
  - rewrite polar_xy. replace (a + INR 0 * step) with a by (cbn; ring). unfold deg, rad. cbn [Nat.even]. vext; ring.
  - rewrite polar_xy. replace (a + INR 1 * step) with (a + step) by (cbn; ring). unfold deg, rad. cbn [Nat.even]. vext; ring.
  - rewrite IH, <- !seq_shift, !map_map. apply map_ext. intro j. change (rad r1 r2 (S (S j))) with (rad r1 r2 j). f_equal. rewrite !S_INR. ring.
Qed.
Lemma pymax_R (a b : R) : pymax a b = Rmax a b.
Proof. unfold pymax, Rmax; rnum. destruct (Rltb_spec a b), (Rle_dec a b); lra. Qed.
(** The object returned by [star] for different positive radii. *)
Definition star_state (n : nat) (r1 r2 : R) (c : pt) (a : R) : poly R :=
  mkPoly (star_points n r1 r2 c a) (Some false) (Some true) None (Some false) None None (Some (Some c)) (Some (Rmax r1 r2 * Rmax r1 r2)) (Some (Rmin r1 r2 * Rmin r1 r2)) None.
Lemma star_step n : (2 <= n)%nat -> pydiv (nlit 180) (nlit (Z.of_nat n)) = Ok (180 / INR n).
Proof. intro Hn. assert (N0 : 0 < INR n) by (apply lt_0_INR; lia). rnum. rewrite <- INR_IZR_INZ. apply pydiv_R. lra. Qed.
Lemma star_run n r1 r2 c a : (2 <= n)%nat -> 0 < r1 -> 0 < r2 -> r1 <> r2 -> poly_star n r1 r2 c a = Ok (star_state n r1 r2 c a).
Proof.
  intros Hn P1 P2 NE. unfold poly_star. destruct (Nat.ltb_spec n 2); [lia|]. rewrite star_step by auto. cbn [bind].
  assert (EV : star_verts n c r1 r2 a (180 / INR n) = star_points n r1 r2 c a) by (rewrite star_verts_R; reflexivity). rewrite EV.
  pose proof (star_length n r1 r2 c a) as HL. rnum. replace (Rltb 0 r1) with true by (symmetry; apply Rltb_true; auto). replace (Rltb 0 r2) with true by (symmetry; apply Rltb_true; auto).
  replace (Rleb 0 r1) with true by (symmetry; apply Rleb_true; lra). replace (Rleb 0 r2) with true by (symmetry; apply Rleb_true; lra). replace (Reqb r1 r2) with false by (destruct (Reqb_spec r1 r2); congruence).
  cbn [Bool.eqb andb]. unfold poly_new, seq_new. rewrite map_vec2_of_R, HL. destruct (Nat.ltb_spec (2 * n) 3); [lia|]. unfold cleared. rewrite HL. destruct (Nat.ltb_spec 3 (2 * n)); [|lia].
  cbn [pconvex bind andb psimple pverts pypl pdupe pdegen pbbox pcentroid pmaxr2 pminr2 ptri get_is_convex]. rewrite pymax_R, pymin_R, vec2_of_R, !Rabs_pos_eq by lra. reflexivity.
Qed.
(** With equal radii it is a regular polygon. *)
Lemma star_equal n r c a : (2 <= n)%nat -> star_points n r r c a = regular_points (2 * n) r c a.
Proof.
  intro Hn. pose proof (n_pos n Hn). unfold star_points, regular_points. apply map_ext. intro k. f_equal; [destruct (Nat.even k); reflexivity|]. f_equal. f_equal. rewrite mult_INR. cbn [INR]. field. lra.
Qed.
Lemma star_run_equal n r c a : (2 <= n)%nat -> 0 < r -> poly_star n r r c a = poly_regular (2 * n) r c a.
Proof.
  intros Hn P. assert (N0 : 0 < INR n) by (apply lt_0_INR; lia). unfold poly_star, poly_regular. destruct (Nat.ltb_spec n 2); [lia|]. rewrite star_step by auto. cbn [bind].
  assert (ED : pydiv (nlit 360) (nlit (Z.of_nat (2 * n))) = Ok (360 / INR (2 * n))) by (rnum; rewrite <- INR_IZR_INZ; apply pydiv_R; apply not_0_INR; lia). rewrite ED. cbn [bind].
  assert (EV : star_verts n c r r a (180 / INR n) = star_points n r r c a) by (rewrite star_verts_R; reflexivity). rewrite EV.
  assert (ER : regular_verts (2 * n) c r a (360 / INR (2 * n)) = star_points n r r c a) by (rewrite star_equal by auto; apply regular_verts_R). rewrite ER.
  pose proof (star_length n r r c a) as HL. rnum. replace (Rltb 0 r) with true by (symmetry; apply Rltb_true; auto). replace (Rleb 0 r) with true by (symmetry; apply Rleb_true; lra). replace (Reqb r r) with true by (destruct (Reqb_spec r r); congruence).
  cbn [Bool.eqb andb]. unfold poly_new, seq_new. rewrite map_vec2_of_R, HL. destruct (Nat.ltb_spec (2 * n) 3); [lia|]. unfold cleared. rewrite HL. destruct (Nat.ltb_spec 3 (2 * n)); [|lia].
  destruct (split_ok (star_points n r r c a)) as [pl Hpl]; [destruct (star_points n r r c a); [cbn in HL; lia|discriminate]|]. cbn [pconvex bind andb psimple pverts pypl pdupe pdegen pbbox pcentroid pmaxr2 pminr2 ptri]. rewrite Hpl.
  cbn [pconvex bind andb psimple pverts pypl pdupe pdegen pbbox pcentroid pmaxr2 pminr2 ptri get_is_convex].
  destruct (py_get (star_points n r r c a) 0); cbn [bind]; auto. destruct (py_get (star_points n r r c a) 1); cbn [bind]; auto. rewrite pymax_R. unfold Rmax. destruct (Rle_dec (Rabs r) (Rabs r)); rewrite !Rabs_pos_eq by lra; reflexivity.
Qed.

(** ** C70 *)
(** What a star of different positive radii answers, whatever was read before. *)
Lemma star_answer n r1 r2 c a qs E q : (2 <= n)%nat -> 0 < r1 -> 0 < r2 ->
  fst (contains_point E q (preads (star_state n r1 r2 c a) qs)) =
  if Nat.ltb 4 (2 * n) && Rltb (dist q c * dist q c) (Rmin r1 r2 * Rmin r1 r2) then Ok true else winding_test (star_points n r1 r2 c a) q.
Proof.
  intros Hn P1 P2. set (p0 := star_state n r1 r2 c a). assert (S : same_core p0 (preads p0 qs)) by (apply same_reads; split; [|split]; discriminate). destruct S. set (p := preads p0 qs) in *.
  cbn [p0 star_state pverts pcentroid pminr2 pmaxr2 pypl pbbox] in *. pose proof (star_length n r1 r2 c a) as LV. assert (LN : length (pverts p) = (2 * n)%nat) by (rewrite sc_verts; exact LV).
  set (vs := star_points n r1 r2 c a) in *. assert (Ne : vs <> []) by (intro Z; rewrite Z in LV; cbn in LV; lia).
  assert (D : length2 (vsub c q) = dist q c * dist q c) by (rewrite dist_sq; unfold length2, vsub; rnum; cbn [vx vy]; ring).
  assert (BX : fst (match get_bbox p with (Err e, p1) => (Err e, p1) | (Ok b, p1) => if box_contains b q then (winding_test (pverts p1) q, p1) else (Ok false, p1) end) = winding_test vs q).
  { destruct (box_from_points_tight R_ordlaws vs Ne) as (b & Hb & Ht). { apply all_ord. }
    assert (GB : exists p1, get_bbox p = (Ok b, p1) /\ pverts p1 = vs).
    { unfold get_bbox. destruct sc_box as [E0|(b' & E1 & E2)]; [rewrite E0, sc_verts, Hb; eexists; split; [reflexivity|cbn; auto]|]. rewrite E2. rewrite Hb in E1. injection E1 as <-. eauto. }
    destruct GB as (p1 & -> & V1). rewrite V1. destruct (box_contains b q) eqn:EB; [reflexivity|]. cbn [fst].
    rewrite winding_test_num by auto. rewrite (wnum_outside q vs); auto. destruct Ht as ((_ & T1) & (_ & T2) & (_ & T3) & (_ & T4)).
    assert (X : forall v, In v vs -> vx (bmin b) <= vx v <= vx (bmax b) /\ vy (bmin b) <= vy v <= vy (bmax b)).
    { intros v Hv. specialize (T1 (vx v) (in_map vx _ _ Hv)). specialize (T2 (vy v) (in_map vy _ _ Hv)). specialize (T3 (vx v) (in_map vx _ _ Hv)). specialize (T4 (vy v) (in_map vy _ _ Hv)).
      revert T1 T2 T3 T4. rnum. rewrite !Rleb_true. lra. }
    unfold box_contains in EB. revert EB. rnum.
    destruct (Rleb_spec (vx (bmin b)) (vx q)); [|intros _; left; intros v Hv; specialize (X v Hv); lra].
    destruct (Rltb_spec (vx q) (vx (bmax b))); [|intros _; right; left; intros v Hv; specialize (X v Hv); lra].
    destruct (Rltb_spec (vy (bmin b)) (vy q)); [|intros _; right; right; left; intros v Hv; specialize (X v Hv); lra].
    destruct (Rleb_spec (vy q) (vy (bmax b))); [|intros _; right; right; right; intros v Hv; specialize (X v Hv); lra].
    discriminate. }
  unfold contains_point. rewrite LN. destruct (Nat.eqb_spec (2 * n) 3); [lia|]. unfold radial_shortcut. rewrite LN, sc_centroid, sc_max, sc_min, sc_ypl.
  destruct (Nat.ltb_spec 4 (2 * n)) as [L|L]; cbn [andb].
  - cbn zeta. rewrite D. rnum. destruct (Rltb _ (Rmin r1 r2 * Rmin r1 r2)); [reflexivity|]. destruct (Rltb_spec (Rmax r1 r2 * Rmax r1 r2) (dist q c * dist q c)) as [O|O].
    + cbn [fst]. rewrite winding_test_num by auto. assert (0 < Rmax r1 r2) by (apply Rlt_le_trans with r1; auto using Rmax_l). pose proof (dist_pos q c). rewrite (outer_wnum vs c q (Rmax r1 r2)); [reflexivity| |nra].
      intros v Hv. unfold vs in Hv. rewrite star_def in Hv. apply in_map_iff in Hv as (k & <- & _). rewrite s_dist. destruct (rad_cases r1 r2 k) as [->| ->]; rewrite Rabs_pos_eq by lra; [apply Rmax_l|apply Rmax_r].
    + destruct (Nat.eqb_spec (2 * n) 4); [lia|]. exact BX.
  - destruct (Nat.eqb_spec (2 * n) 4); [|lia]. cbn [fst]. rewrite sc_verts. reflexivity.
Qed.
(** Deep stars (the inner corners are not beyond the chords of the outer ones)
    and four-pointed ones contain exactly what their boundary winds around,
    whatever was read before. *)
Theorem C70_deep_partial : forall (n : nat) (r1 r2 : R) (c : pt) (a : R) (qs : list (pread R)) (E : R) (q : pt), (2 <= n)%nat -> 0 < r1 -> 0 < r2 -> r1 <> r2 ->
  n = 2%nat \/ Rmin r1 r2 <= Rmax r1 r2 * cos (PI / INR n) ->
  exists p, poly_star n r1 r2 c a = Ok p /\ fst (contains_point E q (preads p qs)) = winding_test (pverts p) q.
Proof.
  intros n r1 r2 c a qs E q Hn P1 P2 NE HD. exists (star_state n r1 r2 c a). split; [apply star_run; auto|]. rewrite star_answer by auto. cbn [star_state pverts].
  destruct (Nat.ltb_spec 4 (2 * n)) as [L|L]; cbn [andb]; [|reflexivity]. destruct HD as [HD|HD]; [lia|]. destruct (Rltb_spec (dist q c * dist q c) (Rmin r1 r2 * Rmin r1 r2)) as [I|I]; [|reflexivity].
  pose proof (star_length n r1 r2 c a) as LV. rewrite winding_test_num by (intro Z; rewrite Z in LV; cbn in LV; lia). f_equal. symmetry. apply negb_true_iff, Z.eqb_neq.
  assert (wnum (star_points n r1 r2 c a) q < 0)%Z; [|lia]. apply star_inner; auto. unfold lo. assert (0 < Rmin r1 r2) by (apply Rmin_pos; auto). pose proof (dist_pos q c). nra.
Qed.
Print Assumptions C70_deep_partial.
(** Equal radii give a regular polygon; six or more vertices are exact. *)
Theorem C70_equal_partial : forall (n : nat) (r : R) (c : pt) (a : R) (qs : list (pread R)) (E : R) (q : pt), (3 <= n)%nat -> 0 < r ->
  exists p, poly_star n r r c a = Ok p /\ fst (contains_point E q (preads p qs)) = winding_test (pverts p) q.
Proof. intros n r c a qs E q Hn P. rewrite star_run_equal by (auto; lia). apply C73_exact; [lia|lra]. Qed.
Print Assumptions C70_equal_partial.
(** A star never denies a point that its boundary winds around. *)
Theorem C70_never_misses : forall (n : nat) (r1 r2 : R) (c : pt) (a : R) (qs : list (pread R)) (E : R) (q : pt), (2 <= n)%nat -> 0 < r1 -> 0 < r2 -> r1 <> r2 ->
  exists p, poly_star n r1 r2 c a = Ok p /\ (winding_test (pverts p) q = Ok true -> fst (contains_point E q (preads p qs)) = Ok true).
Proof.
  intros n r1 r2 c a qs E q Hn P1 P2 NE. exists (star_state n r1 r2 c a). split; [apply star_run; auto|]. rewrite star_answer by auto. cbn [star_state pverts]. intro W. rewrite W. destruct (_ && _); reflexivity.
Qed.
Print Assumptions C70_never_misses.
(** Every shallow star with three or more points claims points outside: it is
    convex, and some point strictly outside one of its edges is reported as
    contained. *)
Theorem C70_shallow_wrong : forall (n : nat) (r1 r2 : R) (c : pt) (a : R) (qs : list (pread R)) (E : R), (3 <= n)%nat -> 0 < r1 -> 0 < r2 -> r1 <> r2 ->
  Rmax r1 r2 * cos (PI / INR n) < Rmin r1 r2 ->
  exists p q, poly_star n r1 r2 c a = Ok p /\ convex_ccw (pverts p) /\ beyond_edge 1 (pverts p) q /\ winding_test (pverts p) q = Ok false /\ fst (contains_point E q (preads p qs)) = Ok true.
Proof.
  intros n r1 r2 c a qs E Hn P1 P2 NE HS. assert (Hn2 : (2 <= n)%nat) by lia. set (vs := star_points n r1 r2 c a).
  set (s0 := sv n r1 r2 c a 0). set (s1 := sv n r1 r2 c a 1). set (L := dist s1 s0). set (K := r1 * r2 * sin (sx n)).
  assert (KO : orient c s0 s1 = K) by apply s_edge_c, Hn2. pose proof (sin_sx n Hn2) as SS. assert (KP : 0 < K) by (apply Rmult_lt_0_compat; nra).
  assert (LP : 0 < L). { unfold L. destruct (Req_dec (dist s1 s0) 0) as [Z|Z]; [|pose proof (dist_pos s1 s0); lra]. exfalso. assert (Q : dist s1 s0 * dist s1 s0 = 0) by (rewrite Z; ring). rewrite dist_sq in Q. assert (Q' : s1 = s0). { destruct s1 as [x1 y1], s0 as [x0 y0]. cbn [vx vy] in Q. destruct (sumsq0 (x1 - x0) (y1 - y0)); [lra|]. vext; lra. } rewrite Q' in KO. revert KO. ug. lra. }
  pose proof (dist_sq s1 s0) as LQ. fold L in LQ.
  assert (LV : L * L = r1 * r1 + r2 * r2 - 2 * (r1 * r2 * cos (sx n))).
  { rewrite LQ. unfold s0, s1, sv. rewrite !polar_xy, !s_deg by auto. unfold rad. cbn [Nat.even vx vy INR]. rewrite Rmult_0_l, Rplus_0_r, Rmult_1_l. rewrite cos_plus, sin_plus. pose proof (sin2_cos2 (deg a)) as S1. pose proof (sin2_cos2 (sx n)) as S2. unfold Rsqr in *.
    set (ca := cos (deg a)) in *. set (sa := sin (deg a)) in *. set (cx := cos (sx n)) in *. set (sxx := sin (sx n)) in *. clearbody ca sa cx sxx.
    transitivity (r1 * r1 * (sa * sa + ca * ca) + r2 * r2 * ((sa * sa + ca * ca) * (sxx * sxx + cx * cx)) - 2 * (r1 * r2 * cx) * (sa * sa + ca * ca)); [ring|]. rewrite S1, S2. ring. }
  fold (sx n) in HS. set (l := Rmin r1 r2) in *. set (h := Rmax r1 r2) in *. assert (l0 : 0 < l) by (apply Rmin_pos; auto). assert (lh : l < h) by (unfold l, h, Rmin, Rmax; destruct (Rle_dec r1 r2); lra).
  assert (SYM : r1 * r2 = l * h /\ r1 * r1 + r2 * r2 = l * l + h * h) by (unfold l, h, Rmin, Rmax; destruct (Rle_dec r1 r2); split; ring). destruct SYM as [Y1 Y2].
  assert (DL : K < l * L). { assert (KK : K = l * (h * sin (sx n))) by (unfold K; rewrite Y1; ring). rewrite KK. apply Rmult_lt_compat_l; auto. assert (Q : (h * sin (sx n)) * (h * sin (sx n)) < L * L).
    { rewrite LV, Y2, Y1. pose proof (sin2_cos2 (sx n)) as S2. unfold Rsqr in S2. assert (0 < (l - h * cos (sx n)) * (l - h * cos (sx n))) by (apply Rmult_lt_0_compat; lra). replace (h * sin (sx n) * (h * sin (sx n))) with (h * h * (1 - cos (sx n) * cos (sx n))) by (replace (1 - cos (sx n) * cos (sx n)) with (sin (sx n) * sin (sx n)) by lra; ring). lra. }
    assert (0 < h * sin (sx n)) by nra. nra. }
  set (t := (l + K / L) / 2). assert (KL : K / L * L = K) by (field; lra). assert (KLP : 0 < K / L) by (apply Rdiv_lt_0_compat; auto). assert (T1 : K / L < t < l) by (unfold t; assert (K / L < l) by nra; lra).
  set (q := mkV (vx c + t * ((vy s1 - vy s0) / L)) (vy c - t * ((vx s1 - vx s0) / L))).
  assert (DQ : dist q c * dist q c = t * t). { rewrite dist_sq. unfold q. cbn [vx vy]. transitivity (t * t * (((vx s1 - vx s0) * (vx s1 - vx s0) + (vy s1 - vy s0) * (vy s1 - vy s0)) / (L * L))); [field; lra|]. rewrite <- LQ. field. lra. }
  assert (OQ : orient s0 s1 q = K - t * L). { transitivity (orient c s0 s1 - t * (((vx s1 - vx s0) * (vx s1 - vx s0) + (vy s1 - vy s0) * (vy s1 - vy s0)) / L)); [unfold q; ug; field; lra|]. rewrite <- LQ, KO. field. lra. }
  assert (ON : orient s0 s1 q < 0) by (rewrite OQ; nra).
  assert (EI : In (s0, s1) (cyc_pairs vs)) by (unfold vs; rewrite star_def; apply (cyc_index_in (sv n r1 r2 c a) (2 * n) 0); [apply s_wrap; auto|lia]).
  assert (CV : convex_ccw vs) by (apply star_convex; auto; fold l h; unfold lo, hi; fold l h; lra).
  exists (star_state n r1 r2 c a), q. split; [apply star_run; auto|]. cbn [star_state pverts]. fold vs. split; [exact CV|]. split; [exists s0, s1; split; [exact EI|lra]|]. split.
  - pose proof (star_length n r1 r2 c a) as LN. fold vs in LN. rewrite winding_test_num by (intro Z; rewrite Z in LN; cbn in LN; lia). rewrite (outside_edge 1 vs s0 s1 q); [reflexivity|left; auto|apply sided_ccw; exact CV|exact EI|lra].
  - rewrite star_answer by auto. fold l. rewrite DQ. destruct (Nat.ltb_spec 4 (2 * n)); [|lia]. cbn [andb]. replace (Rltb (t * t) (l * l)) with true; [reflexivity|]. symmetry. apply Rltb_true. nra.
Qed.
Print Assumptions C70_shallow_wrong.
Lemma cos_PI_3 : cos (PI / INR 3) = 1 / 2.
Proof. replace (PI / INR 3) with (PI / 3) by (cbn [INR]; field). apply cos_PI3. Qed.
Theorem C70_refuted : exists (n : nat) (r1 r2 : R) (c : pt) (a : R) (p : poly R) (q : pt), 0 < r1 /\ 0 < r2 /\ poly_star n r1 r2 c a = Ok p /\ winding_test (pverts p) q = Ok false /\ fst (contains_point 0 q p) = Ok true.
Proof.
  assert (M : Rmin 1 (99 / 100) = 99 / 100) by (rewrite Rmin_right; lra). assert (M' : Rmax 1 (99 / 100) = 1) by (rewrite Rmax_left; lra).
  destruct (C70_shallow_wrong 3 1 (99 / 100) (mkV 0 0) 0 [] 0) as (p & q & E & _ & _ & W & C); [lia|lra|lra|lra|rewrite M, M', cos_PI_3; lra|].
  exists 3%nat, 1, (99 / 100), (mkV 0 0), 0, p, q. split; [lra|]. split; [lra|]. split; [exact E|]. split; [exact W|exact C].
Qed.
Print Assumptions C70_refuted.
Example C70_ex : (2 <= 5)%nat /\ 0 < 3 /\ 0 < 1 /\ 3 <> 1 /\ Rmin 3 1 <= Rmax 3 1 * cos (PI / INR 5) /\ Rmax 1 (99 / 100) * cos (PI / INR 3) < Rmin 1 (99 / 100) /\
  exists p, poly_star 5 3 1 (mkV 0 0) 90 = Ok p /\ fst (contains_point 0 (mkV 0 0) p) = Ok true.
Proof.
  split; [lia|]. split; [lra|]. split; [lra|]. split; [lra|]. rewrite (Rmin_right 3 1), (Rmax_left 3 1), (Rmin_right 1 (99 / 100)), (Rmax_left 1 (99 / 100)), cos_PI_3 by lra. split.
  - assert (1 / 2 < cos (PI / INR 5)); [|lra]. pose proof PI_RGT_0. rewrite <- cos_PI_3. apply cos_decreasing_1; cbn [INR]; lra.
  - split; [lra|]. exists (star_state 5 3 1 (mkV 0 0) 90). split; [apply star_run; [lia|lra..]|]. pose proof (star_answer 5 3 1 (mkV 0 0) 90 [] 0 (mkV 0 0) ltac:(lia) ltac:(lra) ltac:(lra)) as A. cbn [preads fold_left] in A. rewrite A.
    replace (dist (mkV 0 0) (mkV 0 0) * dist (mkV 0 0) (mkV 0 0)) with 0 by (rewrite dist_sq; cbn [vx vy]; ring). rewrite (Rmin_right 3 1) by lra. replace (Rltb 0 (1 * 1)) with true by (symmetry; apply Rltb_true; lra). reflexivity.
Qed.

(** ** C71: convexity of stars *)
(** The answer is "equal radii"; the truth is that the inner corners reach the
    chords of the outer ones. *)
Theorem C71_truth : forall (n : nat) (r1 r2 : R) (c : pt) (a : R), (2 <= n)%nat -> 0 < r1 -> 0 < r2 ->
  exists p, poly_star n r1 r2 c a = Ok p /\ (fst (get_is_convex p) = Ok true <-> r1 = r2) /\ (fst (get_is_convex p) = Ok false <-> r1 <> r2) /\
    (convex_ccw (pverts p) \/ convex_cw (pverts p) <-> Rmax r1 r2 * cos (PI / INR n) <= Rmin r1 r2).
Proof.
  intros n r1 r2 c a Hn P1 P2.
  assert (G : convex_ccw (star_points n r1 r2 c a) \/ convex_cw (star_points n r1 r2 c a) <-> Rmax r1 r2 * cos (PI / INR n) <= Rmin r1 r2).
  { split.
    - intro H. destruct (Rle_lt_dec (Rmax r1 r2 * cos (PI / INR n)) (Rmin r1 r2)) as [|K]; auto. destruct (star_not_convex n r1 r2 c a Hn P1 P2 K). tauto.
    - intro H. left. apply star_convex; auto. }
  destruct (Req_dec r1 r2) as [<-|NE].
  - destruct (regular_run (2 * n) r1 c a) as (pl & ER & _); [lia|]. exists (regular_state (2 * n) r1 c a pl). split; [rewrite star_run_equal by auto; exact ER|]. cbn [regular_state pverts get_is_convex pconvex fst].
    rewrite <- star_equal by auto. split; [tauto|]. split; [split; [discriminate|tauto]|exact G].
  - exists (star_state n r1 r2 c a). split; [apply star_run; auto|]. cbn [star_state pverts get_is_convex pconvex fst]. split; [split; [discriminate|tauto]|]. split; [tauto|exact G].
Qed.
Print Assumptions C71_truth.
Theorem C71_correct_partial : forall (n : nat) (r1 r2 : R) (c : pt) (a : R), (2 <= n)%nat -> 0 < r1 -> 0 < r2 -> r1 = r2 \/ Rmin r1 r2 < Rmax r1 r2 * cos (PI / INR n) ->
  exists p, poly_star n r1 r2 c a = Ok p /\ (fst (get_is_convex p) = Ok true <-> convex_ccw (pverts p) \/ convex_cw (pverts p)).
Proof.
  intros n r1 r2 c a Hn P1 P2 H. destruct (C71_truth n r1 r2 c a Hn P1 P2) as (p & E & A & _ & G). exists p. split; auto. rewrite A, G. destruct H as [<-|H].
  - split; auto. intros _. unfold Rmax, Rmin. destruct (Rle_dec r1 r1); [|lra]. pose proof (COS_bound (PI / INR n)). nra.
  - split; [|lra]. intros <-. exfalso. unfold Rmax, Rmin in H. destruct (Rle_dec r1 r1); [|lra]. pose proof (COS_bound (PI / INR n)). nra.
Qed.
Print Assumptions C71_correct_partial.
Theorem C71_refuted : exists (n : nat) (r1 r2 : R) (c : pt) (a : R) (p : poly R), 0 < r1 /\ 0 < r2 /\ poly_star n r1 r2 c a = Ok p /\ convex_ccw (pverts p) /\ fst (get_is_convex p) = Ok false.
Proof.
  exists 2%nat, 1, 2, (mkV 0 0), 0. exists (star_state 2 1 2 (mkV 0 0) 0). split; [lra|]. split; [lra|]. split; [apply star_run; [lia|lra..]|]. split; [|reflexivity]. cbn [star_state pverts]. apply star_convex; [lia|lra|lra|].
  unfold sx, hi, lo. replace (PI / INR 2) with (PI / 2) by (cbn [INR]; field). rewrite cos_PI2, Rmult_0_r. apply Rmin_glb; lra.
Qed.
Print Assumptions C71_refuted.
Example C71_ex : Rmin 3 1 < Rmax 3 1 * cos (PI / INR 3).
Proof. rewrite Rmin_right, Rmax_left, cos_PI_3 by lra. lra. Qed.

(** ** C74: the stored centroid *)
Lemma regular_mass n r c a : (3 <= n)%nat -> r <> 0 -> mass_centre (regular_points n r c a) = c.
Proof.
  intros Hn Hr. pose proof PI_RGT_0 as PP. assert (N3 : 3 <= INR n) by (replace 3 with (INR 3) by (cbn; ring); apply le_INR; exact Hn). set (f := fun k => polar_at c r (a + INR k * (360 / INR n))).
  assert (G : 0 < 2 * PI / INR n < PI). { split; [apply Rdiv_lt_0_compat; lra|]. apply (Rmult_lt_reg_r (INR n)); [lra|]. replace (2 * PI / INR n * INR n) with (2 * PI) by (field; lra). nra. }
  assert (FW : f n = f 0%nat). { unfold f. rewrite !polar_xy. replace (deg (a + INR n * (360 / INR n))) with (deg (a + INR 0 * (360 / INR n)) + 2 * PI) by (unfold deg; cbn [INR]; field; lra). rewrite cos_plus, sin_plus, cos_2PI, sin_2PI. vext; ring. }
  change (regular_points n r c a) with (map f (seq 0 n)). apply (symmetric_mass f c (2 * PI / INR n) n 1); [lia|lia| | | |].
  - intro i. unfold f. rewrite !polar_xy. replace (deg (a + INR (i + n) * (360 / INR n))) with (deg (a + INR i * (360 / INR n)) + 2 * PI) by (rewrite plus_INR; unfold deg; field; lra). rewrite cos_plus, sin_plus, cos_2PI, sin_2PI. vext; ring.
  - intro i. unfold f. apply spin_polar. rewrite plus_INR. unfold deg. cbn [INR]. field. lra.
  - assert (cos (2 * PI / INR n) < cos 0) by (apply cos_decreasing_1; lra). rewrite cos_0 in H. lra.
  - rewrite (area_about c). rewrite (rsum_const _ (r * r * sin (2 * PI / INR n))).
    + assert (LN : 0 < INR (length (cyc_pairs (map f (seq 0 n))))) by (apply lt_0_INR; pose proof (cyc_index_in f n 0 FW ltac:(lia)) as I; destruct (cyc_pairs (map f (seq 0 n))); [destruct I|cbn; lia]).
      assert (0 < sin (2 * PI / INR n)) by (apply sin_gt_0; lra). assert (0 < r * r) by nra. assert (0 < INR (length (cyc_pairs (map f (seq 0 n)))) * (r * r * sin (2 * PI / INR n))) by (apply Rmult_lt_0_compat; auto; apply Rmult_lt_0_compat; auto). lra.
    + intros [u v] He. apply cyc_index in He as (k & _ & -> & ->); [|exact FW]. cbn [fst snd]. unfold f.
      assert (C0 : c = polar_at c 0 0) by (rewrite polar_xy; destruct c as [cx cy]; cbn [vx vy]; vext; ring). rewrite C0 at 1. rewrite orient_polar.
      replace (deg (a + INR (S k) * (360 / INR n)) - deg (a + INR k * (360 / INR n))) with (2 * PI / INR n) by (rewrite S_INR; unfold deg; field; lra). ring.
Qed.
Lemma star_mass n r1 r2 c a : (2 <= n)%nat -> r1 * r2 <> 0 -> mass_centre (star_points n r1 r2 c a) = c.
Proof.
  intros Hn Hr. pose proof PI_RGT_0 as PP. pose proof (n_pos n Hn) as N2. rewrite star_def.
  assert (G : 0 < 2 * PI / INR n <= PI). { split; [apply Rdiv_lt_0_compat; lra|]. apply (Rmult_le_reg_r (INR n)); [lra|]. replace (2 * PI / INR n * INR n) with (2 * PI) by (field; lra). nra. }
  apply (symmetric_mass _ c (2 * PI / INR n) (2 * n) 2); [lia|lia| | | |].
  - intro i. unfold sv. rewrite !polar_xy, !s_deg by auto. rewrite rd_plus, Nat.even_mul. cbn [Nat.even orb]. rewrite plus_INR, mult_INR.
    replace (deg a + (INR i + INR 2 * INR n) * sx n) with (deg a + INR i * sx n + 2 * PI) by (rewrite <- (sx_full n Hn); cbn; ring). rewrite (cos_plus _ (2 * PI)), (sin_plus _ (2 * PI)), cos_2PI, sin_2PI. vext; ring.
  - intro i. unfold sv. rewrite rd_plus. cbn [Nat.even]. apply spin_polar. rewrite plus_INR. unfold deg. cbn [INR]. field. lra.
  - assert (H : cos (2 * PI / INR n) < cos 0) by (apply cos_decreasing_1; lra). rewrite cos_0 in H. lra.
  - rewrite (area_about c). rewrite (rsum_const _ (r1 * r2 * sin (sx n))).
    + pose proof (sin_sx n Hn) as SS. pose proof (cyc_index_in (sv n r1 r2 c a) (2 * n) 0 (s_wrap n r1 r2 c a Hn) ltac:(lia)) as I. set (l := cyc_pairs _) in *. assert (LN : INR (length l) <> 0) by (apply not_0_INR; destruct l; [destruct I|discriminate]).
      intro Z. apply Rmult_integral in Z as [Z|Z]; [auto|]. apply Rmult_integral in Z as [Z|Z]; [auto|lra].
    + intros [u v] He. apply cyc_index in He as (k & _ & -> & ->); [|apply s_wrap; auto]. cbn [fst snd]. apply s_edge_c; auto.
Qed.
(** The centroid that regular and star store is the centre of mass of the
    vertices. *)
Theorem C74_regular : forall (n : nat) (r : R) (c : pt) (a : R) (qs : list (pread R)), (3 <= n)%nat -> r <> 0 ->
  exists p, poly_regular n r c a = Ok p /\ fst (get_centroid (preads p qs)) = Ok (Some (mass_centre (pverts p))).
Proof.
  intros n r c a qs Hn Hr. destruct (regular_run n r c a Hn) as (pl & E & _). exists (regular_state n r c a pl). split; [exact E|].
  assert (S : same_core (regular_state n r c a pl) (preads (regular_state n r c a pl) qs)) by (apply same_reads; split; [|split]; discriminate). destruct S.
  unfold get_centroid. rewrite sc_centroid. cbn [regular_state pcentroid fst pverts]. rewrite regular_mass; auto.
Qed.
Print Assumptions C74_regular.
Theorem C74_star : forall (n : nat) (r1 r2 : R) (c : pt) (a : R) (qs : list (pread R)), (2 <= n)%nat -> 0 < r1 -> 0 < r2 ->
  exists p, poly_star n r1 r2 c a = Ok p /\ fst (get_centroid (preads p qs)) = Ok (Some (mass_centre (pverts p))).
Proof.
  intros n r1 r2 c a qs Hn P1 P2. destruct (Req_dec r1 r2) as [<-|NE].
  - rewrite star_run_equal by auto. apply C74_regular; [lia|lra].
  - exists (star_state n r1 r2 c a). split; [apply star_run; auto|].
    assert (S : same_core (star_state n r1 r2 c a) (preads (star_state n r1 r2 c a) qs)) by (apply same_reads; split; [|split]; discriminate). destruct S.
    unfold get_centroid. rewrite sc_centroid. cbn [star_state pcentroid fst pverts]. rewrite star_mass; auto. nra.
Qed.
Print Assumptions C74_star.
Example C74_ex : exists p, poly_star 5 3 1 (mkV 7 (-2)) 90 = Ok p /\ fst (get_centroid p) = Ok (Some (mkV 7 (-2))) /\ mass_centre (pverts p) = mkV 7 (-2).
Proof.
  destruct (C74_star 5 3 1 (mkV 7 (-2)) 90 []) as (p & E & C); [lia|lra|lra|]. exists p. split; [exact E|]. rewrite star_run in E by (try lia; lra). injection E as <-. cbn [star_state pverts preads fold_left] in *. rewrite star_mass in * by (try lia; lra). split; auto.
Qed.

(** ** C75: simplicity of stars *)
(** For positive radii the stored answer is right: no two non-adjacent edges
    share a point, and a polygon made of the same vertices says the same. *)
Theorem C75_positive_partial : forall (n : nat) (r1 r2 : R) (c : pt) (a : R), (2 <= n)%nat -> 0 < r1 -> 0 < r2 ->
  exists p, poly_star n r1 r2 c a = Ok p /\ fst (get_is_simple p) = Ok true /\ ~ some_far_edges (pverts p) share /\ fst (get_is_simple (poly_from_points (pverts p))) = Ok true.
Proof.
  intros n r1 r2 c a Hn P1 P2. pose proof (star_simple n r1 r2 c a Hn P1 P2) as S. destruct (Req_dec r1 r2) as [<-|NE].
  - rewrite star_equal in S by auto. destruct (regular_run (2 * n) r1 c a) as (pl & E & _); [lia|]. exists (regular_state (2 * n) r1 c a pl). rewrite star_run_equal by auto. split; [exact E|]. split; [reflexivity|]. split; [exact S|].
    apply (C60_no_contact _ []). exact S.
  - exists (star_state n r1 r2 c a). split; [apply star_run; auto|]. split; [reflexivity|]. split; [exact S|]. apply (C60_no_contact _ []). exact S.
Qed.
Print Assumptions C75_positive_partial.
(** With one radius zero and the other negative, the star comes back to its
    centre again and again; it is declared simple all the same. *)
Definition pinched : list (Z * Z) := [(0, 0); (-1, -1); (0, 0); (1, -1); (0, 0); (1, 1); (0, 0); (-1, 1)]%Z.
Lemma pinched_points : star_points 4 0 (- sqrt 2) (mkV 0 0) 0 = map zv pinched.
Proof.
  assert (S2 : sqrt 2 * (1 / sqrt 2) = 1) by (field; apply Rgt_not_eq, sqrt_lt_R0; lra).
  assert (C : cos (PI / 4) = 1 / sqrt 2) by apply cos_PI4. assert (S : sin (PI / 4) = 1 / sqrt 2) by apply sin_PI4. set (w := 1 / sqrt 2) in *. set (k := sqrt 2) in *. clearbody w k.
  unfold star_points, pinched, zv. cbn [seq map fst snd Nat.mul Nat.add Nat.even]. rewrite !polar_xy. cbn [vx vy].
  replace (deg (0 + INR 1 * (180 / INR 4))) with (PI / 4) by (unfold deg; cbn [INR]; field).
  replace (deg (0 + INR 3 * (180 / INR 4))) with (PI / 4 + PI / 2) by (unfold deg; cbn [INR]; field).
  replace (deg (0 + INR 5 * (180 / INR 4))) with (PI / 4 + PI) by (unfold deg; cbn [INR]; field).
  replace (deg (0 + INR 7 * (180 / INR 4))) with (PI / 4 + PI + PI / 2) by (unfold deg; cbn [INR]; field).
  repeat rewrite ?cos_plus, ?sin_plus. rewrite cos_PI, sin_PI, cos_PI2, sin_PI2, C, S. repeat (apply f_equal2; [vext; lra|]). reflexivity.
Qed.
Theorem C75_refuted : exists (n : nat) (r1 r2 : R) (c : pt) (a : R) (p : poly R), poly_star n r1 r2 c a = Ok p /\ fst (get_is_simple p) = Ok true /\
  some_far_edges (pverts p) meet /\ fst (get_is_simple (poly_from_points (pverts p))) = Ok false.
Proof.
  exists 4%nat, 0, (- sqrt 2), (mkV 0 0), 0. assert (K : 0 < sqrt 2) by (apply sqrt_lt_R0; lra). eexists. split; [|split; [|split]].
  - unfold poly_star. cbn [Nat.ltb Nat.leb]. rewrite (star_step 4) by lia. cbn [bind].
    assert (EV : star_verts 4 (mkV 0 0) 0 (- sqrt 2) 0 (180 / INR 4) = map zv pinched) by (rewrite star_verts_R, <- pinched_points; reflexivity). rewrite EV. rnum.
    replace (Rltb 0 0) with false by (symmetry; apply Rltb_false; lra). replace (Rltb 0 (- sqrt 2)) with false by (symmetry; apply Rltb_false; lra).
    replace (Rleb 0 0) with true by (symmetry; apply Rleb_true; lra). replace (Rleb 0 (- sqrt 2)) with false by (symmetry; apply Rleb_false; lra). replace (Reqb 0 (- sqrt 2)) with false by (destruct (Reqb_spec 0 (- sqrt 2)); [lra|reflexivity]).
    cbn [Bool.eqb andb]. unfold poly_new, seq_new. rewrite map_vec2_of_R. cbn [map length pinched Nat.ltb Nat.leb bind andb cleared pconvex psimple]. reflexivity.
  - reflexivity.
  - cbn [pverts]. change [zv (0, 0)%Z; zv (-1, -1)%Z; zv (0, 0)%Z; zv (1, -1)%Z; zv (0, 0)%Z; zv (1, 1)%Z; zv (0, 0)%Z; zv (-1, 1)%Z] with (map zv pinched).
    exists 1%nat, 3%nat, (zv (0, 0)%Z), (zv (-1, -1)%Z), (zv (0, 0)%Z), (zv (1, -1)%Z). split; [unfold far; cbn; lia|]. split; [split; reflexivity|]. split; [split; reflexivity|]. split.
    + exists (zv (0, 0)%Z). split; exists 0; (split; [lra|]); unfold between, zv; ug; cbn; vext; lra.
    + unfold zv. ug. cbn. lra.
  - cbn [pverts]. change [zv (0, 0)%Z; zv (-1, -1)%Z; zv (0, 0)%Z; zv (1, -1)%Z; zv (0, 0)%Z; zv (1, 1)%Z; zv (0, 0)%Z; zv (-1, 1)%Z] with (map zv pinched).
    change (poly_from_points (map zv pinched)) with (pfresh (map zv pinched)). destruct (simple_big (map zv pinched)) as (b & B & ->); [cbn; lia|].
    destruct (convex_answer (map zv pinched)) as (b' & d & k & E & F); [cbn; lia|]. rewrite B in F. injection F as <-. rewrite z_classify_core in E. vm_compute in E. injection E as <- _ _.
    rewrite z_check_is_simple. vm_compute. reflexivity.
Qed.
Print Assumptions C75_refuted.
Example C75_ex : exists p, poly_star 5 3 1 (mkV 0 0) 90 = Ok p /\ fst (get_is_simple p) = Ok true /\ fst (get_is_simple (poly_from_points (pverts p))) = Ok true.
Proof. destruct (C75_positive_partial 5 3 1 (mkV 0 0) 90) as (p & E & S1 & _ & S2); [lia|lra|lra|]. eauto. Qed.
