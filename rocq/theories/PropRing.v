(** * Property C115: regular polygons and stars on doubles *)
From Coq Require Import ZArith List Bool Reals Lra Lia Floats SpecFloat.
From Flocq Require Import Core IEEE754.PrimFloat IEEE754.BinarySingleNaN.
From Verif Require Import Num NumFloat Vec Affine Seq Polygon OrdLaws SpecGeom SpecRegular SpecTangent RBase VecFacts2 RegularFacts FloatFacts FloatFacts2 FloatFacts3 FloatVec SpecExact RelPoly FloatExact IntExact FloatErr FloatErr2 SpecRot RotFacts IdealLib SpecRing RingF RingConvex PropRot PropTurn.
Import ListNotations.
Local Open Scope R_scope.

Lemma map_id_f (L : FloatLib) (l : list (vec PrimFloat.float)) : map (vec2_of (N := FNum L)) l = l.
Proof. induction l as [|v l IH]; [reflexivity|]. cbn [map]. rewrite IH. f_equal. apply (vec2_of_id L). Qed.
Lemma lit_pos n : (2 <= n)%nat -> (Z.of_nat n <= 65536)%Z -> finite (float_of_Z (Z.of_nat n)) /\ toR (float_of_Z (Z.of_nat n)) = INR n /\ PrimFloat.eqb (float_of_Z (Z.of_nat n)) 0 = false.
Proof.
  intros H1 H2. destruct (float_of_Z_exact (Z.of_nat n) ltac:(lia)) as [F V]. rewrite <- INR_IZR_INZ in V. split; [exact F|]. split; [exact V|]. destruct (float_of_Z_exact 0 ltac:(lia)) as [F0 V0]. change (float_of_Z 0) with 0%float in *.
  rewrite toR_eq, V, V0 by auto. unfold Reqb. destruct (Req_EM_T (INR n) 0) as [E|E]; auto. assert (0 < INR n) by (apply lt_0_INR; lia). lra.
Qed.
Lemma step_apx z n : (180 <= z <= 360)%Z -> (2 <= n)%nat -> (Z.of_nat n <= 65536)%Z -> apx (float_of_Z z / float_of_Z (Z.of_nat n))%float (IZR z / INR n) (2 * runit * (IZR z / INR n)).
Proof.
  intros Hz H1 H2. destruct (lit_pos n H1 H2) as (Fn & Vn & _). destruct (float_of_Z_exact z ltac:(lia)) as [Fz Vz].
  assert (N0 : 2 <= INR n) by (replace 2 with (INR 2) by (cbn; lra); apply le_INR; exact H1). assert (N1 : INR n <= 65536) by (rewrite INR_IZR_INZ; apply IZR_le; lia).
  assert (Z0 : 180 <= IZR z <= 360) by (split; apply IZR_le; lia).
  assert (Q : / 1048576 <= IZR z / INR n <= 360).
  { split; apply (Rmult_le_reg_r (INR n)); try lra; replace (IZR z / INR n * INR n) with (IZR z) by (field; lra); [lra|nra]. }
  destruct (fdiv_toR (float_of_Z z) (float_of_Z (Z.of_nat n)) Fz) as [F V]; [rewrite Vn; lra|rewrite Vz, Vn; apply big; rewrite Rabs_pos_eq; lra|]. split; [exact F|]. rewrite V, Vz, Vn.
  eapply Rle_trans; [apply frnd_err|]. rewrite Rabs_pos_eq by lra. pose proof tiny_runit. pose proof runit_pos. assert (runit * / 1048576 <= runit * (IZR z / INR n)) by (apply Rmult_le_compat_l; lra). lra.
Qed.
Lemma big_le x : Rabs (toR x) <= bpow radix2 990 -> Rabs (toR x) <= huge / 16.
Proof. intro H. apply mid_huge in H. pose proof huge_pos. lra. Qed.
Lemma start_apx a sg : finite a -> apx a (toR a + INR 0 * sg) (ang_err (toR a) sg 0).
Proof. intro F. split; [exact F|]. unfold ang_err. cbn [INR]. replace (toR a - (toR a + 0 * sg)) with 0 by ring. rewrite Rabs_R0. lra. Qed.

(** The vertices of [Polygon.regular]: each within [ring_err] of its exact place. *)
Theorem C115_regular : forall (L : FloatLib) (n : nat) (r : PrimFloat.float) (c : vec PrimFloat.float) (a : PrimFloat.float), trig_ok L ->
  (3 <= n)%nat -> (Z.of_nat n <= 65536)%Z -> finite r -> Rabs (toR r) <= bpow radix2 990 -> mid_vec c -> finite a -> Rabs (toR a) <= 65536 -> let N := FNum L in
  exists p, poly_regular n r c a = Ok p /\
    Forall2 (fun w q => close_vec w q (ring_err n (toR a) (Rabs (toR r)) (vecR c))) (pverts p) (regular_points n (toR r) (vecR c) (toR a)) /\
    fst (get_is_convex p) = Ok true /\ fst (get_centroid p) = Ok (Some c).
Proof.
  intros L n r c a HL H1 H2 Fr Br (Fc & Bx & By) Fa Ba N. destruct (lit_pos n ltac:(lia) H2) as (Fn & Vn & En).
  destruct (regular_ok (N := N) n r c a H1 En) as (p & E & EV & EC & ES & EM). exists p. split; [exact E|]. split; [|split].
  - rewrite EV. unfold N. rewrite map_id_f. fold N. rewrite (regular_ring _ _ _ _ 0).
    assert (N0 : 3 <= INR n) by (replace 3 with (INR 3) by (cbn; lra); apply le_INR; exact H1).
    apply (ring_close L HL n (toR a) (360 / INR n) _ (fun _ => r) (Rabs (toR r)) c); auto.
    + rewrite INR_IZR_INZ. apply IZR_le. lia.
    + split; [left; apply Rdiv_lt_0_compat; lra|field; lra].
    + apply (step_apx 360 n); lia.
    + intro i. split; [exact Fr|lra].
    + apply big_le, Br.
    + split; apply big_le; assumption.
    + apply start_apx, Fa.
  - unfold get_is_convex. rewrite EC. reflexivity.
  - unfold get_centroid. rewrite EM. cbn [fst]. unfold N. rewrite (vec2_of_id L). reflexivity.
Qed.
Print Assumptions C115_regular.

(** The vertices of [Polygon.star]. *)
Theorem C115_star : forall (L : FloatLib) (n : nat) (r1 r2 : PrimFloat.float) (c : vec PrimFloat.float) (a : PrimFloat.float), trig_ok L ->
  (2 <= n)%nat -> (Z.of_nat n <= 32768)%Z -> finite r1 -> finite r2 -> Rabs (toR r1) <= bpow radix2 990 -> Rabs (toR r2) <= bpow radix2 990 -> mid_vec c -> finite a -> Rabs (toR a) <= 65536 -> let N := FNum L in
  exists p, poly_star n r1 r2 c a = Ok p /\
    Forall2 (fun w q => close_vec w q (ring_err (2 * n) (toR a) (Rmax (Rabs (toR r1)) (Rabs (toR r2))) (vecR c))) (pverts p) (star_points n (toR r1) (toR r2) (vecR c) (toR a)).
Proof.
  intros L n r1 r2 c a HL H1 H2 F1 F2 B1 B2 (Fc & Bx & By) Fa Ba N. destruct (lit_pos n ltac:(lia) ltac:(lia)) as (Fn & Vn & En).
  destruct (star_ok (N := N) n r1 r2 c a H1 En) as (p & E & EV & EC). exists p. split; [exact E|].
  rewrite EV. unfold N. rewrite map_id_f. fold N. rewrite (star_ring _ _ _ _ _ 0) by reflexivity.
  assert (N0 : 2 <= INR n) by (replace 2 with (INR 2) by (cbn; lra); apply le_INR; exact H1).
  assert (EP : star_points n (toR r1) (toR r2) (vecR c) (toR a) = map (fun j => polar_at (vecR c) (toR (if Nat.even j then r1 else r2)) (toR a + INR j * (180 / INR n))) (seq 0 (2 * n))).
  { unfold star_points. apply map_ext. intro j. destruct (Nat.even j); reflexivity. }
  rewrite EP. apply (ring_close L HL (2 * n) (toR a) (180 / INR n) _ (fun j => if Nat.even j then r1 else r2) (Rmax (Rabs (toR r1)) (Rabs (toR r2))) c); auto.
  - rewrite INR_IZR_INZ. apply IZR_le. lia.
  - split; [left; apply Rdiv_lt_0_compat; lra|]. rewrite mult_INR. cbn [INR]. field. lra.
  - apply (step_apx 180 n); lia.
  - intro i. destruct (Nat.even i); (split; [assumption|]); [apply Rmax_l|apply Rmax_r].
  - apply big_le in B1, B2. apply Rmax_lub; assumption.
  - split; apply big_le; assumption.
  - apply start_apx, Fa.
Qed.
Print Assumptions C115_star.

(** The answer is_convex = True is right about the stored doubles, as long as
    the error is below the [n^3]-th part of the radius. *)
Theorem C115_convex : forall (L : FloatLib) (n : nat) (r : PrimFloat.float) (c : vec PrimFloat.float) (a : PrimFloat.float), trig_ok L ->
  (3 <= n)%nat -> (Z.of_nat n <= 65536)%Z -> finite r -> Rabs (toR r) <= bpow radix2 990 -> mid_vec c -> finite a -> Rabs (toR a) <= 65536 ->
  INR n * INR n * INR n * ring_err n (toR a) (Rabs (toR r)) (vecR c) <= Rabs (toR r) -> let N := FNum L in
  exists p, poly_regular n r c a = Ok p /\ strictly_convex 1 (map vecR (pverts p)) /\ fst (get_is_convex p) = Ok true /\ fst (get_is_simple p) = Ok true.
Proof.
  intros L n r c a HL H1 H2 Fr Br Hc Fa Ba HE N. destruct (C115_regular L n r c a HL H1 H2 Fr Br Hc Fa Ba) as (p & E & HF & EC & EM). fold N in E, EC, EM. exists p. split; [exact E|]. split; [|split; [exact EC|]].
  - apply (moved_convex n (toR r) (vecR c) (toR a) H1 _ (ring_err n (toR a) (Rabs (toR r)) (vecR c))); [|exact HE|].
    + unfold ring_err. pose proof (bpow_gt_0 radix2 (-1075)). pose proof (bpow_gt_0 radix2 (-53)). pose proof (norm_nonneg (vecR c)) as NN. pose proof (Rabs_pos (toR r)). pose proof (Rabs_pos (toR a)). pose proof (pos_INR n).
      assert (0 <= (90 + 2 * (INR n + 2) * (Rabs (toR a) + 361) / 45) * Rabs (toR r)). { apply Rmult_le_pos; [|lra]. assert (0 <= (INR n + 2) * (Rabs (toR a) + 361)) by (apply Rmult_le_pos; lra). lra. }
      assert (0 <= bpow radix2 (-53) * ((90 + 2 * (INR n + 2) * (Rabs (toR a) + 361) / 45) * Rabs (toR r) + 2 * norm (vecR c))) by (apply Rmult_le_pos; lra). lra.
    + clear - HF. induction HF as [|x y l l' H _ IH]; cbn [map]; constructor; auto. apply H.
  - destruct (lit_pos n ltac:(lia) H2) as (Fn & Vn & En). destruct (regular_ok (N := N) n r c a H1 En) as (p' & E' & _ & _ & ES & _). rewrite E in E'. injection E' as <-. unfold get_is_simple. rewrite ES. reflexivity.
Qed.
Print Assumptions C115_convex.
(** 1000 vertices, radius 1, centre (3, -4), starting at -37.5 degrees: within the condition. *)
Example C115_convex_ex : trig_ok ideal_lib /\ mid_vec (mkV 3 (-4))%float /\ finite (-37.5)%float /\ Rabs (toR (-37.5)%float) <= 65536 /\
  INR 1000 * INR 1000 * INR 1000 * ring_err 1000 (toR (-37.5)%float) (Rabs (toR 1%float)) (vecR (mkV 3 (-4))%float) <= Rabs (toR 1%float).
Proof.
  destruct C114_ex as (T & _ & _ & M & _). split; [exact T|]. split; [exact M|]. split; [reflexivity|].
  assert (V3 : toR 3%float = 3) by exact (proj2 (float_of_Z_exact 3 ltac:(lia))). assert (V4 : toR (-4)%float = -4) by exact (proj2 (float_of_Z_exact (-4) ltac:(lia))). assert (V1 : toR 1%float = 1) by exact (proj2 (float_of_Z_exact 1 ltac:(lia))).
  assert (VA : toR (-37.5)%float = -75 / 2).
  { unfold toR. rewrite <- SF2R_B2SF, B2SF_Prim2B. replace (Prim2SF (-37.5)%float) with (S754_finite true 5277655813324800 (-47)) by (vm_compute; reflexivity). unfold SF2R, F2R. cbn [Fnum Fexp cond_Zopp Z.opp].
    replace (IZR (Z.neg 5277655813324800)) with (-75 * bpow radix2 46) by (cbn; lra). rewrite Rmult_assoc, <- bpow_plus. cbn. lra. }
  rewrite VA, V1. assert (RA : Rabs (-75 / 2) = 75 / 2) by (rewrite Rabs_left; lra). split; [rewrite RA; lra|].
  assert (NV : norm (vecR (mkV 3 (-4))%float) = 5) by (apply norm_unique; [lra|]; cbn [vecR vx vy]; rewrite V3, V4; lra).
  unfold ring_err. rewrite RA, NV, Rabs_R1. replace (INR 1000) with 1000 by (rewrite INR_IZR_INZ; reflexivity).
  assert (U : bpow radix2 (-53) <= / 9007199254740992) by (right; cbn; lra). assert (T0 : bpow radix2 (-1075) <= bpow radix2 (-53)) by (apply bpow_le; lia). lra.
Qed.

(** Without the condition the claim fails: a unit square around (2^60, 2^60)
    is four times the same point, and is said to be convex and simple. *)
Lemma right_lit d q : In (d, q) [(0%float, 0%nat); (90%float, 1%nat); (180%float, 2%nat); (270%float, 3%nat)] -> right_angle d q.
Proof.
  intro H. repeat (destruct H as [H|H]; [injection H as <- <-; split; [reflexivity|split; [lia|exists 0%Z; match goal with |- toR ?d = _ => first [exact (proj2 (float_of_Z_exact 0 ltac:(lia))) | exact (proj2 (float_of_Z_exact 90 ltac:(lia))) | exact (proj2 (float_of_Z_exact 180 ltac:(lia))) | exact (proj2 (float_of_Z_exact 270 ltac:(lia)))] end]]|]). destruct H.
Qed.
Theorem C115_far_center_refuted : exists c : vec PrimFloat.float, mid_vec c /\ forall L : FloatLib, right_lib L -> let N := FNum L in
  exists p, poly_regular 4 1%float c 0%float = Ok p /\ pverts p = [c; c; c; c] /\ fst (get_is_convex p) = Ok true /\ fst (get_is_simple p) = Ok true /\ ~ strictly_convex 1 (map vecR (pverts p)).
Proof.
  exists (mkV 0x1p60 0x1p60)%float. split.
  { split; [split; reflexivity|]. assert (V : toR 0x1p60%float = bpow radix2 60).
    { unfold toR. rewrite <- SF2R_B2SF, B2SF_Prim2B. replace (Prim2SF 0x1p60%float) with (S754_finite false 4503599627370496 8) by (vm_compute; reflexivity). unfold SF2R, F2R. cbn [Fnum Fexp cond_Zopp]. change (IZR (Z.pos 4503599627370496)) with (bpow radix2 52). rewrite <- bpow_plus. reflexivity. }
    cbn [vx vy]. rewrite V, Rabs_pos_eq by apply bpow_ge_0. split; apply bpow_le; lia. }
  intros L HL N. destruct (regular_ok (N := N) 4 1%float (mkV 0x1p60 0x1p60)%float 0%float ltac:(lia) ltac:(vm_compute; reflexivity)) as (p & E & EV & EC & ES & _). exists p. split; [exact E|].
  assert (EP : pverts p = [mkV 0x1p60 0x1p60; mkV 0x1p60 0x1p60; mkV 0x1p60 0x1p60; mkV 0x1p60 0x1p60]%float).
  { rewrite EV. unfold N. rewrite map_id_f. fold N.
    replace (ndiv (nlit 360) (nlit (Z.of_nat 4))) with 90%float by (vm_compute; reflexivity).
    cbn [regular_verts].
    replace (nadd 0 90)%float with 90%float by (vm_compute; reflexivity). replace (nadd 90 90)%float with 180%float by (vm_compute; reflexivity). replace (nadd 180 90)%float with 270%float by (vm_compute; reflexivity).
    destruct (cos_sin_right L 0 0 HL (right_lit 0 0 ltac:(cbn; auto 10))) as (s & E0 & S0 & _). destruct (cos_sin_right L 90 1 HL (right_lit 90 1 ltac:(cbn; auto 10))) as (s1 & E1 & _ & S1). destruct (cos_sin_right L 180 2 HL (right_lit 180 2 ltac:(cbn; auto 10))) as (s2 & E2 & _ & S2). destruct (cos_sin_right L 270 3 HL (right_lit 270 3 ltac:(cbn; auto 10))) as (s3 & E3 & _ & S3).
    fold N in E0, E1, E2, E3. rewrite E0, E1, E2, E3. rewrite S1, S2, S3 by discriminate.
    destruct (zero_cases s) as [-> | ->]; [eapply same_is_zero; [exact S0|reflexivity]|vm_compute; reflexivity..]. }
  split; [exact EP|]. split; [unfold get_is_convex; rewrite EC; reflexivity|]. split; [unfold get_is_simple; rewrite ES; reflexivity|].
  rewrite EP. cbn [map]. intros (_ & _ & ND & _). inversion ND as [|x l HN _]. apply HN. left. reflexivity.
Qed.
Print Assumptions C115_far_center_refuted.
Example C115_far_center_ex : right_lib int_lib.
Proof. exact int_lib_right. Qed.
(** The hypotheses of [C115_regular] and [C115_star] at a hexagon and a five-pointed star. *)
Example C115_ex : trig_ok ideal_lib /\ (3 <= 6)%nat /\ (2 <= 5)%nat /\ (Z.of_nat 5 <= 32768)%Z /\ finite 1%float /\ finite 3%float /\ Rabs (toR 1%float) <= bpow radix2 990 /\ Rabs (toR 3%float) <= bpow radix2 990.
Proof.
  assert (V3 : toR 3%float = 3) by exact (proj2 (float_of_Z_exact 3 ltac:(lia))). assert (V1 : toR 1%float = 1) by exact (proj2 (float_of_Z_exact 1 ltac:(lia))).
  assert (B : 4 <= bpow radix2 990) by (change 4 with (bpow radix2 2); apply bpow_le; lia).
  split; [exact (proj1 C115_convex_ex)|]. repeat (split; [lia || reflexivity|]). rewrite V1, V3, !Rabs_pos_eq by lra. lra.
Qed.
