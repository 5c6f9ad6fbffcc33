(** * C123: point queries on triangles on doubles *)
From Coq Require Import ZArith List Bool Reals Lra Lia Psatz Floats.
From Flocq Require Import Core IEEE754.PrimFloat IEEE754.BinarySingleNaN.
From Verif Require Import Num NumFloat Vec Affine Box Seq Polygon Tangent PolyOps SpecPoly SpecGeom SpecExact SpecErr OrdLaws FloatFacts FloatFacts2 FloatFacts3 RelPoly FloatExact FloatVec
  FloatErr FloatErr2 FloatErr3 FloatErr4 FloatErr6 IntExact RBase VecFacts VecFacts2 SpecCycle PolyEq PolyCache PolyCache2 PolyCache3 PropErr PropCentroid.
Import ListNotations.
Local Open Scope R_scope.

(** ** Spec *)
(** The barycentric coordinates of q in the triangle a b c. *)
Definition bary (a b c q : pt) : list R := [orient b c q / orient a b c; orient c a q / orient a b c; orient a b q / orient a b c].
(** A scale whose fourth power is far from overflow and underflow. *)
Definition quart_scale (M : R) : Prop := bpow radix2 (-200) <= M <= bpow radix2 200.
(** How far from the edges, in barycentric coordinates, a query is safe. *)
Definition bary_margin (M : R) (a b c : pt) : R := margin (-39) (M * M * M * M / (orient a b c * orient a b c)).
(** The squared distance exceeds the squared tolerance beyond rounding. *)
Definition apart (M e2 : R) (a b : pt) : Prop := e2 + margin (-47) (M * M) <= dist a b * dist a b.

(** ** Facts *)
Lemma bary_swap a b c q : orient a b c <> 0 -> bary b a c q = [nth 1 (bary a b c q) 0; nth 0 (bary a b c q) 0; nth 2 (bary a b c q) 0].
Proof.
  intro H. unfold bary. cbn [nth].
  replace (orient b a c) with (- orient a b c) by (ug; ring). replace (orient a c q) with (- orient c a q) by (ug; ring). replace (orient c b q) with (- orient b c q) by (ug; ring). replace (orient b a q) with (- orient a b q) by (ug; ring).
  assert (D : forall x, - x / - orient a b c = x / orient a b c) by (intro x; field; exact H). rewrite !D. reflexivity.
Qed.
Lemma bary_turn a b c q : orient a b c <> 0 -> bary b c a q = [nth 1 (bary a b c q) 0; nth 2 (bary a b c q) 0; nth 0 (bary a b c q) 0].
Proof. intro H. unfold bary. cbn [nth]. replace (orient b c a) with (orient a b c) by (ug; ring). reflexivity. Qed.
Lemma bary_sum a b c q : orient a b c <> 0 -> orient b c q / orient a b c + orient c a q / orient a b c + orient a b q / orient a b c = 1.
Proof. intro H. replace 1 with (orient a b c / orient a b c) by (field; exact H). rewrite <- !Rdiv_plus_distr. f_equal. ug. ring. Qed.
Lemma dist_sq a b : dist a b * dist a b = (vx a - vx b) * (vx a - vx b) + (vy a - vy b) * (vy a - vy b).
Proof. unfold dist. rewrite norm_sq. reflexivity. Qed.
Lemma dist_comm a b : dist a b * dist a b = dist b a * dist b a.
Proof. rewrite !dist_sq. ring. Qed.

(** The final comparisons, on reals. *)
Lemma sum_inside w t us vs a b x y z : 0 < w -> w <= / 1048576 -> 0 <= t <= w -> 16384 * w <= us -> 16384 * w <= vs -> us + vs <= 1 - 16384 * w ->
  Rabs (a - us) <= 1315 * w -> Rabs (b - vs) <= 1315 * w -> Rabs (x - a) <= 1470 * w * Rabs a + t -> Rabs (y - b) <= 1470 * w * Rabs b + t ->
  Rabs (z - (x + y)) <= 64 * w * Rabs (x + y) -> 0 < x /\ 0 < y /\ z < 1.
Proof.
  intros W0 W1 [T0 T1] Hu Hv Hs Ha Hb Hx Hy Hz. apply abs_le2 in Ha, Hb.
  rewrite (Rabs_pos_eq a) in Hx by lra. rewrite (Rabs_pos_eq b) in Hy by lra. apply abs_le2 in Hx, Hy.
  assert (A1 : 1470 * w * a <= 1470 * / 1048576 * a) by (apply Rmult_le_compat_r; lra). assert (B1 : 1470 * w * b <= 1470 * / 1048576 * b) by (apply Rmult_le_compat_r; lra).
  assert (P1 : 0 < x) by lra. assert (P2 : 0 < y) by lra. split; [exact P1|]. split; [exact P2|].
  rewrite (Rabs_pos_eq (x + y)) in Hz by lra. apply abs_le2 in Hz.
  assert (S1 : 1470 * w * (a + b) <= 1470 * w * 1) by (apply Rmult_le_compat_l; lra).
  assert (S2 : x + y <= 1) by lra. assert (64 * w * (x + y) <= 64 * w * 1) by (apply Rmult_le_compat_l; lra). lra.
Qed.
Lemma sum_outside w t us vs a b x y z : 0 < w -> w <= / 1048576 -> 0 <= t <= w -> us <= - (16384 * w) \/ vs <= - (16384 * w) \/ 1 + 16384 * w <= us + vs ->
  Rabs (a - us) <= 1315 * w -> Rabs (b - vs) <= 1315 * w -> Rabs (x - a) <= 1470 * w * Rabs a + t -> Rabs (y - b) <= 1470 * w * Rabs b + t ->
  Rabs (z - (x + y)) <= 64 * w * Rabs (x + y) -> x < 0 \/ y < 0 \/ 1 < z.
Proof.
  intros W0 W1 [T0 T1] HO Ha Hb Hx Hy Hz. apply abs_le2 in Ha, Hb.
  assert (NEG : forall s c e, s <= - (16384 * w) -> - (1315 * w) <= c - s <= 1315 * w -> Rabs (e - c) <= 1470 * w * Rabs c + t -> e < 0).
  { intros s c e H1 H2 H3. rewrite (Rabs_left c) in H3 by lra. apply abs_le2 in H3. assert (1470 * w * - c <= 1470 * / 1048576 * - c) by (apply Rmult_le_compat_r; lra). lra. }
  destruct (Rle_dec us (- (16384 * w))) as [U|U]; [left; apply (NEG us a x); auto; lra|].
  destruct (Rle_dec vs (- (16384 * w))) as [V|V]; [right; left; apply (NEG vs b y); auto; lra|].
  right; right. assert (HS : 1 + 16384 * w <= us + vs) by (destruct HO as [HO|[HO|HO]]; lra).
  assert (AA : Rabs a <= a + 35400 * w) by (unfold Rabs; destruct Rcase_abs; lra). assert (BB : Rabs b <= b + 35400 * w) by (unfold Rabs; destruct Rcase_abs; lra).
  assert (A1 : 1470 * w * Rabs a <= 1470 * w * (a + 35400 * w)) by (apply Rmult_le_compat_l; lra). assert (B1 : 1470 * w * Rabs b <= 1470 * w * (b + 35400 * w)) by (apply Rmult_le_compat_l; lra).
  apply abs_le2 in Hx, Hy.
  assert (WW : w * w <= / 1048576 * w) by (apply Rmult_le_compat_r; lra).
  assert (SS : x + y >= (a + b) * (1 - 1470 * w) - 102 * w) by lra.
  assert (S2 : (1 + 13754 * w) * (1 - 1470 * w) <= (a + b) * (1 - 1470 * w)) by (apply Rmult_le_compat_r; lra).
  assert (S3 : 1 + 12000 * w <= x + y) by lra.
  rewrite (Rabs_pos_eq (x + y)) in Hz by lra. apply abs_le2 in Hz.
  assert (S4 : (1 + 12000 * w) * (1 - 64 * w) <= (x + y) * (1 - 64 * w)) by (apply Rmult_le_compat_r; lra). lra.
Qed.

Section Tri.
  Context (L : FloatLib) (M : R) (HM : quart_scale M).
  Let u := runit. Let m2 := M * M. Let m4 := M * M * M * M.
  Lemma quart_mid : mid_scale M.
  Proof using HM. destruct HM as [H1 H2]. split; [eapply Rle_trans; [|exact H1]|eapply Rle_trans; [exact H2|]]; apply bpow_le; lia. Qed.
  Lemma m4_sq : m4 = m2 * m2. Proof using. unfold m4, m2. ring. Qed.
  Lemma m4_pos : 0 < m4. Proof using HM. rewrite m4_sq. pose proof (m2_pos M quart_mid) as P. fold m2 in P. nra. Qed.
  Lemma m4_bounds : bpow radix2 (-800) <= m4 <= bpow radix2 800.
  Proof using HM.
    destruct HM as [H1 H2]. pose proof (bpow_gt_0 radix2 (-200)) as P. pose proof (M_pos M quart_mid) as PM.
    assert (A1 : bpow radix2 (-200) * bpow radix2 (-200) <= m2) by (unfold m2; apply Rmult_le_compat; lra).
    assert (A2 : m2 <= bpow radix2 200 * bpow radix2 200) by (unfold m2; apply Rmult_le_compat; lra).
    rewrite <- bpow_plus in A1, A2. cbn [Z.add Pos.add] in A1, A2. pose proof (bpow_gt_0 radix2 (-200 + -200)) as P2. rewrite m4_sq. split.
    - replace (-800)%Z with ((-200 + -200) + (-200 + -200))%Z by lia. rewrite bpow_plus. apply Rmult_le_compat; lra || exact A1.
    - replace 800%Z with ((200 + 200) + (200 + 200))%Z by lia. rewrite bpow_plus. apply Rmult_le_compat; (exact A2 || (apply Rlt_le; eapply Rlt_le_trans; [exact P2|exact A1])).
  Qed.
  Lemma m4_big : 1048576 * m4 <= huge.
  Proof using HM. destruct m4_bounds as [_ H]. change 1048576 with (bpow radix2 20). apply Rle_trans with (bpow radix2 20 * bpow radix2 800); [apply Rmult_le_compat_l; [apply bpow_ge_0|exact H]|]. rewrite <- bpow_plus. unfold huge. apply bpow_le. lia. Qed.
  Lemma m4_tiny : 1024 * tiny <= u * m4.
  Proof using HM. destruct m4_bounds as [H _]. apply Rle_trans with (u * bpow radix2 (-800)); [|apply Rmult_le_compat_l; [apply Rlt_le, runit_pos|exact H]]. unfold u, runit, tiny. change 1024 with (bpow radix2 10). rewrite <- !bpow_plus. apply bpow_le. lia. Qed.

  (** A difference of two positions in range. *)
  Definition edge (v : vec PrimFloat.float) (w : pt) : Prop := near_vec v w (2 * (u * M)) /\ Rabs (vx w) <= 2 * M /\ Rabs (vy w) <= 2 * M.
  Lemma edge_sub a b : within M a -> within M b -> edge (vsub (N := FNum L) a b) (psub (vecR a) (vecR b)).
  Proof using HM.
    intros Ha Hb. apply in_range_of in Ha, Hb. destruct Ha as [A1 A2], Hb as [B1 B2].
    destruct (diff_near M quart_mid _ _ _ _ A1 B1) as [D1 D2], (diff_near M quart_mid _ _ _ _ A2 B2) as [D3 D4]. split; [split; [exact D1|exact D3]|]. split; [exact D2|exact D4].
  Qed.
  Lemma edge_dot v w v' w' : edge v v' -> edge w w' -> apx (vx v * vx w + vy v * vy w)%float (pdot v' w') (33 * (u * m2)) /\ Rabs (pdot v' w') <= 8 * m2.
  Proof using HM.
    intros ((A1 & A2) & A3 & A4) ((B1 & B2) & B3 & B4).
    destruct (um_facts M quart_mid) as (U0 & U1 & U2 & U3 & U4 & U5 & U6 & U7). destruct (m_big M quart_mid) as (G1 & G2 & G3). destruct (m_tiny M quart_mid) as (T1 & T2 & T3).
    pose proof (M_pos M quart_mid) as PM. pose proof (m2_pos M quart_mid) as P2. pose proof tiny_pos as PT. fold m2 in G1, T1, P2, U3, U6. fold u in U0, U1, U2, U3, U4, U5, U6, U7, T1, T2, T3.
    assert (P : forall f g x y, apx f x (2 * (u * M)) -> apx g y (2 * (u * M)) -> Rabs x <= 2 * M -> Rabs y <= 2 * M -> apx (f * g)%float (x * y) (12.2 * (u * m2)) /\ Rabs (x * y) <= 4 * m2).
    { intros f g x y D1 E1 D2 E2. split.
      - eapply apx_weak; [apply (apx_mul _ _ _ _ _ _ (2.01 * M) (2.01 * M) D1 E1); try lra|].
        + replace (2.01 * M * (2.01 * M)) with (4.0401 * m2) by (unfold m2; lra). lra.
        + fold u. replace (2 * (u * M) * (2.01 * M) + 2.01 * M * (2 * (u * M)) + u * (2.01 * M * (2.01 * M)) + tiny) with (12.0801 * (u * m2) + tiny) by (unfold m2; lra). lra.
      - replace (4 * m2) with (2 * M * (2 * M)) by (unfold m2; ring). apply abs_mul_le; auto. }
    destruct (P _ _ _ _ A1 B1 A3 B3) as [P1 Q1], (P _ _ _ _ A2 B2 A4 B4) as [P3 Q3]. unfold pdot.
    assert (B : Rabs (vx v' * vx w' + vy v' * vy w') <= 8 * m2) by (eapply Rle_trans; [apply Rabs_triang|lra]).
    split; [|exact B]. eapply apx_weak; [apply (apx_add _ _ _ _ _ _ (8.1 * m2) P1 P3); lra|]. fold u. replace (u * (8.1 * m2)) with (8.1 * (u * m2)) by lra. lra.
  Qed.
  Lemma quad_near p q r s p' q' r' s' :
    apx p p' (33 * (u * m2)) /\ Rabs p' <= 8 * m2 -> apx q q' (33 * (u * m2)) /\ Rabs q' <= 8 * m2 -> apx r r' (33 * (u * m2)) /\ Rabs r' <= 8 * m2 -> apx s s' (33 * (u * m2)) /\ Rabs s' <= 8 * m2 ->
    apx (p * q - r * s)%float (p' * q' - r' * s') (1315 * (u * m4)) /\ Rabs (p' * q' - r' * s') <= 128 * m4.
  Proof using HM.
    intros [A1 A2] [B1 B2] [C1 C2] [D1 D2].
    destruct (um_facts M quart_mid) as (U0 & U1 & U2 & U3 & U4 & U5 & U6 & U7). pose proof (m2_pos M quart_mid) as P2. pose proof m4_pos as P4. pose proof m4_big as G4. pose proof m4_tiny as T4. fold m2 in P2, U3, U6. fold u in U0, U1, U3, U6.
    pose proof tiny_pos as PT. assert (U8 : u * m4 <= m4 / 1048576) by nra. assert (U9 : 0 < u * m4) by nra.
    assert (P : forall f g x y, apx f x (33 * (u * m2)) -> apx g y (33 * (u * m2)) -> Rabs x <= 8 * m2 -> Rabs y <= 8 * m2 -> apx (f * g)%float (x * y) (593 * (u * m4)) /\ Rabs (x * y) <= 64 * m4).
    { intros f g x y X1 Y1 X2 Y2. split.
      - eapply apx_weak; [apply (apx_mul _ _ _ _ _ _ (8.01 * m2) (8.01 * m2) X1 Y1); try lra|].
        + replace (8.01 * m2 * (8.01 * m2)) with (64.1601 * m4) by (rewrite m4_sq; lra). lra.
        + fold u. replace (33 * (u * m2) * (8.01 * m2) + 8.01 * m2 * (33 * (u * m2)) + u * (8.01 * m2 * (8.01 * m2)) + tiny) with (592.8201 * (u * m4) + tiny) by (rewrite m4_sq; lra). lra.
      - rewrite m4_sq. replace (64 * (m2 * m2)) with (8 * m2 * (8 * m2)) by ring. apply abs_mul_le; auto. }
    destruct (P _ _ _ _ A1 B1 A2 B2) as [P1 Q1], (P _ _ _ _ C1 D1 C2 D2) as [P3 Q3].
    assert (B : Rabs (p' * q' - r' * s') <= 128 * m4) by (unfold Rminus; eapply Rle_trans; [apply Rabs_triang|]; rewrite Rabs_Ropp; lra).
    split; [|exact B]. eapply apx_weak; [apply (apx_sub _ _ _ _ _ _ (128.1 * m4) P1 P3); lra|]. fold u. replace (u * (128.1 * m4)) with (128.1 * (u * m4)) by lra. lra.
  Qed.

  (** The reciprocal and the two coordinates. *)
  Lemma inv_near dn D (w := u * m4 / D) : apx dn D (1315 * (u * m4)) -> 1048576 * (u * m4) <= D -> D <= 64 * m4 ->
    0 < w /\ w <= / 1048576 /\ u <= 64 * w /\ tiny <= w /\ 0 < toR dn /\ finite (1 / dn)%float /\ Rabs (toR (1 / dn)%float * D - 1) <= 1400 * w.
  Proof using HM.
    intros [F H] H1 H2. pose proof m4_pos as P4. pose proof m4_big as G4. pose proof m4_tiny as T4. pose proof tiny_pos as PT.
    pose proof runit_pos as U0. pose proof runit_small as U1. fold u in U0, U1.
    assert (U9 : 0 < u * m4) by nra. assert (PD : 0 < D) by lra. apply abs_le2 in H.
    assert (W0 : 0 < w) by (unfold w; apply Rdiv_lt_0_compat; lra).
    assert (WD : w * D = u * m4) by (unfold w; field; lra).
    assert (W1 : w <= / 1048576) by (apply (Rmult_le_reg_r D); [lra|]; rewrite WD; lra).
    assert (UW : u <= 64 * w). { apply (Rmult_le_reg_r D); [lra|]. rewrite Rmult_assoc, WD. apply Rle_trans with (u * (64 * m4)); [apply Rmult_le_compat_l; lra|]. lra. }
    assert (TB : tiny * (1 + D) <= w).
    { apply Rle_trans with (u / 64); [|lra]. destruct m4_bounds as [_ HB]. pose proof (bpow_le radix2 0 806 ltac:(lia)) as B1. change (bpow radix2 0) with 1 in B1.
      assert (B2 : 64 * m4 <= bpow radix2 806). { change 64 with (bpow radix2 6). replace 806%Z with (6 + 800)%Z by lia. rewrite bpow_plus. apply Rmult_le_compat_l; [apply bpow_ge_0|exact HB]. }
      apply Rle_trans with (tiny * (2 * bpow radix2 806)); [apply Rmult_le_compat_l; lra|]. change 2 with (bpow radix2 1) at 1. unfold u, runit, tiny. replace (bpow radix2 (-53) / 64) with (bpow radix2 (-53) * bpow radix2 (-6)) by (unfold Rdiv; f_equal; cbn; lra).
      rewrite <- !bpow_plus. apply bpow_le. lia. }
    assert (TW : tiny <= w) by nra.
    assert (Pd : 0.99 * D <= toR dn) by lra. assert (Pd0 : 0 < toR dn) by lra.
    assert (One : finite 1%float /\ toR 1 = 1) by (split; [reflexivity|vm_compute; lra]). destruct One as [O1 O2].
    assert (IV : 0 < 1 / toR dn) by (apply Rdiv_lt_0_compat; lra).
    assert (ID : Rabs (1 / toR dn * D - 1) <= 1330 * w).
    { replace (1 / toR dn * D - 1) with ((D - toR dn) / toR dn) by (field; lra). unfold Rdiv. rewrite Rabs_mult, (Rabs_pos_eq (/ toR dn)) by (apply Rlt_le, Rinv_0_lt_compat; lra).
      apply (Rmult_le_reg_r (toR dn)); [lra|]. rewrite Rmult_assoc, Rinv_l, Rmult_1_r by lra.
      apply Rle_trans with (1315 * (u * m4)); [apply Rabs_le; lra|]. apply Rle_trans with (1330 * w * (0.99 * D)); [|apply Rmult_le_compat_l; lra].
      replace (1330 * w * (0.99 * D)) with (1316.7 * (w * D)) by lra. rewrite WD. lra. }
    assert (IB : 1 / toR dn * D <= 1.01) by (apply abs_le2 in ID; lra).
    assert (HB : Rabs (toR 1 / toR dn) <= huge).
    { rewrite O2, Rabs_pos_eq by lra. apply (Rmult_le_reg_r D); [lra|]. apply Rle_trans with 1.01; [exact IB|].
      assert (Q : bpow radix2 (-853) <= u * m4) by (destruct m4_bounds as [HB _]; replace (-853)%Z with (-53 + -800)%Z by lia; rewrite bpow_plus; apply Rmult_le_compat_l; [apply bpow_ge_0|exact HB]).
      assert (Q2 : 2 <= huge * bpow radix2 (-853)) by (unfold huge; rewrite <- bpow_plus; apply Rle_trans with (bpow radix2 1); [cbn; lra|apply bpow_le; lia]).
      apply Rle_trans with (huge * bpow radix2 (-853)); [lra|]. apply Rmult_le_compat_l; [unfold huge; apply bpow_ge_0|lra]. }
    destruct (fdiv_toR 1 dn O1 ltac:(lra) HB) as [F1 V1]. split; [exact W0|]. split; [exact W1|]. split; [exact UW|]. split; [exact TW|]. split; [exact Pd0|]. split; [exact F1|].
    rewrite V1, O2. pose proof (frnd_err (1 / toR dn)) as R1. fold u in R1. rewrite (Rabs_pos_eq (1 / toR dn)) in R1 by lra.
    replace (frnd (1 / toR dn) * D - 1) with ((frnd (1 / toR dn) - 1 / toR dn) * D + (1 / toR dn * D - 1)) by ring.
    eapply Rle_trans; [apply Rabs_triang|]. rewrite Rabs_mult, (Rabs_pos_eq D) by lra.
    assert (R2 : Rabs (frnd (1 / toR dn) - 1 / toR dn) * D <= (u * (1 / toR dn) + tiny) * D) by (apply Rmult_le_compat_r; lra).
    assert (R3 : u * (1 / toR dn * D) <= u * 1.01) by (apply Rmult_le_compat_l; lra).
    assert (R4 : tiny * D <= w) by nra. lra.
  Qed.
  Lemma coord_near (nu inv : PrimFloat.float) D nu' (w := u * m4 / D) : apx nu nu' (1315 * (u * m4)) -> Rabs nu' <= 128 * m4 -> 1048576 * (u * m4) <= D -> 0 < w -> w <= / 1048576 -> u <= 64 * w ->
    finite inv -> Rabs (toR inv * D - 1) <= 1400 * w ->
    finite (nu * inv)%float /\ Rabs (toR nu / D - nu' / D) <= 1315 * w /\ Rabs (toR (nu * inv)%float - toR nu / D) <= 1470 * w * Rabs (toR nu / D) + tiny /\ Rabs (toR (nu * inv)%float) <= bpow radix2 100.
  Proof using HM.
    intros [F H] HB H1 W0 W1 UW Fi Hi. pose proof m4_pos as P4. pose proof tiny_pos as PT. pose proof runit_pos as U0. pose proof runit_small as U1. fold u in U0, U1.
    assert (U9 : 0 < u * m4) by nra. assert (PD : 0 < D) by lra. assert (ND : D <> 0) by lra.
    assert (WD : w * D = u * m4) by (unfold w; field; lra).
    set (a := toR nu / D). assert (Ea : toR nu = a * D) by (unfold a; field; exact ND).
    assert (E1 : toR nu * toR inv - a = a * (toR inv * D - 1)) by (rewrite Ea; ring).
    assert (B1 : Rabs (toR nu * toR inv - a) <= 1400 * w * Rabs a) by (rewrite E1, Rabs_mult, Rmult_comm; apply Rmult_le_compat_r; [apply Rabs_pos|exact Hi]).
    assert (B2 : Rabs (toR nu * toR inv) <= 1.01 * Rabs a).
    { replace (toR nu * toR inv) with (a + (toR nu * toR inv - a)) by ring. eapply Rle_trans; [apply Rabs_triang|]. assert (1400 * w * Rabs a <= 1400 * / 1048576 * Rabs a) by (apply Rmult_le_compat_r; [apply Rabs_pos|lra]). pose proof (Rabs_pos a). lra. }
    assert (B3 : Rabs a <= 129 * (m4 / D)).
    { unfold a, Rdiv. rewrite Rabs_mult, (Rabs_pos_eq (/ D)) by (apply Rlt_le, Rinv_0_lt_compat; lra). rewrite <- Rmult_assoc. apply Rmult_le_compat_r; [apply Rlt_le, Rinv_0_lt_compat; lra|].
      replace (toR nu) with (nu' + (toR nu - nu')) by ring. eapply Rle_trans; [apply Rabs_triang|]. assert (u * m4 <= m4 / 1048576) by nra. lra. }
    assert (B4 : m4 / D <= bpow radix2 40).
    { apply (Rmult_le_reg_r D); [lra|]. replace (m4 / D * D) with m4 by (field; lra). apply Rle_trans with (bpow radix2 40 * (1048576 * (u * m4))); [|apply Rmult_le_compat_l; [apply bpow_ge_0|lra]].
      replace (bpow radix2 40 * (1048576 * (u * m4))) with (bpow radix2 40 * bpow radix2 20 * u * m4) by (change (bpow radix2 20) with 1048576; ring). unfold u, runit. rewrite <- !bpow_plus. rewrite <- (Rmult_1_l m4) at 1. apply Rmult_le_compat_r; [lra|]. cbn; lra. }
    assert (B5 : 1.01 * Rabs a <= bpow radix2 60). { apply Rle_trans with (bpow radix2 20 * bpow radix2 40); [|rewrite <- bpow_plus; apply bpow_le; lia]. change (bpow radix2 20) with 1048576. pose proof (bpow_gt_0 radix2 40). lra. }
    assert (B6 : bpow radix2 60 <= huge) by (unfold huge; apply bpow_le; lia).
    destruct (fmul_toR nu inv F Fi ltac:(lra)) as [F1 V1]. split; [exact F1|].
    pose proof (frnd_err (toR nu * toR inv)) as R1. fold u in R1.
    assert (R2 : u * Rabs (toR nu * toR inv) <= u * (1.01 * Rabs a)) by (apply Rmult_le_compat_l; lra).
    assert (R3 : u * (1.01 * Rabs a) <= 64 * w * (1.01 * Rabs a)) by (apply Rmult_le_compat_r; [pose proof (Rabs_pos a); lra|exact UW]).
    split; [|split].
    - unfold a. replace (toR nu / D - nu' / D) with ((toR nu - nu') / D) by (field; exact ND). unfold Rdiv. rewrite Rabs_mult, (Rabs_pos_eq (/ D)) by (apply Rlt_le, Rinv_0_lt_compat; lra).
      unfold w, Rdiv. rewrite <- (Rmult_assoc 1315). apply Rmult_le_compat_r; [apply Rlt_le, Rinv_0_lt_compat; lra|lra].
    - rewrite V1. replace (frnd (toR nu * toR inv) - a) with ((frnd (toR nu * toR inv) - toR nu * toR inv) + (toR nu * toR inv - a)) by ring. eapply Rle_trans; [apply Rabs_triang|]. assert (0 <= w * Rabs a) by (apply Rmult_le_pos; [lra|apply Rabs_pos]). lra.
    - rewrite V1. replace (frnd (toR nu * toR inv)) with ((frnd (toR nu * toR inv) - toR nu * toR inv) + toR nu * toR inv) by ring. eapply Rle_trans; [apply Rabs_triang|].
      assert (T1 : tiny <= 1) by (unfold tiny; change 1 with (bpow radix2 0); apply bpow_le; lia). assert (T2 : 1 <= bpow radix2 60) by (change 1 with (bpow radix2 0); apply bpow_le; lia).
      apply Rle_trans with (bpow radix2 2 * bpow radix2 60); [|rewrite <- bpow_plus; apply bpow_le; lia]. change (bpow radix2 2) with 4. assert (u * (1.01 * Rabs a) <= 1.01 * Rabs a) by (pose proof (Rabs_pos a); nra). lra.
  Qed.

  Lemma tri_core (E : PrimFloat.float) (vs : list (vec PrimFloat.float)) lo mid hi q : sort_by (yx_ltb (N := FNum L)) vs = [lo; mid; hi] ->
    within M lo -> within M mid -> within M hi -> within M q -> finite (fl_pow2 L E) -> apart M (toR (fl_pow2 L E)) (vecR lo) (vecR mid) -> apart M (toR (fl_pow2 L E)) (vecR hi) (vecR mid) ->
    let K := orient (vecR lo) (vecR mid) (vecR hi) in margin (-33) m4 <= K * K ->
    exists c, tri_build (N := FNum L) E vs = Ok (Some c) /\
      (Forall (fun r => bary_margin M (vecR lo) (vecR mid) (vecR hi) <= r) (bary (vecR lo) (vecR mid) (vecR hi) (vecR q)) -> tri_eval (N := FNum L) c q = true) /\
      (Exists (fun r => r <= - bary_margin M (vecR lo) (vecR mid) (vecR hi)) (bary (vecR lo) (vecR mid) (vecR hi) (vecR q)) -> tri_eval (N := FNum L) c q = false).
  Proof using HM.
    intros HS Wl Wm Wh Wq FE A1 A2 K HK.
    pose proof (edge_sub _ _ Wl Wm) as V0. pose proof (edge_sub _ _ Wh Wm) as V1. pose proof (edge_sub _ _ Wq Wm) as V2.
    set (v0 := vsub (N := FNum L) lo mid) in *. set (v1 := vsub (N := FNum L) hi mid) in *. set (v2 := vsub (N := FNum L) q mid) in *.
    pose proof (edge_dot _ _ _ _ V0 V0) as D00. pose proof (edge_dot _ _ _ _ V1 V1) as D11. pose proof (edge_dot _ _ _ _ V0 V1) as D01. pose proof (edge_dot _ _ _ _ V0 V2) as D02. pose proof (edge_dot _ _ _ _ V1 V2) as D12.
    pose proof m4_pos as P4. pose proof runit_pos as U0. fold u in U0. pose proof (m2_pos M quart_mid) as P2. fold m2 in P2.
    assert (NN : forall v w, edge v (psub w (vecR mid)) -> apart M (toR (fl_pow2 L E)) w (vecR mid) -> is_null (N := FNum L) E v = false).
    { intros v w He Ha. destruct (edge_dot _ _ _ _ He He) as [[F H] _]. unfold is_null, length2. cbn [nltb nadd nmul npow2 FNum]. rewrite toR_lt by auto. apply Rltb_false.
      unfold apart in Ha. rewrite dist_sq in Ha. change (margin (-47) (M * M)) with (margin (6 - 53) (M * M)) in Ha. rewrite margin_unit in Ha by lia. change (IZR (2 ^ 6)) with 64 in Ha. fold u m2 in Ha.
      unfold pdot, psub in H. cbn [vx vy] in H. apply abs_le2 in H. assert (0 < u * m2) by nra. lra. }
    pose proof (NN _ _ V0 A1) as N0. pose proof (NN _ _ V1 A2) as N1. clear NN.
    destruct (quad_near _ _ _ _ _ _ _ _ D00 D11 D01 D01) as [DN _].
    destruct (quad_near _ _ _ _ _ _ _ _ D11 D02 D01 D12) as [NU BU]. destruct (quad_near _ _ _ _ _ _ _ _ D00 D12 D01 D02) as [NV BV].
    set (w0 := psub (vecR lo) (vecR mid)) in *. set (w1 := psub (vecR hi) (vecR mid)) in *. set (w2 := psub (vecR q) (vecR mid)) in *.
    assert (ED : pdot w0 w0 * pdot w1 w1 - pdot w0 w1 * pdot w0 w1 = K * K) by (unfold w0, w1, K; ug; ring).
    assert (EU : pdot w1 w1 * pdot w0 w2 - pdot w0 w1 * pdot w1 w2 = K * orient (vecR mid) (vecR hi) (vecR q)) by (unfold w0, w1, w2, K; ug; ring).
    assert (EV : pdot w0 w0 * pdot w1 w2 - pdot w0 w1 * pdot w0 w2 = K * orient (vecR lo) (vecR mid) (vecR q)) by (unfold w0, w1, w2, K; ug; ring).
    assert (BD : K * K <= 64 * m4).
    { rewrite <- ED. destruct D00 as [_ B0], D11 as [_ B1]. pose proof (abs_mul_le _ _ _ _ B0 B1) as B. replace (8 * m2 * (8 * m2)) with (64 * m4) in B by (rewrite m4_sq; ring). apply abs_le2 in B.
      assert (0 <= pdot w0 w1 * pdot w0 w1) by (pose proof (Rle_0_sqr (pdot w0 w1)) as Q; exact Q). lra. }
    rewrite ED in DN. rewrite EU in NU, BU. rewrite EV in NV, BV.
    change (margin (-33) m4) with (margin (20 - 53) m4) in HK. rewrite margin_unit in HK by lia. change (IZR (2 ^ 20)) with 1048576 in HK. fold u in HK.
    assert (U9 : 0 < u * m4) by nra. assert (NK : K <> 0) by (intro Z; rewrite Z in HK; lra).
    unfold tri_build. rewrite HS. cbv zeta. fold v0 v1. rewrite N0, N1. cbn [orb]. unfold dot, length2. cbn [nadd nmul nsub FNum].
    set (d00 := (vx v0 * vx v0 + vy v0 * vy v0)%float) in *. set (d11 := (vx v1 * vx v1 + vy v1 * vy v1)%float) in *. set (d01 := (vx v0 * vx v1 + vy v0 * vy v1)%float) in *.
    set (dn := (d00 * d11 - d01 * d01)%float) in *.
    destruct (inv_near dn (K * K) DN HK BD) as (W0 & W1 & UW & TW & Pd & Fi & Hi). set (w := u * m4 / (K * K)) in *.
    assert (Z0 : finite 0%float /\ toR 0 = 0) by (split; [reflexivity|apply toR_0]). destruct Z0 as [F0 V0'].
    assert (O0 : finite 1%float /\ toR 1 = 1) by (split; [reflexivity|vm_compute; lra]). destruct O0 as [F1 V1'].
    assert (Nz : PrimFloat.eqb dn 0 = false) by (destruct DN as [Fd _]; rewrite toR_eq, V0' by auto; unfold Reqb; destruct (Req_EM_T (toR dn) 0); [lra|reflexivity]).
    change (nfalsy (N := FNum L) dn) with (PrimFloat.eqb dn 0). rewrite Nz. unfold pydiv. change (neqb (Num := FNum L) dn n0) with (PrimFloat.eqb dn 0). rewrite Nz. cbn [bind ndiv FNum]. change (n1 (N := FNum L)) with 1%float.
    eexists. split; [reflexivity|]. unfold tri_eval. cbn [tc_mid tc_v0 tc_v1 tc_dot00 tc_dot01 tc_dot11 tc_inv tc_two]. cbv zeta. fold v2. unfold dot. cbn [nadd nmul nsub nltb nleb FNum]. change (n0 (N := FNum L)) with 0%float. change (n1 (N := FNum L)) with 1%float.
    set (d02 := (vx v0 * vx v2 + vy v0 * vy v2)%float) in *. set (d12 := (vx v1 * vx v2 + vy v1 * vy v2)%float) in *.
    set (nu := (d11 * d02 - d01 * d12)%float) in *. set (nv := (d00 * d12 - d01 * d02)%float) in *.
    destruct (coord_near nu (1 / dn)%float (K * K) _ NU BU HK W0 W1 UW Fi Hi) as (FU & U1 & U2 & U3). destruct (coord_near nv (1 / dn)%float (K * K) _ NV BV HK W0 W1 UW Fi Hi) as (FV & X1 & X2 & X3). fold w in U1, U2, X1, X2.
    set (fu := (nu * (1 / dn))%float) in *. set (fv := (nv * (1 / dn))%float) in *.
    assert (SB : Rabs (toR fu + toR fv) <= huge). { eapply Rle_trans; [apply Rabs_triang|]. apply Rle_trans with (bpow radix2 1 * bpow radix2 100); [change (bpow radix2 1) with 2; lra|]. rewrite <- bpow_plus. unfold huge. apply bpow_le. lia. }
    pose proof (apx_add fu fv _ _ 0 0 (Rabs (toR fu + toR fv)) (apx_exact _ FU) (apx_exact _ FV) ltac:(lra) SB) as [FS HZ]. fold u in HZ.
    assert (HZ' : Rabs (toR (fu + fv)%float - (toR fu + toR fv)) <= 64 * w * Rabs (toR fu + toR fv)).
    { eapply Rle_trans; [exact HZ|]. rewrite ?Rplus_0_l. apply Rmult_le_compat_r; [apply Rabs_pos|exact UW]. }
    assert (QU : K * orient (vecR mid) (vecR hi) (vecR q) / (K * K) = orient (vecR mid) (vecR hi) (vecR q) / K) by (field; exact NK).
    assert (QV : K * orient (vecR lo) (vecR mid) (vecR q) / (K * K) = orient (vecR lo) (vecR mid) (vecR q) / K) by (field; exact NK).
    rewrite QU in U1. rewrite QV in X1.
    pose proof (bary_sum (vecR lo) (vecR mid) (vecR hi) (vecR q) NK) as SUM.
    assert (MG : bary_margin M (vecR lo) (vecR mid) (vecR hi) = 16384 * w).
    { unfold bary_margin. fold K. fold m4. change (margin (-39) (m4 / (K * K))) with (margin (14 - 53) (m4 / (K * K))). rewrite margin_unit by lia. change (IZR (2 ^ 14)) with 16384. fold u. unfold w. unfold Rdiv. ring. }
    rewrite MG. unfold bary. fold K in SUM |- *.
    set (us := orient (vecR mid) (vecR hi) (vecR q) / K) in *. set (vs' := orient (vecR lo) (vecR mid) (vecR q) / K) in *. set (ws := orient (vecR hi) (vecR lo) (vecR q) / K) in *.
    pose proof tiny_pos as PT.
    match goal with |- context [if ?b then _ else _] => generalize b; intro two end.
    rewrite !toR_lt, !toR_le, V0', V1' by auto. clearbody us vs' ws w.
    split.
    - intro HF. rewrite !Forall_cons_iff in HF. destruct HF as (G1 & G2 & G3 & _).
      destruct (sum_inside w tiny us vs' _ _ _ _ _ W0 W1 ltac:(lra) G1 G3 ltac:(lra) U1 X1 U2 X2 HZ') as (S1 & S2 & S3).
      rewrite !(proj2 (Rltb_true _ _)), !(proj2 (Rleb_true _ _)) by lra. destruct two; reflexivity.
    - intro HF. assert (HO : us <= - (16384 * w) \/ vs' <= - (16384 * w) \/ 1 + 16384 * w <= us + vs').
      { rewrite !Exists_cons, Exists_nil in HF. destruct HF as [G|[G|[G|[]]]]; lra. }
      destruct (sum_outside w tiny us vs' _ _ _ _ _ W0 W1 ltac:(lra) HO U1 X1 U2 X2 HZ') as [S1|[S1|S1]].
      + rewrite (proj2 (Rltb_false 0 (toR fu))), (proj2 (Rleb_false 0 (toR fu))) by lra. destruct two; reflexivity.
      + rewrite (proj2 (Rltb_false 0 (toR fv))), (proj2 (Rleb_false 0 (toR fv))) by lra. rewrite !andb_false_r. destruct two; reflexivity.
      + rewrite (proj2 (Rltb_false (toR (fu + fv)%float) 1)), (proj2 (Rleb_false (toR (fu + fv)%float) 1)) by lra. rewrite !andb_false_r. destruct two; reflexivity.
  Qed.
End Tri.

(** Sorting three items gives them in one of the six orders. *)
Lemma sort_cases {X} (lt : X -> X -> bool) (Q : X -> X -> X -> Prop) a b c : Q a b c -> Q b a c -> Q a c b -> Q c a b -> Q b c a -> Q c b a ->
  exists x y z, sort_by lt [a; b; c] = [x; y; z] /\ Q x y z.
Proof.
  intros. unfold sort_by. cbn [fold_left insert_by].
  destruct (lt b a); cbn [insert_by]; [destruct (lt c b); [|destruct (lt c a)]|destruct (lt c a); [|destruct (lt c b)]]; do 3 eexists; split; eauto.
Qed.

(** The hypotheses do not depend on the order of the vertices. *)
Section Order.
  Context (M e2 : R) (q : pt) (I O : Prop).
  Definition ordered (a b c : vec PrimFloat.float) : Prop :=
    (within M a /\ within M b /\ within M c) /\ (apart M e2 (vecR a) (vecR b) /\ apart M e2 (vecR b) (vecR c) /\ apart M e2 (vecR c) (vecR a)) /\
    (orient (vecR a) (vecR b) (vecR c) <> 0 /\ margin (-33) (M * M * M * M) <= orient (vecR a) (vecR b) (vecR c) * orient (vecR a) (vecR b) (vecR c)) /\
    (I -> Forall (fun r => bary_margin M (vecR a) (vecR b) (vecR c) <= r) (bary (vecR a) (vecR b) (vecR c) q)) /\
    (O -> Exists (fun r => r <= - bary_margin M (vecR a) (vecR b) (vecR c)) (bary (vecR a) (vecR b) (vecR c) q)).
  Lemma apart_sym a b : apart M e2 a b -> apart M e2 b a.
  Proof using. unfold apart. rewrite (dist_comm b a). auto. Qed.
  Lemma ordered_swap a b c : ordered a b c -> ordered b a c.
  Proof using.
    intros ((A & B & C) & (D & E & F) & (NK & K) & HI & HO). assert (S0 : orient (vecR b) (vecR a) (vecR c) = - orient (vecR a) (vecR b) (vecR c)) by (ug; ring).
    assert (MG : bary_margin M (vecR b) (vecR a) (vecR c) = bary_margin M (vecR a) (vecR b) (vecR c)) by (unfold bary_margin; rewrite S0; do 2 f_equal; ring).
    unfold ordered. rewrite MG, (bary_swap (vecR a) (vecR b) (vecR c) q NK), S0. split; [auto|]. split; [auto using apart_sym|]. split; [split; [lra|rewrite Rmult_opp_opp; exact K]|].
    split; [intro H; specialize (HI H); unfold bary in HI; rewrite !Forall_cons_iff in HI; destruct HI as (G1 & G2 & G3 & _); unfold bary; cbn [nth]; rewrite !Forall_cons_iff; auto|].
    intro H. specialize (HO H). unfold bary in HO |- *. cbn [nth]. rewrite !Exists_cons in *. tauto.
  Qed.
  Lemma ordered_turn a b c : ordered a b c -> ordered b c a.
  Proof using.
    intros ((A & B & C) & (D & E & F) & (NK & K) & HI & HO). assert (S0 : orient (vecR b) (vecR c) (vecR a) = orient (vecR a) (vecR b) (vecR c)) by (ug; ring).
    assert (MG : bary_margin M (vecR b) (vecR c) (vecR a) = bary_margin M (vecR a) (vecR b) (vecR c)) by (unfold bary_margin; rewrite S0; reflexivity).
    unfold ordered. rewrite MG, (bary_turn (vecR a) (vecR b) (vecR c) q NK), S0. split; [auto|]. split; [auto|]. split; [auto|].
    split; [intro H; specialize (HI H); unfold bary in HI; rewrite !Forall_cons_iff in HI; destruct HI as (G1 & G2 & G3 & _); unfold bary; cbn [nth]; rewrite !Forall_cons_iff; auto|].
    intro H. specialize (HO H). unfold bary in HO |- *. cbn [nth]. rewrite !Exists_cons in *. tauto.
  Qed.
End Order.
Lemma general3 {T} {N : Num T} (vs : list (vec T)) : length vs = 3%nat -> stays_general vs.
Proof. intro H. unfold stays_general, get_is_convex. destruct vs as [|a [|b [|c [|]]]]; try discriminate. reflexivity. Qed.

(** ** C123 *)
(** Whatever was read before: clearly inside the triangle a point is reported
    inside, clearly outside it is reported outside, for any order and
    orientation of the vertices. *)
Theorem C123_triangle : forall (L : FloatLib) (M : R) (a b c q : vec PrimFloat.float) (E : PrimFloat.float) (qs : list (pread PrimFloat.float)),
  let N := FNum L in let K := orient (vecR a) (vecR b) (vecR c) in let e2 := toR (fl_pow2 L E) in
  quart_scale M -> within M a -> within M b -> within M c -> within M q -> finite (fl_pow2 L E) ->
  apart M e2 (vecR a) (vecR b) -> apart M e2 (vecR b) (vecR c) -> apart M e2 (vecR c) (vecR a) ->
  margin (-33) (M * M * M * M) <= K * K -> Forall (same_eps E) qs ->
  let p := preads (poly_from_points [a; b; c]) qs in let r := bary_margin M (vecR a) (vecR b) (vecR c) in let l := bary (vecR a) (vecR b) (vecR c) (vecR q) in
  (Forall (fun x => r <= x) l -> fst (contains_point E q p) = Ok true) /\
  (Exists (fun x => x <= - r) l -> fst (contains_point E q p) = Ok false).
Proof.
  intros L M a b c q E qs N K e2 HM Wa Wb Wc Wq FE A1 A2 A3 HK HQ p r l.
  assert (EQ : fst (contains_point E q p) = fst (contains_point E q (pfresh [a; b; c]))).
  { apply (qinv_answer E [a; b; c]); [|left; cbn; lia]. apply qinv_reads; auto using general3. apply qinv_fresh. }
  rewrite EQ. clear EQ p HQ.
  assert (NK : K <> 0). { intro Z. rewrite Z in HK. unfold margin in HK. pose proof (bpow_gt_0 radix2 (-33)). pose proof (m4_pos M HM). pose proof (Rmult_lt_0_compat _ _ H H0). lra. }
  assert (O1 : ordered M e2 (vecR q) (Forall (fun x => r <= x) l) (Exists (fun x => x <= - r) l) a b c) by exact (conj (conj Wa (conj Wb Wc)) (conj (conj A1 (conj A2 A3)) (conj (conj NK HK) (conj (fun H => H) (fun H => H))))).
  destruct (sort_cases (yx_ltb (N := N)) (ordered M e2 (vecR q) (Forall (fun x => r <= x) l) (Exists (fun x => x <= - r) l)) a b c) as (lo & mid & hi & HS & ((B1 & B2 & B3) & (C1 & C2 & C3) & (D1 & D2) & HI & HO)); auto using ordered_swap, ordered_turn.
  destruct (tri_core L M HM E [a; b; c] lo mid hi q HS B1 B2 B3 Wq FE C1 (apart_sym _ _ _ _ C2) D2) as (k & HB & K1 & K2).
  unfold contains_point. rewrite pverts_fresh. cbn [length Nat.eqb]. unfold triangle_test. rewrite pverts_fresh.
  assert (PT : ptri (pfresh [a; b; c]) = None) by reflexivity. rewrite PT. fold N in HB. rewrite HB. cbn [fst].
  split; intro H; f_equal; [apply K1, HI, H|apply K2, HO, H].
Qed.
Print Assumptions C123_triangle.

(** Without room in the area the answer can be wrong well inside: a triangle
    with integer vertices whose denominator cancels to zero contains no point,
    not even one with barycentric coordinates 1/4, 1/4 and 1/2. *)
Theorem C123_thin_refuted : exists a b c q : vec PrimFloat.float, Forall finite_vec [a; b; c; q] /\ Forall (fun x => / 4 <= x) (bary (vecR a) (vecR b) (vecR c) (vecR q)) /\
  forall (L : FloatLib) (E : PrimFloat.float), let N := FNum L in fst (contains_point E q (poly_from_points [a; b; c])) = Ok false.
Proof.
  exists (mkV 0 0)%float, (mkV 134217729 134217728)%float, (mkV 134217730 134217729)%float, (mkV 100663297.25 100663296.5)%float. split; [|split].
  - repeat (apply Forall_cons; [split; vm_compute; reflexivity|]). apply Forall_nil.
  - unfold vecR. cbn [vx vy].
    assert (V1 : toR 134217729 = 134217729) by (vm_compute; lra). assert (V2 : toR 134217728 = 134217728) by (vm_compute; lra). assert (V3 : toR 134217730 = 134217730) by (vm_compute; lra).
    assert (V4 : toR 100663297.25 = 402653189 / 4) by (vm_compute; lra). assert (V5 : toR 100663296.5 = 201326593 / 2) by (vm_compute; lra).
    rewrite V1, V2, V3, V4, V5, toR_0. unfold bary. ug. rewrite !Forall_cons_iff. repeat split; try lra. apply Forall_nil.
  - intros L E. cbv zeta. unfold contains_point. cbn [poly_from_points pverts length Nat.eqb]. unfold triangle_test.
    set (N := FNum L). assert (PT : ptri (poly_from_points [mkV 0 0; mkV 134217729 134217728; mkV 134217730 134217729]%float) = None) by reflexivity. rewrite PT.
    assert (PV : pverts (poly_from_points [mkV 0 0; mkV 134217729 134217728; mkV 134217730 134217729]%float) = [mkV 0 0; mkV 134217729 134217728; mkV 134217730 134217729]%float) by reflexivity. rewrite PV.
    assert (HB : tri_build (N := N) E [mkV 0 0; mkV 134217729 134217728; mkV 134217730 134217729]%float = Ok None).
    { unfold tri_build. assert (HS : sort_by (yx_ltb (N := N)) [mkV 0 0; mkV 134217729 134217728; mkV 134217730 134217729]%float = [mkV 0 0; mkV 134217729 134217728; mkV 134217730 134217729]%float) by (vm_compute; reflexivity). rewrite HS. cbv zeta.
      match goal with |- (if ?b then _ else _) = _ => destruct b end; [reflexivity|]. match goal with |- context [nfalsy ?d] => assert (Z : nfalsy d = true) by (vm_compute; reflexivity) end. rewrite Z. reflexivity. }
    rewrite HB. reflexivity.
Qed.
Print Assumptions C123_thin_refuted.

(** A right triangle, a point inside and a point outside. *)
Example C123_ex : quart_scale 4 /\ let a := (mkV 0 0)%float in let b := (mkV 4 0)%float in let c := (mkV 0 4)%float in let q := (mkV 1 1)%float in let o := (mkV 3 3)%float in
  within 4 a /\ within 4 b /\ within 4 c /\ within 4 q /\ within 4 o /\ finite (fl_pow2 ieee_lib 0x1p-17) /\
  apart 4 (toR (fl_pow2 ieee_lib 0x1p-17)) (vecR a) (vecR b) /\ apart 4 (toR (fl_pow2 ieee_lib 0x1p-17)) (vecR b) (vecR c) /\ apart 4 (toR (fl_pow2 ieee_lib 0x1p-17)) (vecR c) (vecR a) /\
  margin (-33) (4 * 4 * 4 * 4) <= orient (vecR a) (vecR b) (vecR c) * orient (vecR a) (vecR b) (vecR c) /\
  Forall (fun x => bary_margin 4 (vecR a) (vecR b) (vecR c) <= x) (bary (vecR a) (vecR b) (vecR c) (vecR q)) /\
  Exists (fun x => x <= - bary_margin 4 (vecR a) (vecR b) (vecR c)) (bary (vecR a) (vecR b) (vecR c) (vecR o)).
Proof.
  split. { split; [apply Rle_trans with (bpow radix2 0); [apply bpow_le; lia|cbn; lra]|]. change 4 with (bpow radix2 2). apply bpow_le. lia. }
  cbv zeta. assert (V1 : toR 1 = 1) by (vm_compute; lra). assert (V3 : toR 3 = 3) by (vm_compute; lra). assert (V4 : toR 4 = 4) by (vm_compute; lra).
  assert (W : forall x y : PrimFloat.float, finite x -> finite y -> 0 <= toR x <= 4 -> 0 <= toR y <= 4 -> within 4 (mkV x y)) by (intros x y Fx Fy Hx Hy; split; [split; assumption|]; cbn [vx vy]; rewrite !Rabs_pos_eq by lra; lra).
  do 5 (split; [apply W; try reflexivity; rewrite ?V1, ?V3, ?V4, ?toR_0; lra|]).
  destruct ieee_ok as [_ (_ & _ & F & H1 & H2)]. split; [exact F|]. set (e := toR (fl_pow2 ieee_lib 0x1p-17)) in *. clearbody e.
  unfold apart, bary_margin, margin. rewrite !dist_sq. unfold vecR. cbn [vx vy]. rewrite V1, V3, V4, toR_0.
  assert (B1 : 0 < bpow radix2 (-47) <= / 1024) by (split; [apply bpow_gt_0|apply Rle_trans with (bpow radix2 (-10)); [apply bpow_le; lia|cbn; lra]]).
  assert (B2 : 0 < bpow radix2 (-33) <= / 1024) by (split; [apply bpow_gt_0|apply Rle_trans with (bpow radix2 (-10)); [apply bpow_le; lia|cbn; lra]]).
  assert (B3 : 0 < bpow radix2 (-39) <= / 1024) by (split; [apply bpow_gt_0|apply Rle_trans with (bpow radix2 (-10)); [apply bpow_le; lia|cbn; lra]]).
  unfold bary. ug. do 4 (split; [lra|]). rewrite !Forall_cons_iff, !Exists_cons. split; [repeat split; try lra; apply Forall_nil|left; lra].
Qed.
