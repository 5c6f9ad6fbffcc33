(** * C121: accuracy of the centroid on doubles *)
From Coq Require Import ZArith List Bool Reals Lra Lia Psatz Floats.
From Flocq Require Import Core IEEE754.PrimFloat IEEE754.BinarySingleNaN.
From Verif Require Import Num NumFloat Vec Affine Box Seq Polygon Tangent PolyOps SpecPoly SpecGeom SpecMass SpecExact SpecErr OrdLaws FloatFacts FloatFacts2 FloatFacts3 RelPoly FloatExact FloatVec
  FloatErr FloatErr2 FloatErr3 FloatErr4 FloatErr6 IntExact RBase VecFacts VecFacts2 SpecCycle PolyEq PolyCache PolyCache2 PolyCache3 CentroidFacts PropPoly PropMass PropMassF.
Import ListNotations.
Local Open Scope R_scope.

(** ** Spec *)
(** A scale whose cube is far from overflow and underflow. *)
Definition mid_scale (M : R) : Prop := bpow radix2 (-300) <= M <= bpow radix2 300.

(** ** Facts *)
Section Fold.
  Context (L : FloatLib) (M : R) (HM : mid_scale M).
  Let u := runit. Let m2 := M * M. Let m3 := M * M * M.
  Lemma M_pos : 0 < M. Proof using HM. pose proof (bpow_gt_0 radix2 (-300)). destruct HM. lra. Qed.
  Lemma m2_pos : 0 < m2. Proof using HM. pose proof M_pos. unfold m2. nra. Qed.
  Lemma m3_pos : 0 < m3. Proof using HM. pose proof M_pos. pose proof m2_pos. unfold m3. fold m2. nra. Qed.
  Lemma cube_le a b : 0 <= a <= b -> a * a * a <= b * b * b.
  Proof using. intros H. assert (a * a <= b * b) by nra. assert (0 <= a * a) by nra. apply Rmult_le_compat; lra. Qed.
  Lemma m_big : 1048576 * 1048576 * m2 <= huge /\ 1048576 * 1048576 * m3 <= huge /\ 3 * M <= huge.
  Proof using HM.
    destruct HM as [_ H]. pose proof M_pos. pose proof (cube_le M (bpow radix2 300) ltac:(lra)) as K.
    assert (K2 : m2 <= bpow radix2 300 * bpow radix2 300) by (unfold m2; nra). fold m3 in K. rewrite <- !bpow_plus in *.
    unfold huge. change 1048576 with (bpow radix2 20). assert (3 <= bpow radix2 2) by (cbn; lra).
    split; [|split].
    - apply Rle_trans with (bpow radix2 20 * bpow radix2 20 * bpow radix2 (300 + 300)); [apply Rmult_le_compat_l; [cbn; lra|auto]|]. rewrite <- !bpow_plus. apply bpow_le. lia.
    - apply Rle_trans with (bpow radix2 20 * bpow radix2 20 * bpow radix2 (300 + 300 + 300)); [apply Rmult_le_compat_l; [cbn; lra|auto]|]. rewrite <- !bpow_plus. apply bpow_le. lia.
    - apply Rle_trans with (bpow radix2 2 * bpow radix2 300); [apply Rmult_le_compat; lra|]. rewrite <- !bpow_plus. apply bpow_le. lia.
  Qed.
  Lemma m_tiny : 1024 * tiny <= u * m2 /\ 1024 * tiny <= u * m3 /\ 1024 * tiny <= u * M.
  Proof using HM.
    destruct HM as [H _]. pose proof (bpow_gt_0 radix2 (-300)) as P. pose proof (cube_le (bpow radix2 (-300)) M ltac:(lra)) as K.
    assert (K2 : bpow radix2 (-300) * bpow radix2 (-300) <= m2) by (unfold m2; nra). fold m3 in K. rewrite <- !bpow_plus in *.
    unfold u, tiny, runit. change 1024 with (bpow radix2 10). rewrite <- bpow_plus.
    split; [|split]; (eapply Rle_trans; [|apply Rmult_le_compat_l; [apply bpow_ge_0|eassumption]]); rewrite <- bpow_plus; apply bpow_le; lia.
  Qed.

  Definition in_range (f : PrimFloat.float) (x : R) : Prop := finite f /\ toR f = x /\ Rabs x <= M.
  Definition in_range2 (v : vec PrimFloat.float) (w : pt) : Prop := in_range (vx v) (vx w) /\ in_range (vy v) (vy w).
  Lemma ir_apx f x : in_range f x -> apx f x 0.
  Proof using. intros (F & <- & _). apply apx_exact, F. Qed.
  Lemma diff_near f g x y : in_range f x -> in_range g y -> apx (f - g) (x - y) (2 * (u * M)) /\ Rabs (x - y) <= 2 * M.
  Proof using HM.
    intros Hf Hg. assert (B : Rabs (x - y) <= 2 * M). { destruct Hf as (_ & _ & H1), Hg as (_ & _ & H2). revert H1 H2. unfold Rabs. repeat destruct Rcase_abs; lra. }
    split; [|exact B]. destruct m_big as (_ & _ & BB). pose proof M_pos.
    eapply apx_weak; [apply (apx_sub _ _ _ _ _ _ (2 * M) (ir_apx _ _ Hf) (ir_apx _ _ Hg)); lra|]. fold u. lra.
  Qed.
  Lemma um_facts : 0 < u /\ u <= / 1048576 /\ 0 < u * M /\ 0 < u * m2 /\ 0 < u * m3 /\ u * M <= M / 1048576 /\ u * m2 <= m2 / 1048576 /\ u * m3 <= m3 / 1048576.
  Proof using HM. pose proof runit_pos as R1. pose proof runit_small as R2. fold u in R1, R2. pose proof M_pos. pose proof m2_pos. pose proof m3_pos. repeat split; try lra; nra. Qed.
  Lemma abs_mul_le a b A B : Rabs a <= A -> Rabs b <= B -> Rabs (a * b) <= A * B.
  Proof using. intros. rewrite Rabs_mult. apply Rmult_le_compat; auto using Rabs_pos. Qed.
  Lemma area_near a a' b b' c c' : in_range2 a a' -> in_range2 b b' -> in_range2 c c' ->
    apx ((vx b - vx a) * (vy c - vy a) - (vx c - vx a) * (vy b - vy a))%float ((vx b' - vx a') * (vy c' - vy a') - (vx c' - vx a') * (vy b' - vy a')) (33 * (u * m2)) /\
    Rabs ((vx b' - vx a') * (vy c' - vy a') - (vx c' - vx a') * (vy b' - vy a')) <= 8 * m2.
  Proof using HM.
    intros [A1 A2] [B1 B2] [C1 C2]. destruct um_facts as (U0 & U1 & U2 & U3 & U4 & U5 & U6 & U7). destruct m_big as (G1 & G2 & G3). destruct m_tiny as (T1 & T2 & T3).
    pose proof M_pos. pose proof m2_pos. pose proof tiny_pos.
    assert (P : forall f g h k x y z w, in_range f x -> in_range g y -> in_range h z -> in_range k w -> apx ((f - g) * (h - k))%float ((x - y) * (z - w)) (12.2 * (u * m2)) /\ Rabs ((x - y) * (z - w)) <= 4 * m2).
    { intros f g h k x y z w F G H' K. destruct (diff_near _ _ _ _ F G) as [D1 D2], (diff_near _ _ _ _ H' K) as [E1 E2]. split.
      - eapply apx_weak; [apply (apx_mul _ _ _ _ _ _ (2.01 * M) (2.01 * M) D1 E1); try lra|].
        + replace (2.01 * M * (2.01 * M)) with (4.0401 * m2) by (unfold m2; lra). lra.
        + fold u. replace (2 * (u * M) * (2.01 * M) + 2.01 * M * (2 * (u * M)) + u * (2.01 * M * (2.01 * M)) + tiny) with (12.0801 * (u * m2) + tiny) by (unfold m2; lra). lra.
      - replace (4 * m2) with (2 * M * (2 * M)) by (unfold m2; ring). apply abs_mul_le; auto. }
    destruct (P _ _ _ _ _ _ _ _ B1 A1 C2 A2) as [P1 P2], (P _ _ _ _ _ _ _ _ C1 A1 B2 A2) as [P3 P4].
    set (x := (vx b' - vx a') * (vy c' - vy a')) in *. set (y := (vx c' - vx a') * (vy b' - vy a')) in *.
    assert (B : Rabs (x - y) <= 8 * m2) by (clear - P2 P4; revert P2 P4; unfold Rabs; repeat destruct Rcase_abs; lra).
    split; [|exact B]. eapply apx_weak; [apply (apx_sub _ _ _ _ _ _ (8.1 * m2) P1 P3); lra|]. fold u. replace (u * (8.1 * m2)) with (8.1 * (u * m2)) by lra. lra.
  Qed.
  Lemma sum3_near f g h x y z : in_range f x -> in_range g y -> in_range h z -> apx (f + g + h)%float (x + y + z) (5.01 * (u * M)) /\ Rabs (x + y + z) <= 3 * M.
  Proof using HM.
    intros F G H. destruct um_facts as (U0 & U1 & U2 & U3 & U4 & U5 & U6 & U7). destruct m_big as (G1 & G2 & G3). pose proof M_pos.
    assert (B : Rabs (x + y) <= 2 * M /\ Rabs (x + y + z) <= 3 * M). { destruct F as (_ & _ & H1), G as (_ & _ & H2), H as (_ & _ & H3). clear - H1 H2 H3. revert H1 H2 H3. unfold Rabs. repeat destruct Rcase_abs; lra. }
    destruct B as [B1 B2]. split; [|exact B2].
    assert (K : apx (f + g)%float (x + y) (2 * (u * M))). { eapply apx_weak; [apply (apx_add _ _ _ _ _ _ (2 * M) (ir_apx _ _ F) (ir_apx _ _ G)); lra|]. fold u. lra. }
    eapply apx_weak; [apply (apx_add _ _ _ _ _ _ (3.01 * M) K (ir_apx _ _ H)); [lra|]|fold u; replace (u * (3.01 * M)) with (3.01 * (u * M)) by lra; lra].
    assert (m_ := m2_pos). destruct HM as [_ HH]. apply Rle_trans with (bpow radix2 2 * bpow radix2 300); [apply Rmult_le_compat; [lra|lra|cbn; lra|lra]|]. rewrite <- bpow_plus. unfold huge. apply bpow_le. lia.
  Qed.

  Lemma step_near (k : R) a a' b b' c c' cen cen' tot tot' : 0 <= k <= 1048576 ->
    in_range2 a a' -> in_range2 b b' -> in_range2 c c' ->
    near_vec cen cen' (190 * (k * k * (u * m3))) -> Rabs (vx cen') <= 24 * (k * m3) -> Rabs (vy cen') <= 24 * (k * m3) ->
    apx tot tot' (42 * (k * k * (u * m2))) -> Rabs tot' <= 8 * (k * m2) ->
    let '(b1, cen1, tot1) := centroid_step (N := FNum L) a (b, cen, tot) c in
    let '(b2, cen2, tot2) := centroid_step (N := RNum) a' (b', cen', tot') c' in
    b1 = c /\ b2 = c' /\ near_vec cen1 cen2 (190 * ((k + 1) * (k + 1) * (u * m3))) /\ Rabs (vx cen2) <= 24 * ((k + 1) * m3) /\ Rabs (vy cen2) <= 24 * ((k + 1) * m3) /\
    apx tot1 tot2 (42 * ((k + 1) * (k + 1) * (u * m2))) /\ Rabs tot2 <= 8 * ((k + 1) * m2).
  Proof using HM.
    intros Hk HA HB HC [E1 E2] E3 E4 T T'.
    destruct (area_near _ _ _ _ _ _ HA HB HC) as [AR AB]. unfold centroid_step, vadd, vscale. cbn [nadd nsub nmul FNum RNum].
    set (ar := ((vx b - vx a) * (vy c - vy a) - (vx c - vx a) * (vy b - vy a))%float) in *. set (ar' := (vx b' - vx a') * (vy c' - vy a') - (vx c' - vx a') * (vy b' - vy a')) in *.
    clearbody ar ar'. destruct um_facts as (U0 & U1 & U2 & U3 & U4 & U5 & U6 & U7). destruct m_big as (G1 & G2 & G3). destruct m_tiny as (T1 & T2 & T3).
    pose proof M_pos. pose proof m2_pos. pose proof m3_pos. pose proof tiny_pos.
    assert (KK : k * k * u <= / 8000).
    { apply Rle_trans with (1048576 * 1048576 * u); [apply Rmult_le_compat_r; [lra|]; nra|]. unfold u, runit. change 1048576 with (bpow radix2 20). rewrite <- !bpow_plus. cbn. lra. }
    assert (K2 : k * k * (u * m2) <= m2 / 8000) by (replace (k * k * (u * m2)) with (k * k * u * m2) by ring; nra).
    assert (K3 : k * k * (u * m3) <= m3 / 8000) by (replace (k * k * (u * m3)) with (k * k * u * m3) by ring; nra).
    assert (N2 : 0 <= k * m2 <= 1048576 * m2) by (split; [nra|apply Rmult_le_compat_r; lra]).
    assert (N3 : 0 <= k * m3 <= 1048576 * m3) by (split; [nra|apply Rmult_le_compat_r; lra]).
    assert (N4 : 0 <= k * (u * m2)) by nra. assert (N5 : 0 <= k * (u * m3)) by nra.
    assert (N6 : 0 <= k * k * (u * m2)) by nra. assert (N7 : 0 <= k * k * (u * m3)) by nra.
    assert (TE : forall f g h e x y z e', in_range f x -> in_range g y -> in_range h z -> apx e e' (190 * (k * k * (u * m3))) -> Rabs e' <= 24 * (k * m3) ->
      apx (e + (f + g + h) * ar)%float (e' + (x + y + z) * ar') (190 * ((k + 1) * (k + 1) * (u * m3))) /\ Rabs (e' + (x + y + z) * ar') <= 24 * ((k + 1) * m3)).
    { intros f g h e x y z e' I1 I2 I3 I4 I5. destruct (sum3_near _ _ _ _ _ _ I1 I2 I3) as [Q1 Q2].
      assert (B1 : Rabs ((x + y + z) * ar') <= 24 * m3) by (replace (24 * m3) with (3 * M * (8 * m2)) by (unfold m2, m3; ring); apply abs_mul_le; auto).
      assert (B2 : Rabs (e' + (x + y + z) * ar') <= 24 * ((k + 1) * m3)) by (eapply Rle_trans; [apply Rabs_triang|]; lra).
      split; [|exact B2].
      assert (P : apx ((f + g + h) * ar)%float ((x + y + z) * ar') (164 * (u * m3))).
      { eapply apx_weak; [apply (apx_mul _ _ _ _ _ _ (3.01 * M) (8.01 * m2) Q1 AR); try lra|].
        - replace (3.01 * M * (8.01 * m2)) with (24.1101 * m3) by (unfold m2, m3; lra). lra.
        - fold u. replace (5.01 * (u * M) * (8.01 * m2) + 3.01 * M * (33 * (u * m2)) + u * (3.01 * M * (8.01 * m2)) + tiny) with (163.5702 * (u * m3) + tiny) by (unfold m2, m3; lra). lra. }
      eapply apx_weak; [apply (apx_add _ _ _ _ _ _ (24.1 * (k * m3) + 24.1 * m3) I4 P); [lra|lra]|].
      fold u. replace (u * (24.1 * (k * m3) + 24.1 * m3)) with (24.1 * (k * (u * m3)) + 24.1 * (u * m3)) by lra. lra. }
    destruct HA as [A1 A2], HB as [B1 B2], HC as [C1 C2].
    destruct (TE _ _ _ _ _ _ _ _ A1 B1 C1 E1 E3) as [X1 X2], (TE _ _ _ _ _ _ _ _ A2 B2 C2 E2 E4) as [Y1 Y2].
    split; [reflexivity|]. split; [reflexivity|]. split; [split; cbn [vx vy]; assumption|]. cbn [vx vy]. split; [exact X2|]. split; [exact Y2|].
    assert (TB : Rabs (tot' + ar') <= 8 * ((k + 1) * m2)) by (eapply Rle_trans; [apply Rabs_triang|]; lra).
    split; [|exact TB]. eapply apx_weak; [apply (apx_add _ _ _ _ _ _ (8.1 * (k * m2) + 8.1 * m2) T AR); [lra|lra]|].
    fold u. replace (u * (8.1 * (k * m2) + 8.1 * m2)) with (8.1 * (k * (u * m2)) + 8.1 * (u * m2)) by lra. lra.
  Qed.
  Lemma fold_near (l : list (vec PrimFloat.float)) (l' : list pt) : Forall2 in_range2 l l' ->
    forall (k : R) a a' b b' cen cen' tot tot', 0 <= k -> k + INR (length l) <= 1048576 ->
    in_range2 a a' -> in_range2 b b' -> near_vec cen cen' (190 * (k * k * (u * m3))) -> Rabs (vx cen') <= 24 * (k * m3) -> Rabs (vy cen') <= 24 * (k * m3) ->
    apx tot tot' (42 * (k * k * (u * m2))) -> Rabs tot' <= 8 * (k * m2) ->
    let '(_, cen1, tot1) := fold_left (centroid_step (N := FNum L) a) l (b, cen, tot) in
    let '(_, cen2, tot2) := fold_left (centroid_step (N := RNum) a') l' (b', cen', tot') in
    let n := k + INR (length l) in
    near_vec cen1 cen2 (190 * (n * n * (u * m3))) /\ apx tot1 tot2 (42 * (n * n * (u * m2))) /\ Rabs tot2 <= 8 * (n * m2).
  Proof using HM.
    induction 1 as [|c c' l l' Hc Hl IH]; intros k a a' b b' cen cen' tot tot' Hk HB Ha Hb He Hx Hy Ht HT.
    - cbn [fold_left length INR]. cbv zeta. rewrite Rplus_0_r. auto.
    - cbn [fold_left]. change (length (c :: l)) with (Datatypes.S (length l)) in *. rewrite S_INR in *. pose proof (pos_INR (length l)).
      pose proof (step_near k a a' b b' c c' cen cen' tot tot' ltac:(lra) Ha Hb Hc He Hx Hy Ht HT) as S1.
      destruct (centroid_step (N := FNum L) a (b, cen, tot) c) as [[b1 cen1] tot1], (centroid_step (N := RNum) a' (b', cen', tot') c') as [[b2 cen2] tot2].
      destruct S1 as (-> & -> & R1 & R2 & R3 & R4 & R5). replace (k + (INR (length l) + 1)) with (k + 1 + INR (length l)) in * by ring.
      apply IH; auto; lra.
  Qed.
End Fold.

Lemma in_range_of M v : within M v -> in_range2 M v (vecR v).
Proof. intros ((F1 & F2) & B1 & B2). split; (split; [assumption|]); split; auto. Qed.

(** Quotient of two approximations. *)
Lemma quot_near f d x y e h X : apx f x e -> apx d y h -> 100 * h <= Rabs y -> 0 < Rabs y -> Rabs (x / y) <= X -> X + 2 * (e / Rabs y) <= huge / 2 ->
  apx (f / d)%float (x / y) ((1.02 * e + 1.02 * X * h) / Rabs y + runit * (1.02 * X + 1.02 * (e / Rabs y)) + tiny).
Proof.
  intros [Ff Hf] [Fd Hd] Hh Hy HX HB. set (Y := Rabs y) in *.
  assert (Pe : 0 <= e) by (pose proof (Rabs_pos (toR f - x)); lra). assert (Ph : 0 <= h) by (pose proof (Rabs_pos (toR d - y)); lra). assert (PX : 0 <= X) by (pose proof (Rabs_pos (x / y)); lra).
  assert (Dl : 0.99 * Y <= Rabs (toR d)) by (unfold Y in *; clear - Hd Hh; revert Hd Hh; unfold Rabs; repeat destruct Rcase_abs; lra).
  assert (Nd : toR d <> 0) by (intro Q; rewrite Q, Rabs_R0 in Dl; lra). assert (Ny : y <> 0) by (intro Q; unfold Y in Hy; rewrite Q, Rabs_R0 in Hy; lra).
  assert (Q : Rabs (toR f / toR d - x / y) <= (1.0102 * e + 1.0102 * X * h) / Y).
  { replace (toR f / toR d - x / y) with (((toR f - x) - x / y * (toR d - y)) / toR d) by (field; auto).
    unfold Rdiv at 1. rewrite Rabs_mult, Rabs_inv.
    assert (K : Rabs (toR f - x - x / y * (toR d - y)) <= e + X * h).
    { eapply Rle_trans; [apply Rabs_triang|]. rewrite Rabs_Ropp. apply Rplus_le_compat; auto. rewrite Rabs_mult. apply Rmult_le_compat; auto using Rabs_pos. }
    apply Rle_trans with ((e + X * h) * / (0.99 * Y)).
    - apply Rmult_le_compat; auto using Rabs_pos; [apply Rlt_le, Rinv_0_lt_compat; lra|apply Rinv_le_contravar; lra].
    - replace ((e + X * h) * / (0.99 * Y)) with ((e + X * h) / 0.99 * / Y) by (rewrite Rinv_mult; unfold Rdiv; ring). unfold Rdiv at 2. apply Rmult_le_compat_r; [apply Rlt_le, Rinv_0_lt_compat; lra|].
      assert (0 <= X * h) by (apply Rmult_le_pos; lra). lra. }
  assert (eY : 0 <= e / Y) by (apply Rmult_le_pos; [lra|apply Rlt_le, Rinv_0_lt_compat; lra]).
  assert (hY : 0 <= h / Y <= / 100). { split; [apply Rmult_le_pos; [lra|apply Rlt_le, Rinv_0_lt_compat; lra]|]. apply (Rmult_le_reg_r Y); [lra|]. unfold Rdiv. rewrite Rmult_assoc, Rinv_l by lra. lra. }
  assert (Q' : (1.0102 * e + 1.0102 * X * h) / Y <= 1.0102 * (e / Y) + 0.0102 * X).
  { replace ((1.0102 * e + 1.0102 * X * h) / Y) with (1.0102 * (e / Y) + 1.0102 * (X * (h / Y))) by (unfold Rdiv; ring). assert (X * (h / Y) <= X * / 100) by (apply Rmult_le_compat_l; lra). lra. }
  assert (MG : Rabs (toR f / toR d) <= 1.02 * X + 1.02 * (e / Y)).
  { replace (toR f / toR d) with (x / y + (toR f / toR d - x / y)) by ring. eapply Rle_trans; [apply Rabs_triang|]. lra. }
  destruct (fdiv_toR f d Ff Nd ltac:(lra)) as [F1 V1]. split; [exact F1|]. rewrite V1.
  replace (frnd (toR f / toR d) - x / y) with ((frnd (toR f / toR d) - toR f / toR d) + (toR f / toR d - x / y)) by ring.
  eapply Rle_trans; [apply Rabs_triang|]. pose proof (frnd_err (toR f / toR d)) as R1.
  assert (R2 : runit * Rabs (toR f / toR d) <= runit * (1.02 * X + 1.02 * (e / Y))) by (apply Rmult_le_compat_l; [apply Rlt_le, runit_pos|exact MG]).
  assert (R3 : (1.0102 * e + 1.0102 * X * h) / Y <= (1.02 * e + 1.02 * X * h) / Y).
  { apply Rmult_le_compat_r; [apply Rlt_le, Rinv_0_lt_compat; lra|]. assert (0 <= X * h) by (apply Rmult_le_pos; lra). lra. }
  lra.
Qed.

Lemma centroid_value_near (L : FloatLib) (M X : R) (l : list (vec PrimFloat.float)) : let n := INR (length l) in let T := Rabs (area2 (map vecR l)) in
  mid_scale M -> M <= X <= bpow radix2 600 -> (2 <= length l)%nat -> n <= 1048576 -> Forall (within M) l ->
  Rabs (vx (mass_centre (map vecR l))) <= X -> Rabs (vy (mass_centre (map vecR l))) <= X ->
  margin (-40) (n * n * (M * M)) <= T ->
  exists c, centroid_value (N := FNum L) l = Ok c /\ near_vec c (mass_centre (map vecR l)) (margin (-46) (X * (n * n * (M * M) / T))).
Proof.
  intros n T HM [HX HX'] HL Hn Hi X1 X2 HT.
  destruct l as [|a [|b l]]; cbn [length] in HL; try lia. inversion Hi as [|? ? Ha Hi']; subst. inversion Hi' as [|? ? Hb Hl]; subst. clear Hi Hi'.
  assert (Hl' : Forall2 (in_range2 M) l (map vecR l)) by (clear - Hl; induction Hl; cbn; constructor; auto; apply in_range_of; auto).
  apply in_range_of in Ha, Hb.
  assert (Hk : INR (length l) + 2 = n) by (unfold n; cbn [length]; rewrite !S_INR; ring).
  pose proof (pos_INR (length l)) as Pk.
  destruct (um_facts M HM) as (U0 & U1 & U2 & U3 & U4 & U5 & U6 & U7). destruct (m_big M HM) as (G1 & G2 & G3). destruct (m_tiny M HM) as (T1 & T2 & T3).
  pose proof (M_pos M HM) as PM. pose proof (m2_pos M HM) as P2. pose proof (m3_pos M HM) as P3. pose proof tiny_pos as PT.
  assert (Z0 : apx 0%float 0 0). { destruct (float_of_Z_exact 0 ltac:(lia)) as [F0 V0]. change (float_of_Z 0) with 0%float in *. split; [exact F0|]. rewrite V0. unfold Rminus. rewrite Rplus_opp_r, Rabs_R0. lra. }
  assert (Q0 : forall x d, d = 0 -> x = 0 -> apx 0%float x d) by (intros x d -> ->; exact Z0).
  pose proof (fold_near L M HM l (map vecR l) Hl' 0 a (vecR a) b (vecR b) (vec2 (N := FNum L) (n0 (N := FNum L)) (n0 (N := FNum L))) (vec2 (N := RNum) (n0 (N := RNum)) (n0 (N := RNum))) (n0 (N := FNum L)) (n0 (N := RNum)) ltac:(lra) ltac:(lra) Ha Hb) as F.
  rewrite centroid_fold in F. cbn [map] in *. rewrite <- area2_fan, <- momentx_fan, <- momenty_fan in F.
  unfold centroid_value.
  assert (I1 : near_vec (vec2 (N := FNum L) (n0 (N := FNum L)) (n0 (N := FNum L))) (vec2 (N := RNum) (n0 (N := RNum)) (n0 (N := RNum))) (190 * (0 * 0 * (runit * (M * M * M))))).
  { split; apply Q0; try ring; reflexivity || (unfold vec2; rnum; cbn [vx vy]; ring). }
  assert (I2 : Rabs (vx (vec2 (N := RNum) (n0 (N := RNum)) (n0 (N := RNum)))) <= 24 * (0 * (M * M * M))) by (unfold vec2; rnum; cbn [vx]; rewrite ?Rmult_0_l, Rabs_R0; lra).
  assert (I3 : Rabs (vy (vec2 (N := RNum) (n0 (N := RNum)) (n0 (N := RNum)))) <= 24 * (0 * (M * M * M))) by (unfold vec2; rnum; cbn [vy]; rewrite ?Rmult_0_l, Rabs_R0; lra).
  assert (I4 : apx (n0 (N := FNum L)) (n0 (N := RNum)) (42 * (0 * 0 * (runit * (M * M))))) by (apply Q0; [ring|reflexivity]).
  assert (I5 : Rabs (n0 (N := RNum)) <= 8 * (0 * (M * M))) by (change (n0 (N := RNum)) with 0; rewrite Rabs_R0; lra).
  specialize (F I1 I2 I3 I4 I5). clear I1 I2 I3 I4 I5.
  destruct (fold_left (centroid_step (N := FNum L) a) l _) as [[b1 cen1] tot1]. cbv zeta in F. destruct F as ([F1 F2] & F3 & F4).
  set (A := area2 (vecR a :: vecR b :: map vecR l)) in *.
  unfold vec2 in F1, F2. cbn [vx vy] in F1, F2. change (n0 (N := RNum)) with 0 in *. rewrite !Rplus_0_l in *.
  set (k := INR (length l)) in *. set (m2 := M * M) in *. set (m3 := M * M * M) in *. set (u := runit) in *.
  assert (E3 : m3 = M * m2) by (unfold m2, m3; ring).
  unfold mass_centre in X1, X2 |- *. fold A in X1, X2 |- *. cbn [vx vy] in X1, X2.
  set (mo := moment (vecR a :: vecR b :: map vecR l)) in *.
  fold T in F4. clearbody mo m2 m3. 
  assert (KN : k * k <= n * n) by nra.
  assert (UU : n * n * u <= / 8000).
  { apply Rle_trans with (1048576 * 1048576 * u); [apply Rmult_le_compat_r; [lra|]; nra|]. unfold u, runit. change 1048576 with (bpow radix2 20). rewrite <- !bpow_plus. cbn. lra. }
  assert (N1 : 1 <= n) by lra.
  set (D := n * n * (u * m2)). assert (HD : 0 < D) by (unfold D; apply Rmult_lt_0_compat; [nra|lra]).
  assert (D1 : u * m2 <= D) by (unfold D; rewrite <- (Rmult_1_l (u * m2)) at 1; apply Rmult_le_compat_r; [lra|nra]).
  assert (D2 : n * (u * m2) <= D) by (unfold D; apply Rmult_le_compat_r; [lra|nra]).
  assert (D3 : k * k * (u * m2) <= D) by (unfold D; apply Rmult_le_compat_r; [lra|lra]).
  assert (D4 : D <= m2 / 8000) by (unfold D; replace (n * n * (u * m2)) with (n * n * u * m2) by ring; nra).
  assert (D5 : k * k * (u * m3) <= M * D) by (rewrite E3; replace (k * k * (u * (M * m2))) with (M * (k * k * (u * m2))) by ring; apply Rmult_le_compat_l; lra).
  assert (HT' : 8192 * D <= T). { change (margin (-40) (n * n * m2)) with (margin (13 - 53) (n * n * m2)) in HT. rewrite margin_unit in HT by lia. fold u in HT. change (IZR (2 ^ 13)) with 8192 in HT. unfold D. lra. }
  assert (KM : k * m2 <= n * m2) by nra. assert (nm : m2 <= n * m2) by nra. assert (nm' : n * m2 <= 1048576 * m2) by nra.
  (* the divisor *)
  assert (A3 : apx (float_of_Z 3 * tot1)%float (3 * A) (152 * D)).
  { assert (Three : apx (float_of_Z 3) 3 0). { destruct (float_of_Z_exact 3 ltac:(lia)) as [Fz Vz]. split; [exact Fz|]. rewrite Vz. unfold Rminus. rewrite Rplus_opp_r, Rabs_R0. lra. }
    eapply apx_weak; [apply (apx_mul _ _ _ _ _ _ 3 (8.01 * (n * m2)) Three F3)|].
    - rewrite Rabs_right by lra. lra.
    - fold T. lra.
    - lra.
    - fold u. replace (u * (3 * (8.01 * (n * m2)))) with (24.03 * (n * (u * m2))) by lra. lra. }
  assert (TP : 0 < T) by lra.
  assert (Y3 : Rabs (3 * A) = 3 * T) by (rewrite Rabs_mult, (Rabs_right 3) by lra; reflexivity).
  set (W := X * (D / T)).
  assert (DT : 0 < D / T <= / 8192). { split; [apply Rdiv_lt_0_compat; lra|]. apply (Rmult_le_reg_r T); [lra|]. unfold Rdiv. rewrite Rmult_assoc, Rinv_l by lra. lra. }
  assert (HW : 0 < W) by (unfold W; apply Rmult_lt_0_compat; lra).
  assert (MW : M * (D / T) <= W) by (unfold W; apply Rmult_le_compat_r; lra).
  assert (UT : u <= 8 * (D / T)).
  { apply (Rmult_le_reg_r T); [lra|]. replace (8 * (D / T) * T) with (8 * D) by (field; lra). apply Rle_trans with (u * (8 * (n * m2))); [apply Rmult_le_compat_l; lra|].
    replace (u * (8 * (n * m2))) with (8 * (n * (u * m2))) by ring. lra. }
  assert (UX : u * X <= 8 * W) by (unfold W; replace (8 * (X * (D / T))) with (8 * (D / T) * X) by ring; apply Rmult_le_compat_r; lra).
  assert (TW : tiny <= W / 100). { assert (u * M <= u * X) by (apply Rmult_le_compat_l; lra). lra. }
  assert (BH : X + 2 * M <= huge / 2).
  { apply Rle_trans with (4 * bpow radix2 600); [lra|]. apply (Rmult_le_reg_l 2); [lra|]. replace (2 * (huge / 2)) with huge by field. replace (2 * (4 * bpow radix2 600)) with (bpow radix2 3 * bpow radix2 600) by (cbn; ring).
    rewrite <- bpow_plus. unfold huge. apply bpow_le. lia. }
  assert (MG : margin (-46) (X * (n * n * m2 / T)) = 128 * W).
  { change (margin (-46) (X * (n * n * m2 / T))) with (margin (7 - 53) (X * (n * n * m2 / T))). rewrite margin_unit by lia. change (IZR (2 ^ 7)) with 128. fold u. unfold W, D. field. lra. }
  assert (GO : forall f x, apx f x (190 * (k * k * (u * m3))) -> Rabs (x / (3 * A)) <= X -> apx (f / (float_of_Z 3 * tot1))%float (x / (3 * A)) (128 * W)).
  { intros f x Hf Hx. assert (Hf' : apx f x (190 * (M * D))) by (eapply apx_weak; [exact Hf|lra]).
    assert (EY : 190 * (M * D) / (3 * T) = 190 / 3 * (M * (D / T))) by (field; lra).
    assert (MD : M * (D / T) <= M * / 8192) by (apply Rmult_le_compat_l; lra).
    eapply apx_weak; [apply (quot_near _ _ _ _ _ _ X Hf' A3); rewrite ?Y3; try lra; auto|]. rewrite Y3, EY. fold u.
    replace ((1.02 * (190 * (M * D)) + 1.02 * X * (152 * D)) / (3 * T)) with (64.6 * (M * (D / T)) + 51.68 * W).
    2:{ unfold W, Rdiv. rewrite Rinv_mult. lra. }
    assert (0 <= M * (D / T)) by (apply Rmult_le_pos; lra).
    assert (u * (M * (D / T)) <= / 1048576 * (M * (D / T))) by (apply Rmult_le_compat_r; lra).
    replace (u * (1.02 * X + 1.02 * (190 / 3 * (M * (D / T))))) with (1.02 * (u * X) + 1.02 * 190 / 3 * (u * (M * (D / T)))) by lra.
    lra. }
  change (nmul (Num := FNum L) n3 tot1) with (float_of_Z 3 * tot1)%float. unfold vdivs.
  assert (PD : forall x, pydiv (N := FNum L) x (float_of_Z 3 * tot1)%float = Ok (x / (float_of_Z 3 * tot1))%float).
  { intro x. destruct A3 as [Fb Hb3]. unfold pydiv. change (neqb (Num := FNum L) (float_of_Z 3 * tot1)%float n0) with (PrimFloat.eqb (float_of_Z 3 * tot1) 0). destruct (float_of_Z_exact 0 ltac:(lia)) as [F0 V0]. change (float_of_Z 0) with 0%float in *.
    rewrite toR_eq, V0 by auto. unfold Reqb. destruct (Req_EM_T (toR (float_of_Z 3 * tot1)%float) 0) as [Z|Z]; [|reflexivity]. rewrite Z, Rminus_0_l, Rabs_Ropp, Y3 in Hb3. lra. }
  rewrite !PD. cbn [bind]. eexists. split; [reflexivity|]. rewrite MG. split; cbn [vx vy]; apply GO; auto.
  - eapply apx_weak; [eapply apx_eq; [exact F1|rnum; ring]|]. rewrite E3. apply Req_le. ring.
  - eapply apx_weak; [eapply apx_eq; [exact F2|rnum; ring]|]. rewrite E3. apply Req_le. ring.
Qed.

(** ** C121 *)
(** Whatever was done with the polygon before: the centroid is the centre of
    mass of the vertices up to a rounding error that grows with the number of
    vertices and with the ratio of the squared coordinates to the area. [X]
    bounds the coordinates of the centre of mass. *)
Theorem C121_centroid : forall (L : FloatLib) (M X : R) (vs : list (vec PrimFloat.float)) (os : list (pop PrimFloat.float)),
  let N := FNum L in let p := prun (poly_from_points vs) os in let l := map vecR (pverts p) in let n := INR (length l) in
  mid_scale M -> M <= X <= bpow radix2 600 -> (2 <= length l)%nat -> n <= 1048576 -> Forall (within M) (pverts p) ->
  Rabs (vx (mass_centre l)) <= X -> Rabs (vy (mass_centre l)) <= X ->
  margin (-40) (n * n * (M * M)) <= Rabs (area2 l) ->
  (fst (get_is_simple p) = Ok false -> fst (get_centroid p) = Ok None) /\
  (fst (get_is_simple p) = Ok true -> exists c, fst (get_centroid p) = Ok (Some c) /\
     near_vec c (mass_centre l) (margin (-46) (X * (n * n * (M * M) / Rabs (area2 l))))).
Proof.
  intros L M X vs os N p l n HM HX HL Hn HI X1 X2 HT. unfold n, l in HL, Hn, HT |- *. rewrite map_length in *.
  assert (Hp : coh p) by (apply prun_coh, coh_cleared).
  assert (Q : forall b, fst (get_is_simple p) = Ok b -> fst (get_centroid p) = if b then rmap Some (centroid_value (pverts p)) else Ok None).
  { intros b Hb. destruct (read_centroid p Hp) as [-> _]. destruct (read_simple p Hp) as [Hs _]. rewrite Hb in Hs.
    unfold get_centroid. assert (E : pcentroid (pfresh (pverts p)) = None) by reflexivity. rewrite E.
    assert (Hv : pverts (snd (get_is_simple (pfresh (pverts p)))) = pverts p) by (rewrite simple_verts; reflexivity).
    destruct (get_is_simple (pfresh (pverts p))) as [r p1]. cbn [fst snd] in *. subst r. destruct b; auto.
    rewrite Hv. destruct (centroid_value (pverts p)); reflexivity. }
  split; [intro H; rewrite (Q _ H); reflexivity|]. intro H. rewrite (Q _ H).
  destruct (centroid_value_near L M X (pverts p) HM HX HL Hn HI X1 X2 HT) as (c & Hc & K). fold N in Hc. rewrite Hc. exists c. split; [reflexivity|exact K].
Qed.
Print Assumptions C121_centroid.

(** The centre of mass of a convex polygon is no farther out than its
    vertices. *)
Theorem C121_convex : forall (L : FloatLib) (M : R) (vs : list (vec PrimFloat.float)) (os : list (pop PrimFloat.float)),
  let N := FNum L in let p := prun (poly_from_points vs) os in let l := map vecR (pverts p) in let n := INR (length l) in
  mid_scale M -> (2 <= length l)%nat -> n <= 1048576 -> Forall (within M) (pverts p) -> convex_ccw l \/ convex_cw l ->
  margin (-40) (n * n * (M * M)) <= Rabs (area2 l) ->
  fst (get_is_simple p) = Ok true -> exists c, fst (get_centroid p) = Ok (Some c) /\
     near_vec c (mass_centre l) (margin (-46) (n * n * (M * M * M) / Rabs (area2 l))).
Proof.
  intros L M vs os N p l n HM HL Hn HI HC HT HS.
  assert (PM : 0 < M) by (apply (M_pos M HM)).
  assert (Pn : 2 <= n) by (unfold n; change 2 with (INR 2); apply le_INR; exact HL).
  assert (PA : 0 < Rabs (area2 l)). { eapply Rlt_le_trans; [|exact HT]. unfold margin. apply Rmult_lt_0_compat; [apply bpow_gt_0|]. apply Rmult_lt_0_compat; nra. }
  assert (NA : area2 l <> 0) by (intro Z; rewrite Z, Rabs_R0 in PA; lra).
  assert (HW : forall v, In v l -> Rabs (vx v) <= M /\ Rabs (vy v) <= M).
  { intros v Hv. unfold l in Hv. apply in_map_iff in Hv. destruct Hv as (w & <- & Hw). rewrite Forall_forall in HI. destruct (HI w Hw) as (_ & B1 & B2). split; assumption. }
  assert (AB : forall x, - M <= x -> x <= M -> Rabs x <= M) by (intros x H1 H2; apply Rabs_le; lra).
  assert (BA : forall x, Rabs x <= M -> - M <= x <= M) by (intros x H; revert H; unfold Rabs; destruct Rcase_abs; lra).
  destruct (mass_bounds l HL NA HC (- M)) as (K1 & _ & K2 & _). destruct (mass_bounds l HL NA HC M) as (_ & K3 & _ & K4).
  assert (X1 : Rabs (vx (mass_centre l)) <= M) by (apply AB; [apply K1|apply K3]; intros v Hv; destruct (HW v Hv) as [B1 B2]; apply BA in B1; lra).
  assert (X2 : Rabs (vy (mass_centre l)) <= M) by (apply AB; [apply K2|apply K4]; intros v Hv; destruct (HW v Hv) as [B1 B2]; apply BA in B2; lra).
  destruct (C121_centroid L M M vs os HM) as [_ C]; fold N p l n; auto.
  { split; [lra|]. destruct HM as [_ HM]. eapply Rle_trans; [exact HM|]. apply bpow_le. lia. }
  fold N p l n in C. destruct (C HS) as (c & Hc & K). exists c. split; [exact Hc|].
  replace (n * n * (M * M * M) / Rabs (area2 l)) with (M * (n * n * (M * M) / Rabs (area2 l))) by (field; lra). exact K.
Qed.
Print Assumptions C121_convex.

(** Without room in the area the centroid can fail: a triangle with integer
    vertices and area 1/2 whose cross product cancels to zero. *)
Theorem C121_thin_refuted : exists vs : list (vec PrimFloat.float), Forall finite_vec vs /\ area2 (map vecR vs) = 1 /\
  forall L : FloatLib, let N := FNum L in let p := poly_from_points vs in fst (get_is_simple p) = Ok true /\ fst (get_centroid p) = Err ZeroDivisionError.
Proof.
  exists (map fz [(0, 0); (134217729, 134217728); (134217730, 134217729)]%Z). split; [|split].
  - cbn [map]. repeat (apply Forall_cons; [split; vm_compute; reflexivity|]). apply Forall_nil.
  - unfold area2. cbn [map cyc_pairs combine app]. unfold vecR, fz. cbn [vx vy fst snd]. rewrite !of_Z_R by lia. cbn [combine app map rsum fst snd]. ug. cbn. lra.
  - intro L. cbv zeta. split; vm_compute; reflexivity.
Qed.
Print Assumptions C121_thin_refuted.

Example C121_ex (L : FloatLib) : let N := FNum L in let l := [mkV 0 0; mkV 4 0; mkV 0.5 2.5]%float in let p := prun (poly_from_points l) [PRead QCentroid; PSet 1 (fz (6, 0)%Z)] in
  mid_scale 8 /\ Forall (within 8) (pverts p) /\ fst (get_is_simple p) = Ok true /\ convex_ccw (map vecR (pverts p)) /\
  margin (-40) (INR 3 * INR 3 * (8 * 8)) <= Rabs (area2 (map vecR (pverts p))).
Proof.
  cbv zeta. set (p := prun _ _).
  assert (E : pverts p = [mkV 0 0; mkV 6 0; mkV 0.5 2.5]%float) by (vm_compute; reflexivity). rewrite E.
  assert (T6 : toR 6 = 6) by (vm_compute; lra). assert (Th : toR 0.5 = / 2) by (vm_compute; lra). assert (T5 : toR 2.5 = 5 / 2) by (vm_compute; lra).
  assert (A : area2 (map vecR [mkV 0 0; mkV 6 0; mkV 0.5 2.5]%float) = 15).
  { unfold area2. cbn [map cyc_pairs combine app]. unfold vecR. cbn [vx vy]. rewrite toR_0, T6, Th, T5. cbn [combine app map rsum fst snd]. ug. cbn. lra. }
  split; [|split; [|split; [|split]]].
  - split; [apply Rle_trans with (bpow radix2 0); [apply bpow_le; lia|cbn; lra]|]. change 8 with (bpow radix2 3). apply bpow_le. lia.
  - repeat (apply Forall_cons; [split; [split; reflexivity|cbn [vx vy]; rewrite ?toR_0, ?T6, ?Th, ?T5; split; rewrite Rabs_pos_eq; lra]|]). apply Forall_nil.
  - vm_compute; reflexivity.
  - cbn [map]. unfold vecR. cbn [vx vy]. rewrite toR_0, T6, Th, T5. intros x y v H Hv. cbn in H, Hv.
    repeat (destruct H as [H|H]; [injection H as <- <-; repeat (destruct Hv as [<-|Hv]; [ug; cbn; lra|]); destruct Hv|]). destruct H.
  - rewrite A, Rabs_pos_eq by lra. unfold margin. cbn. lra.
Qed.
