(** * Property C113: direction and normal of linear shapes on doubles, in any history *)
From Coq Require Import ZArith List Bool Reals Lra Lia Floats SpecFloat.
From Flocq Require Import Core IEEE754.PrimFloat IEEE754.BinarySingleNaN.
From Verif Require Import Num NumFloat Vec Affine Line LineOps OrdLaws SpecGeom RBase FloatFacts FloatFacts2 FloatFacts3 FloatVec SpecExact FloatExact FloatErr FloatErr2 FloatErr3 SpecFrame FrameF SideFacts SpecSides PropSides.
Import ListNotations.
Local Open Scope R_scope.

(** A shape fresh from any constructor, on any doubles. *)
Inductive line_made (L : FloatLib) (E : PrimFloat.float) : line PrimFloat.float -> Prop :=
| lm_new p v l : line_new (N := FNum L) E p v = Ok l -> line_made L E l
| lm_points ps l : line_from_points (N := FNum L) E ps = Ok l -> line_made L E l
| lm_normal n o l : line_from_normal (N := FNum L) E n o = Ok l -> line_made L E l
| lm_parallel l p l' : line_parallel (N := FNum L) E l p = Ok l' -> line_made L E l'
| lm_perp l p l' : line_perpendicular (N := FNum L) E l p = Ok l' -> line_made L E l'
| lm_mul l m l' : line_mul (N := FNum L) E l m = Ok l' -> line_made L E l'
| lm_ray r l : ray_line (N := FNum L) E r = Ok l -> line_made L E l
| lm_seg s l : seg_line (N := FNum L) E s = Ok l -> line_made L E l.
Inductive ray_made (L : FloatLib) (E : PrimFloat.float) : ray PrimFloat.float -> Prop :=
| rm_new p v l : ray_new (N := FNum L) E p v = Ok l -> ray_made L E l
| rm_points ps l : ray_from_points (N := FNum L) E ps = Ok l -> ray_made L E l
| rm_mul l m l' : ray_mul (N := FNum L) E l m = Ok l' -> ray_made L E l'.
Inductive seg_made (L : FloatLib) (E : PrimFloat.float) : segment PrimFloat.float -> Prop :=
| sm_new p v l : seg_new (N := FNum L) E p v = Ok l -> seg_made L E l
| sm_points ps l : seg_from_points (N := FNum L) E ps = Ok l -> seg_made L E l
| sm_normal n o a b l : seg_from_normal (N := FNum L) E n o a b = Ok l -> seg_made L E l
| sm_mul l m l' : seg_mul (N := FNum L) E l m = Ok l' -> seg_made L E l'.

Section Made.
  Variables (L : FloatLib) (E : PrimFloat.float) (P : dirn PrimFloat.float -> Prop).
  Let NL : Num PrimFloat.float := FNum L.
  Existing Instance NL.
  Hypothesis HD : forall v d, set_direction E v = Ok d -> P d.
  Hypothesis HN : forall v d, set_normal E v = Ok d -> P d.
  Lemma line_made_any l os : line_made L E l -> P (ldn (line_run E l os)).
  Proof using HD HN.
    intro H. apply line_run_any; auto. destruct H as [p v l H|ps l H|n o l H|l0 p l H|l0 p l H|l0 m l H|r l H|s l H].
    - eapply line_new_any; eauto.
    - eapply line_from_points_any; eauto.
    - eapply line_from_normal_any; eauto.
    - eapply line_new_any; eauto.
    - eapply line_new_any; eauto.
    - unfold line_mul in H. destruct (line_points l0). eapply line_from_points_any; eauto.
    - eapply line_new_any; eauto.
    - eapply line_new_any; eauto.
  Qed.
  Lemma ray_made_any l os : ray_made L E l -> P (rdn (ray_run E l os)).
  Proof using HD HN.
    intro H. apply ray_run_any; auto. destruct H as [p v l H|ps l H|l0 m l H].
    - eapply ray_new_any; eauto.
    - eapply ray_from_points_any; eauto.
    - unfold ray_mul in H. destruct (ray_points l0). eapply ray_from_points_any; eauto.
  Qed.
  Lemma seg_made_any l os : seg_made L E l -> P (sdn (seg_run E l os)).
  Proof using HD HN.
    intro H. apply seg_run_any; auto. destruct H as [p v l H|ps l H|n o a b l H|l0 m l H].
    - eapply seg_new_any; eauto.
    - eapply seg_from_points_any; eauto.
    - eapply seg_from_normal_any; eauto.
    - unfold seg_mul in H. destruct (seg_points l0). eapply seg_from_points_any; eauto.
  Qed.
End Made.

(** ** The normal is the direction turned, bit by bit, whatever the library and the doubles *)
Theorem C113_turned : forall (L : FloatLib) (E : PrimFloat.float), let N := FNum L in
  (forall l os, line_made L E l -> turned (ldn (line_run E l os))) /\
  (forall r os, ray_made L E r -> turned (rdn (ray_run E r os))) /\
  (forall s os, seg_made L E s -> turned (sdn (seg_run E s os))).
Proof.
  intros L E N. split; [|split]; intros x os H.
  - apply (line_made_any L E turned); auto; [apply (set_direction_turned L E)|apply (set_normal_turned L E)].
  - apply (ray_made_any L E turned); auto; [apply (set_direction_turned L E)|apply (set_normal_turned L E)].
  - apply (seg_made_any L E turned); auto; [apply (set_direction_turned L E)|apply (set_normal_turned L E)].
Qed.
Print Assumptions C113_turned.

(** ** Both are of unit length within roundoff, or contain NaN *)
Theorem C113_unit : forall (L : FloatLib) (E : PrimFloat.float), sqrt_ok L -> sqrt_edges L ->
  PrimFloat.is_finite E = true -> bpow radix2 (-399) <= toR E -> PrimFloat.ltb 0 (fl_pow2 L E) = true -> let N := FNum L in
  let good d := (near_unit (ddir d) /\ near_unit (dnormal d)) \/ (has_nan (ddir d) /\ has_nan (dnormal d)) in
  (forall l os, line_made L E l -> good (ldn (line_run E l os))) /\
  (forall r os, ray_made L E r -> good (rdn (ray_run E r os))) /\
  (forall s os, seg_made L E s -> good (sdn (seg_run E s os))).
Proof.
  intros L E HS HI FE HE HE2 N good.
  assert (GD : forall v d, set_direction E v = Ok d -> good d) by (intros v d H; apply (set_direction_frame L HS E HI FE HE HE2 v d H)).
  assert (GN : forall v d, set_normal E v = Ok d -> good d) by (intros v d H; apply (set_normal_frame L HS E HI FE HE HE2 v d H)).
  split; [|split]; intros x os H; [apply (line_made_any L E good)|apply (ray_made_any L E good)|apply (seg_made_any L E good)]; auto.
Qed.
Print Assumptions C113_unit.

(** ** Which of the two: NaN exactly if the vector assigned has an infinite coordinate *)
Theorem C113_assigned : forall (L : FloatLib) (E : PrimFloat.float) (v : vec PrimFloat.float), sqrt_ok L -> sqrt_edges L ->
  PrimFloat.is_finite E = true -> bpow radix2 (-399) <= toR E -> PrimFloat.ltb 0 (fl_pow2 L E) = true -> let N := FNum L in
  (forall l l', line_act E (LDirection v) l = (Ok tt, l') ->
     (finite_vec v -> near_unit (ddir (ldn l')) /\ near_vec (ddir (ldn l')) (pscale (/ norm (vecR v)) (vecR v)) (10 * bpow radix2 (-53))) /\
     (~ finite_vec v -> has_nan (ddir (ldn l')))) /\
  (forall l l', line_act E (LNormal v) l = (Ok tt, l') ->
     (finite_vec v -> near_unit (dnormal (ldn l')) /\ near_vec (dnormal (ldn l')) (pscale (/ norm (vecR v)) (vecR v)) (10 * bpow radix2 (-53))) /\
     (~ finite_vec v -> has_nan (dnormal (ldn l')))).
Proof.
  intros L E v HS HI FE HE HE2 N. split; intros l l' H; rewrite line_act_atomic in H; cbn [line_try] in H.
  - unfold line_set_direction in H. destruct (set_direction E v) as [d|] eqn:K; cbn [bind atomically] in H; [|discriminate]. injection H as <-. cbn [ldn].
    destruct (set_direction_kind L HS E HI FE HE HE2 v d K) as [(F & A & B)|(F & A)]; split; intro G; try contradiction; auto.
  - unfold line_set_normal in H. destruct (set_normal E v) as [d|] eqn:K; cbn [bind atomically] in H; [|discriminate]. injection H as <-. cbn [ldn].
    destruct (set_normal_kind L HS E HI FE HE HE2 v d K) as [(F & A & B)|(F & A)]; split; intro G; try contradiction; auto.
Qed.
Print Assumptions C113_assigned.

(** ** [direction.dot(normal)] is zero exactly *)
Theorem C113_perpendicular : forall (L : FloatLib) (d : dirn PrimFloat.float), turned d -> near_unit (ddir d) ->
  let N := FNum L in PrimFloat.eqb (dot (ddir d) (dnormal d)) 0 = true.
Proof.
  intros L d HT ((Fx & Fy) & H) N. rewrite HT. unfold dot. cbn [vx vy nadd nmul N FNum].
  set (x := vx (ddir d)) in *. set (y := vy (ddir d)) in *. clearbody x y.
  destruct (coord_norm (mkV (toR x) (toR y))) as [C1 C2]. cbn [vx vy] in C1, C2. change (bpow radix2 (-53)) with runit in H. pose proof runit_small as U. apply abs_le2 in H.
  assert (B : Rabs (toR x * toR y) <= huge).
  { rewrite Rabs_mult. apply Rle_trans with (2 * 2); [apply Rmult_le_compat; try apply Rabs_pos; lra|]. unfold huge. change (2 * 2) with (bpow radix2 1 * bpow radix2 1). rewrite <- bpow_plus. apply bpow_le. lia. }
  destruct (fopp_toR x Fx) as [Fo Vo]. destruct (fmul_toR x y Fx Fy B) as [F1 V1].
  destruct (fmul_toR y (- x) Fy Fo) as [F2 V2]; [rewrite Vo; replace (toR y * - toR x) with (- (toR x * toR y)) by ring; rewrite Rabs_Ropp; exact B|].
  assert (V : toR (y * - x) = - toR (x * y)).
  { rewrite V2, V1, Vo. replace (toR y * - toR x) with (- (toR x * toR y)) by ring. unfold frnd. cbn [round_mode]. apply round_NE_opp. }
  destruct (fadd_toR _ _ F1 F2) as [F V3]; [rewrite V, Rplus_opp_r, Rabs_R0; pose proof huge_pos; lra|].
  rewrite V, Rplus_opp_r in V3. rewrite toR_eq by (auto; reflexivity). rewrite V3, toR_0.
  unfold frnd. rewrite round_0 by apply valid_rnd_round_mode. unfold Reqb. destruct (Req_EM_T 0 0); congruence.
Qed.
Print Assumptions C113_perpendicular.

(** ** So the numbers on which the sides are decided (C112) are numbers *)
Theorem C113_side_number : forall (L : FloatLib) (d : dirn PrimFloat.float) (to_point : vec PrimFloat.float),
  near_unit (ddir d) -> near_unit (dnormal d) -> bounded_vec 0x1p1021 to_point -> let N := FNum L in
  not_nan (dot (ddir d) to_point) /\ not_nan (dot (dnormal d) to_point).
Proof.
  assert (B : forall u, near_unit u -> bounded_vec 2 u).
  { intros u ((Fx & Fy) & H). destruct (coord_norm (mkV (toR (vx u)) (toR (vy u)))) as [C1 C2]. cbn [vx vy] in C1, C2.
    change (bpow radix2 (-53)) with runit in H. pose proof runit_small as U. apply abs_le2 in H.
    assert (V2 : toR 2 = 2) by (unfold toR; cbn; unfold F2R; cbn; lra).
    destruct (fabs_toR _ Fx) as [F1 V1], (fabs_toR _ Fy) as [F3 V3].
    split; rewrite toR_le by (auto; reflexivity); rewrite V2, ?V1, ?V3; unfold Rleb; destruct (Rle_dec _ _); auto; lra. }
  intros L d v H1 H2 HV N. split; apply (C112_not_nan L); auto.
Qed.
Print Assumptions C113_side_number.

(** ** Overflow is what lets NaN in: a finite ray and a finite transform *)
Theorem C113_overflow : forall (L : FloatLib), fl_sqrt L 1 = 1%float -> sqrt_edges L -> fl_pow2 L 0x1p-17 = 0x1p-34%float -> let N := FNum L in
  exists (E : PrimFloat.float) (r r' : ray PrimFloat.float) (m : affine PrimFloat.float),
  ray_new E (mkV 0 0)%float (mkV 1 0)%float = Ok r /\ near_unit (ddir (rdn r)) /\
  m = mkA 0x1p1023%float 0%float 0x1p1023%float 0%float 1%float 0%float /\
  ray_act E (RTransform m) r = (Ok tt, r') /\ has_nan (ddir (rdn r')).
Proof.
  destruct L as [f f2 f3 f4 f5 f6 f7 f8 f9 f10 f11]. intros H [HI _] H2. cbn in H, HI, H2. vm_compute in HI. cbv zeta.
  exists (0x1p-17)%float, (mkRay (mkD (mkV 1 0) (mkV 0 (-1))) (mkV 0 0))%float, (mkRay (mkD (mkV nan 0) (mkV 0 nan)) (mkV 0x1p1023 0))%float, (mkA 0x1p1023 0 0x1p1023 0 1 0)%float.
  split; [vm_compute; rewrite !H; vm_compute; rewrite !H2; vm_compute; reflexivity|].
  split.
  - split; [split; reflexivity|]. cbn [rdn ddir vx vy]. rewrite toR_1, toR_0. unfold norm. cbn [vx vy].
    replace (1 * 1 + 0 * 0) with 1 by ring. rewrite sqrt_1, Rminus_diag_eq, Rabs_R0 by reflexivity. pose proof (bpow_gt_0 radix2 (-53)). lra.
  - split; [reflexivity|]. split; [|left; reflexivity].
    vm_compute. rewrite !HI. vm_compute. rewrite !H2. vm_compute. reflexivity.
Qed.
Print Assumptions C113_overflow.

(** The hypotheses on the library hold of the IEEE square root, and of an EPSILON near the default. *)
Example C113_ex (L : FloatLib) : (forall x, fl_sqrt L x = PrimFloat.sqrt x) -> (forall x, fl_pow2 L x = x * x)%float ->
  sqrt_ok L /\ sqrt_edges L /\ PrimFloat.ltb 0 (fl_pow2 L 0x1p-17) = true /\ bpow radix2 (-399) <= toR 0x1p-17 /\
  exists l, line_made L 0x1p-17 l /\ exists os, length os = 3%nat /\
    line_run (N := FNum L) 0x1p-17%float l os <> l /\ vx (ddir (ldn (line_run (N := FNum L) 0x1p-17%float l os))) = (3/5)%float.
Proof.
  intros HS H2. split; [|split; [|split; [|split]]].
  - intros x Fx Px. rewrite HS. apply ieee_sqrt_ok; auto.
  - split; rewrite HS; reflexivity.
  - rewrite H2. reflexivity.
  - unfold toR. change (Prim2B 0x1p-17) with (SF2B (Prim2SF 0x1p-17) (Prim2SF_valid 0x1p-17)). rewrite B2R_SF2B.
    replace (Prim2SF 0x1p-17) with (S754_finite false (2 ^ 52) (-69)) by (vm_compute; reflexivity).
    cbn [SF2R cond_Zopp]. unfold F2R. cbn [Fnum Fexp]. replace (IZR (Z.pos (2 ^ 52))) with (bpow radix2 52) by (cbn; lra). rewrite <- bpow_plus. apply bpow_le. lia.
  - exists (mkLine (mkD (mkV 1 0) (mkV 0 (-1))) 0)%float. destruct L as [f f2 f3 f4 f5 f6 f7 f8 f9 f10 f11]. cbn in HS, H2.
    split.
    + apply (lm_new _ _ (mkV 0 0)%float (mkV 1 0)%float). vm_compute. rewrite !HS. vm_compute. rewrite !H2. vm_compute. reflexivity.
    + exists [LDirection (mkV 0 0)%float; LNormal (mkV 4 3)%float; LTransform (mkA (-1) 0 0 0 (-1) 0)%float]. split; [reflexivity|].
      assert (K : line_run (N := FNum (Build_FloatLib f f2 f3 f4 f5 f6 f7 f8 f9 f10 f11)) 0x1p-17%float (mkLine (mkD (mkV 1 0) (mkV 0 (-1))) 0)%float
        [LDirection (mkV 0 0)%float; LNormal (mkV 4 3)%float; LTransform (mkA (-1) 0 0 0 (-1) 0)%float] =
        (mkLine (mkD (mkV (3/5) (-(4/5))) (mkV (-(4/5)) (-(3/5)))) (-0))%float).
      2: { rewrite K. split; [|reflexivity]. intro X. apply (f_equal (fun l => PrimFloat.eqb (vx (ddir (ldn l))) 1)) in X. vm_compute in X. discriminate X. }
      vm_compute. repeat (first [rewrite HS | rewrite H2]; vm_compute). reflexivity.
Qed.
