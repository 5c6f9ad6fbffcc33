(** * Facts for C114: rotations on doubles *)
From Coq Require Import ZArith List Bool Reals Lra Lia Floats SpecFloat.
From Flocq Require Import Core IEEE754.PrimFloat IEEE754.BinarySingleNaN.
From Verif Require Import Num NumFloat Vec Affine OrdLaws SpecGeom RBase VecFacts2 FloatFacts FloatFacts2 FloatVec SpecExact FloatExact FloatErr FloatErr2 SpecRot.
Local Open Scope R_scope.

Lemma sin_le_abs x : Rabs (sin x) <= Rabs x.
Proof.
  enough (G : forall y, 0 <= y -> Rabs (sin y) <= y).
  { destruct (Rle_dec 0 x) as [H|H]; [rewrite (Rabs_pos_eq x H); apply G, H|]. rewrite (Rabs_left x) by lra. rewrite <- Rabs_Ropp, <- sin_neg. apply G. lra. }
  intros y H. destruct (Req_dec y 0) as [->|N]; [rewrite sin_0, Rabs_R0; lra|].
  apply Rabs_le. split; [|left; apply sin_lt_x; lra].
  destruct (Rle_dec y PI) as [L|L]; [pose proof (sin_ge_0 y H L); lra|]. pose proof (SIN_bound y). pose proof PI2_3_2. lra.
Qed.
Lemma half_prod a b c : Rabs a <= 1 -> Rabs b <= Rabs (c / 2) -> Rabs (2 * a * b) <= Rabs c.
Proof.
  intros A B. rewrite !Rabs_mult. rewrite (Rabs_pos_eq 2) by lra. replace (Rabs c) with (2 * 1 * Rabs (c / 2)).
  - apply Rmult_le_compat; try apply Rabs_pos; auto; [|lra]. apply Rmult_le_pos; [lra|apply Rabs_pos].
  - unfold Rdiv. rewrite Rabs_mult, (Rabs_pos_eq (/ 2)) by lra. lra.
Qed.
Lemma cos_lip a b : Rabs (cos a - cos b) <= Rabs (a - b).
Proof.
  rewrite form2. replace (-2 * sin ((a - b) / 2) * sin ((a + b) / 2)) with (- (2 * sin ((a + b) / 2) * sin ((a - b) / 2))) by ring. rewrite Rabs_Ropp.
  apply half_prod; [apply Rabs_le, SIN_bound|apply sin_le_abs].
Qed.
Lemma sin_lip a b : Rabs (sin a - sin b) <= Rabs (a - b).
Proof. rewrite form4. apply half_prod; [apply Rabs_le, COS_bound|apply sin_le_abs]. Qed.

Lemma deg_turns d k : cos (deg (d - 360 * IZR k)) = cos (deg d) /\ sin (deg (d - 360 * IZR k)) = sin (deg d).
Proof.
  assert (E : deg (d - 360 * IZR k) = deg d + 2 * IZR (- k) * PI) by (unfold deg; rewrite opp_IZR; field).
  rewrite E. split; [apply cos_period_Z|apply sin_period_Z].
Qed.
Lemma deg_lip a b e : Rabs (a - b) <= e -> Rabs (deg a - deg b) <= e / 45.
Proof.
  intro H. unfold deg. replace (a * PI / 180 - b * PI / 180) with ((a - b) * (PI / 180)) by field. rewrite Rabs_mult.
  pose proof PI_RGT_0. pose proof PI_4. rewrite (Rabs_pos_eq (PI / 180)) by lra. replace (e / 45) with (e * (4 / 180)) by field. apply Rmult_le_compat; try apply Rabs_pos; lra.
Qed.
Lemma eqb_lit m z : finite m -> (Z.abs z <= 2 ^ 53)%Z -> PrimFloat.eqb m (float_of_Z z) = true -> toR m = IZR z.
Proof.
  intros F H E. destruct (float_of_Z_exact z H) as [Fz Vz]. rewrite toR_eq, Vz in E by auto. unfold Reqb in E. destruct (Req_EM_T (toR m) (IZR z)); [auto|discriminate].
Qed.
Lemma deg_90 : cos (deg 90) = 0 /\ sin (deg 90) = 1.
Proof. unfold deg. replace (90 * PI / 180) with (PI / 2) by field. split; [apply cos_PI2|apply sin_PI2]. Qed.
Lemma deg_180 : cos (deg 180) = -1 /\ sin (deg 180) = 0.
Proof. unfold deg. replace (180 * PI / 180) with PI by field. split; [apply cos_PI|apply sin_PI]. Qed.
Lemma deg_270 : cos (deg 270) = 0 /\ sin (deg 270) = -1.
Proof. unfold deg. replace (270 * PI / 180) with (3 * (PI / 2)) by field. split; [apply cos_3PI2|apply sin_3PI2]. Qed.

Lemma cos_sin_err (L : FloatLib) (d : PrimFloat.float) : trig_ok L -> finite d ->
  apx (fst (cos_sin_deg (N := FNum L) d)) (cos (deg (toR d))) (40 * runit) /\ apx (snd (cos_sin_deg (N := FNum L) d)) (sin (deg (toR d))) (40 * runit).
Proof.
  intros HL Fd. pose proof runit_pos as U0. pose proof runit_small as U1. pose proof tiny_pos as T0. pose proof tiny_small as T1.
  destruct (to_mod L HL d Fd) as (Fm & Bm & k & Hk). destruct (deg_turns (toR d) k) as [EC ES]. rewrite <- EC, <- ES. set (r := toR d - 360 * IZR k) in *. clearbody r. clear EC ES.
  unfold cos_sin_deg. change (nmod (Num := FNum L) d (nlit 360)) with (fl_mod L d 360%float). set (m := fl_mod L d 360%float) in *. clearbody m.
  assert (HR : Rabs (deg (toR m) - deg r) <= 12 * runit).
  { eapply Rle_trans; [apply deg_lip, Hk|]. replace (bpow radix2 (-44)) with (512 * runit); [lra|]. unfold runit. replace 512 with (bpow radix2 9) by (cbn; lra). rewrite <- bpow_plus. reflexivity. }
  clear Hk. pose proof (Rle_trans _ _ _ (cos_lip _ _) HR) as CR. pose proof (Rle_trans _ _ _ (sin_lip _ _) HR) as SR.
  assert (EX : forall (f : PrimFloat.float) (c x : R), finite f -> toR f = c -> Rabs (c - x) <= 12 * runit -> apx f x (40 * runit)).
  { intros f c x F V H. split; [exact F|]. rewrite V. lra. }
  change (neqb (Num := FNum L) m (nlit 90)) with (PrimFloat.eqb m (float_of_Z 90)).
  change (neqb (Num := FNum L) m (nlit 180)) with (PrimFloat.eqb m (float_of_Z 180)).
  change (neqb (Num := FNum L) m (nlit 270)) with (PrimFloat.eqb m (float_of_Z 270)).
  pose proof (float_of_Z_exact 0 ltac:(lia)) as [F0 V0]. pose proof (float_of_Z_exact 1 ltac:(lia)) as [F1 V1]. pose proof (float_of_Z_exact (-1) ltac:(lia)) as [Fn Vn].
  destruct (PrimFloat.eqb m (float_of_Z 90)) eqn:E90; [|destruct (PrimFloat.eqb m (float_of_Z 180)) eqn:E180; [|destruct (PrimFloat.eqb m (float_of_Z 270)) eqn:E270]].
  - apply eqb_lit in E90; [|auto|lia]. rewrite E90 in CR, SR. destruct deg_90 as [K1 K2]. rewrite K1 in CR. rewrite K2 in SR. split; cbn [fst snd]; [exact (EX _ _ _ F0 V0 CR)|exact (EX _ _ _ F1 V1 SR)].
  - apply eqb_lit in E180; [|auto|lia]. rewrite E180 in CR, SR. destruct deg_180 as [K1 K2]. rewrite K1 in CR. rewrite K2 in SR. split; cbn [fst snd]; [exact (EX _ _ _ Fn Vn CR)|exact (EX _ _ _ F0 V0 SR)].
  - apply eqb_lit in E270; [|auto|lia]. rewrite E270 in CR, SR. destruct deg_270 as [K1 K2]. rewrite K1 in CR. rewrite K2 in SR. split; cbn [fst snd]; [exact (EX _ _ _ F0 V0 CR)|exact (EX _ _ _ Fn Vn SR)].
  - clear E90 E180 E270. cbn [fst snd ncos nsin nradians FNum]. destruct (to_rad L HL m Fm Bm) as [Fr Hr]. change (bpow radix2 (-53)) with runit in Hr. change (bpow radix2 (-1075)) with tiny in Hr.
    pose proof PI_RGT_0. pose proof PI_4. assert (D : 0 <= deg (toR m) <= 8) by (unfold deg; nra).
    set (t := fl_radians L m) in *. clearbody t. assert (Hr2 : Rabs (toR t - deg (toR m)) <= 25 * runit) by nra.
    assert (B9 : Rabs (toR t) <= 9). { apply abs_le2 in Hr2. apply Rabs_le. lra. }
    destruct (to_cos L HL t Fr B9) as [Fc Hc]. destruct (to_sin L HL t Fr B9) as [Fs Hs]. change (bpow radix2 (-53)) with runit in Hc, Hs.
    pose proof (Rle_trans _ _ _ (cos_lip _ _) Hr2) as C2. pose proof (Rle_trans _ _ _ (sin_lip _ _) Hr2) as S2.
    apply abs_le2 in Hc, Hs, C2, S2, CR, SR. split; (split; [assumption|apply Rabs_le; lra]).
Qed.

(** [x * c], [c] close to a cosine or sine. *)
Lemma turn_mul x c g : finite x -> apx c g (40 * runit) -> Rabs g <= 1 -> Rabs (toR x) <= huge / 4 ->
  apx (x * c) (toR x * g) (42 * runit * Rabs (toR x) + tiny).
Proof.
  intros Fx Hc Hg Hx. pose proof runit_pos as U0. pose proof runit_small as U1. pose proof (Rabs_pos (toR x)) as PX. pose proof huge_pos.
  pose proof (apx_mul x c (toR x) g 0 (40 * runit) (Rabs (toR x)) 2 (apx_exact x Fx) Hc) as K. eapply apx_weak; [apply K; try lra|].
  assert (0 <= runit * Rabs (toR x)) by (apply Rmult_le_pos; lra). nra.
Qed.
Lemma mul_comm_float (a b : PrimFloat.float) x d : apx (a * b) x d -> finite a -> finite b -> Rabs (toR a * toR b) <= huge -> apx (b * a) x d.
Proof.
  intros [_ H] Fa Fb B. destruct (fmul_toR a b Fa Fb B) as [F1 V1]. destruct (fmul_toR b a Fb Fa) as [F2 V2]; [rewrite Rmult_comm; exact B|]. split; auto. rewrite V2, Rmult_comm, <- V1. exact H.
Qed.
(** Sum and difference of two such products. *)
Lemma turn_sum a b x y X Y : apx a x (42 * runit * X + tiny) -> apx b y (42 * runit * Y + tiny) -> Rabs x <= X -> Rabs y <= Y -> X <= huge / 4 -> Y <= huge / 4 ->
  apx (a + b) (x + y) (44 * runit * (X + Y) + 3 * tiny) /\ apx (a - b) (x - y) (44 * runit * (X + Y) + 3 * tiny).
Proof.
  intros Ha Hb HX HY BX BY. pose proof runit_pos as U0. pose proof runit_small as U1. pose proof tiny_pos as T0. pose proof tiny_small as T1. pose proof (Rabs_pos x) as PX. pose proof (Rabs_pos y) as PY.
  assert (H4 : 4 <= huge) by (unfold huge; change 4 with (bpow radix2 2); apply bpow_le; lia).
  assert (Q0 : 0 <= runit * (X + Y)) by (apply Rmult_le_pos; lra). assert (Q1 : runit * (runit * (X + Y)) <= / 1048576 * (runit * (X + Y))) by (apply Rmult_le_compat_r; lra).
  assert (Q2 : runit * (X + Y) <= / 1048576 * (X + Y)) by (apply Rmult_le_compat_r; lra). assert (Q3 : runit * tiny <= / 1048576 * tiny) by (apply Rmult_le_compat_r; lra).
  set (s := (X + Y) + 42 * (runit * (X + Y)) + 2 * tiny).
  assert (BS : runit * s <= 2 * (runit * (X + Y)) + tiny) by (unfold s; lra). assert (BS2 : s <= huge) by (unfold s; lra).
  split.
  - eapply apx_weak; [apply (apx_add _ _ _ _ _ _ s Ha Hb); [|exact BS2]|lra]. pose proof (Rabs_triang x y). unfold s. lra.
  - eapply apx_weak; [apply (apx_sub _ _ _ _ _ _ s Ha Hb); [|exact BS2]|lra]. pose proof (Rabs_triang x (- y)) as K. rewrite Rabs_Ropp in K. unfold s, Rminus in *. lra.
Qed.
Lemma abs_mul_le a g : Rabs g <= 1 -> Rabs (a * g) <= Rabs a.
Proof. intro H. rewrite Rabs_mult. pose proof (Rabs_pos a). pose proof (Rabs_pos g). nra. Qed.
Lemma l1_norm v : Rabs (vx v) + Rabs (vy v) <= 3 / 2 * norm v.
Proof.
  pose proof (VecFacts2.norm_sq v) as Q. pose proof (norm_nonneg v) as P. pose proof (Rabs_pos (vx v)) as P1. pose proof (Rabs_pos (vy v)) as P2.
  assert (SX : Rabs (vx v) * Rabs (vx v) = vx v * vx v) by (rewrite <- Rabs_mult; apply Rabs_pos_eq, Rle_0_sqr).
  assert (SY : Rabs (vy v) * Rabs (vy v) = vy v * vy v) by (rewrite <- Rabs_mult; apply Rabs_pos_eq, Rle_0_sqr).
  rewrite <- SX, <- SY in Q. clear SX SY. set (a := Rabs (vx v)) in *. set (b := Rabs (vy v)) in *. set (n := norm v) in *. clearbody a b n.
  apply Rsqr_incr_0_var; [|lra]. unfold Rsqr. pose proof (Rle_0_sqr (a - b)) as K. unfold Rsqr in K. nra.
Qed.
Lemma near_dist w p d : apx (vx w) (vx p) d -> apx (vy w) (vy p) d -> close_vec w p (2 * d).
Proof.
  intros [F1 H1] [F2 H2]. split; [split; auto|]. unfold dist. pose proof (Rabs_pos (toR (vx w) - vx p)).
  apply norm_le_iff; [lra|]. unfold psub, vecR. cbn [vx vy]. set (a := toR (vx w) - vx p) in *. set (b := toR (vy w) - vy p) in *. clearbody a b.
  apply abs_le2 in H1, H2. nra.
Qed.
(** Sum and difference of two approximations in general. *)
Lemma acc k1 k2 j1 j2 a b x y X Y : apx a x (k1 * runit * X + j1 * tiny) -> apx b y (k2 * runit * Y + j2 * tiny) -> Rabs x <= X -> Rabs y <= Y ->
  X <= huge / 4 -> Y <= huge / 4 -> 0 <= k1 <= 1000 -> 0 <= k2 <= 1000 -> 0 <= j1 <= 1000 -> 0 <= j2 <= 1000 ->
  apx (a + b) (x + y) ((k1 + 2) * runit * X + (k2 + 2) * runit * Y + (j1 + j2 + 1) * tiny) /\
  apx (a - b) (x - y) ((k1 + 2) * runit * X + (k2 + 2) * runit * Y + (j1 + j2 + 1) * tiny).
Proof.
  intros Ha Hb HX HY BX BY K1 K2 J1 J2. pose proof runit_pos as U0. pose proof runit_small as U1. pose proof tiny_pos as T0. pose proof tiny_small as T1. pose proof (Rabs_pos x) as PX. pose proof (Rabs_pos y) as PY.
  assert (H4 : 4 <= huge) by (unfold huge; change 4 with (bpow radix2 2); apply bpow_le; lia).
  assert (A1 : 0 <= runit * X) by (apply Rmult_le_pos; lra). assert (A2 : 0 <= runit * Y) by (apply Rmult_le_pos; lra).
  assert (B1 : runit * X <= / 1048576 * X) by (apply Rmult_le_compat_r; lra). assert (B2 : runit * Y <= / 1048576 * Y) by (apply Rmult_le_compat_r; lra).
  assert (C1 : 0 <= k1 * (runit * X) <= 1000 * (runit * X)) by (split; [apply Rmult_le_pos; lra|apply Rmult_le_compat_r; lra]).
  assert (C2 : 0 <= k2 * (runit * Y) <= 1000 * (runit * Y)) by (split; [apply Rmult_le_pos; lra|apply Rmult_le_compat_r; lra]).
  assert (D1 : 0 <= j1 * tiny <= 1000 * tiny) by (split; [apply Rmult_le_pos; lra|apply Rmult_le_compat_r; lra]).
  assert (D2 : 0 <= j2 * tiny <= 1000 * tiny) by (split; [apply Rmult_le_pos; lra|apply Rmult_le_compat_r; lra]).
  set (s := X + Y + (k1 * (runit * X) + k2 * (runit * Y)) + (j1 * tiny + j2 * tiny)).
  assert (S0 : s <= 2 * (X + Y) + 2000 * tiny - (X + Y) / 2) by (unfold s; lra).
  assert (BS : runit * s <= 2 * (runit * X) + 2 * (runit * Y) + tiny).
  { assert (Q : runit * s <= runit * (2 * (X + Y) + 2000 * tiny)) by (apply Rmult_le_compat_l; lra). assert (Q3 : runit * tiny <= / 1048576 * tiny) by (apply Rmult_le_compat_r; lra). lra. }
  assert (BS2 : s <= huge) by lra.
  split.
  - eapply apx_weak; [apply (apx_add _ _ _ _ _ _ s Ha Hb); [|exact BS2]|lra]. pose proof (Rabs_triang x y). unfold s. lra.
  - eapply apx_weak; [apply (apx_sub _ _ _ _ _ _ s Ha Hb); [|exact BS2]|lra]. pose proof (Rabs_triang x (- y)) as K. rewrite Rabs_Ropp in K. unfold s, Rminus in *. lra.
Qed.
Lemma apx_add0 a x d : apx a x d -> Rabs (toR a) <= huge -> apx (a + 0) x d.
Proof.
  intros [F H] B. pose proof (float_of_Z_exact 0 ltac:(lia)) as [F0 V0]. change (float_of_Z 0) with 0%float in *.
  destruct (fadd_toR a 0 F F0) as [F2 V2]; [rewrite V0, Rplus_0_r; exact B|]. split; auto. rewrite V2, V0, Rplus_0_r. unfold frnd. rewrite round_generic; [exact H|apply valid_rnd_round_mode|apply toR_format].
Qed.
