(** * Property C114: rotations on doubles are accurate *)
From Coq Require Import ZArith List Bool Reals Lra Lia Floats SpecFloat.
From Flocq Require Import Core IEEE754.PrimFloat IEEE754.BinarySingleNaN.
From Verif Require Import Num NumFloat Vec Affine OrdLaws SpecGeom RBase VecFacts2 AffineFacts FloatFacts FloatFacts2 FloatVec SpecExact FloatExact FloatErr FloatErr2 SpecRot RotFacts IdealLib.
Local Open Scope R_scope.

(** Coordinates below 2^990, so that nothing overflows. *)
Definition mid_vec (v : vec PrimFloat.float) : Prop := finite_vec v /\ Rabs (toR (vx v)) <= bpow radix2 990 /\ Rabs (toR (vy v)) <= bpow radix2 990.

Lemma mid_huge x : Rabs (toR x) <= bpow radix2 990 -> Rabs (toR x) <= huge / 1024.
Proof. intro H. eapply Rle_trans; [exact H|]. unfold huge. change 1000%Z with (990 + 10)%Z. rewrite bpow_plus. change (bpow radix2 10) with 1024. lra. Qed.

(** [cos_sin_deg] is within 40 roundings of the exact cosine and sine, whatever the size and sign of the angle. *)
Theorem C114_cos_sin : forall (L : FloatLib) (d : PrimFloat.float), trig_ok L -> finite d ->
  apx (fst (cos_sin_deg (N := FNum L) d)) (cos (deg (toR d))) (40 * bpow radix2 (-53)) /\
  apx (snd (cos_sin_deg (N := FNum L) d)) (sin (deg (toR d))) (40 * bpow radix2 (-53)).
Proof. exact cos_sin_err. Qed.
Print Assumptions C114_cos_sin.

Lemma rotated_coords (L : FloatLib) v d : trig_ok L -> finite d -> mid_vec v -> let M := Rabs (toR (vx v)) + Rabs (toR (vy v)) in
  apx (vx (rotated (N := FNum L) v d)) (vx (prot (toR d) (vecR v))) (44 * runit * M + 3 * tiny) /\
  apx (vy (rotated (N := FNum L) v d)) (vy (prot (toR d) (vecR v))) (44 * runit * M + 3 * tiny).
Proof.
  intros HL Fd ([Fx Fy] & Bx & By) M. pose proof (cos_sin_err L d HL Fd) as [HC HS]. unfold rotated, prot, vecR. destruct (cos_sin_deg (N := FNum L) d) as [c s]. cbn [fst snd vx vy nadd nsub nmul FNum] in *.
  apply mid_huge in Bx, By. pose proof huge_pos as HP. assert (GC : Rabs (cos (deg (toR d))) <= 1) by (apply Rabs_le, COS_bound). assert (GS : Rabs (sin (deg (toR d))) <= 1) by (apply Rabs_le, SIN_bound).
  set (C := cos (deg (toR d))) in *. set (D := sin (deg (toR d))) in *. clearbody C D.
  pose proof (turn_mul _ _ _ Fx HC GC ltac:(lra)) as XC. pose proof (turn_mul _ _ _ Fy HS GS ltac:(lra)) as YS.
  pose proof (turn_mul _ _ _ Fx HS GS ltac:(lra)) as XS. pose proof (turn_mul _ _ _ Fy HC GC ltac:(lra)) as YC.
  split; [apply (turn_sum _ _ _ _ _ _ XC YS)|apply (turn_sum _ _ _ _ _ _ XS YC)]; try apply abs_mul_le; auto; lra.
Qed.
Lemma l1_vec v : Rabs (toR (vx v)) + Rabs (toR (vy v)) <= 3 / 2 * norm (vecR v).
Proof. exact (l1_norm (vecR v)). Qed.

(** [Vec2.rotated]: the result is within 132 roundings of the length of the vector from the exact rotation. *)
Theorem C114_rotated : forall (L : FloatLib) (v : vec PrimFloat.float) (d : PrimFloat.float), trig_ok L -> finite d -> mid_vec v -> let N := FNum L in
  close_vec (rotated v d) (prot (toR d) (vecR v)) (132 * bpow radix2 (-53) * norm (vecR v) + 6 * bpow radix2 (-1075)).
Proof.
  intros L v d HL Fd Hv N. destruct (rotated_coords L v d HL Fd Hv) as [HX HY]. destruct (near_dist _ _ _ HX HY) as [F H]. split; [exact F|]. eapply Rle_trans; [exact H|].
  pose proof (l1_vec v). pose proof runit_pos. change (bpow radix2 (-53)) with runit. change (bpow radix2 (-1075)) with tiny. nra.
Qed.
Print Assumptions C114_rotated.

(** So the length is kept up to the same error, *)
Theorem C114_length : forall (L : FloatLib) (v : vec PrimFloat.float) (d : PrimFloat.float), trig_ok L -> finite d -> mid_vec v -> let N := FNum L in
  Rabs (norm (vecR (rotated v d)) - norm (vecR v)) <= 132 * bpow radix2 (-53) * norm (vecR v) + 6 * bpow radix2 (-1075).
Proof.
  intros L v d HL Fd Hv N. destruct (C114_rotated L v d HL Fd Hv) as [_ H]. fold N in H. rewrite <- (prot_norm (toR d) (vecR v)) at 1.
  set (w := vecR (rotated v d)) in *. set (p := prot (toR d) (vecR v)) in *. clearbody w p. unfold dist in H. eapply Rle_trans; [|exact H].
  apply Rabs_le. pose proof (norm_triangle (psub w p) p) as K1. pose proof (norm_triangle (psub p w) w) as K2.
  replace (padd (psub w p) p) with w in K1 by (ug; destruct w; cbn; f_equal; ring). replace (padd (psub p w) w) with p in K2 by (ug; destruct p; cbn; f_equal; ring).
  replace (norm (psub p w)) with (norm (psub w p)) in K2 by apply (dist_sym w p). lra.
Qed.
Print Assumptions C114_length.

(** and rotating back returns to the vector. *)
Theorem C114_back : forall (L : FloatLib) (v : vec PrimFloat.float) (d : PrimFloat.float), trig_ok L -> finite d -> finite_vec v ->
  Rabs (toR (vx v)) <= bpow radix2 980 -> Rabs (toR (vy v)) <= bpow radix2 980 -> let N := FNum L in
  close_vec (rotated (rotated v d) (- d)%float) (vecR v) (265 * bpow radix2 (-53) * norm (vecR v) + 13 * bpow radix2 (-1075)).
Proof.
  intros L v d HL Fd Fv Bx By N.
  assert (LE : bpow radix2 980 <= bpow radix2 990) by (apply bpow_le; lia).
  assert (Hv : mid_vec v) by (repeat split; try apply Fv; lra).
  destruct (rotated_coords L v d HL Fd Hv) as [HX HY]. destruct (C114_rotated L v d HL Fd Hv) as [F H]. fold N in F, H, HX, HY.
  pose proof (C114_length L v d HL Fd Hv) as K. cbv zeta in K. fold N in K. set (w := rotated v d) in *.
  assert (M : Rabs (toR (vx v)) + Rabs (toR (vy v)) <= 2 * bpow radix2 980) by lra.
  assert (B1 : 1 <= bpow radix2 980) by (change 1 with (bpow radix2 0); apply bpow_le; lia).
  assert (E2 : bpow radix2 990 = 1024 * bpow radix2 980) by (change 990%Z with (10 + 980)%Z; rewrite bpow_plus; reflexivity).
  pose proof runit_pos as U0. pose proof runit_small as U1. pose proof tiny_pos as T0. pose proof tiny_small as T1.
  assert (GC : Rabs (cos (deg (toR d))) <= 1) by (apply Rabs_le, COS_bound). assert (GS : Rabs (sin (deg (toR d))) <= 1) by (apply Rabs_le, SIN_bound).
  pose proof (abs_mul_le (toR (vx v)) _ GC) as XC. pose proof (abs_mul_le (toR (vy v)) _ GC) as YC. pose proof (abs_mul_le (toR (vx v)) _ GS) as XS. pose proof (abs_mul_le (toR (vy v)) _ GS) as YS.
  assert (MW : mid_vec w).
  { split; [exact F|]. pose proof (apx_mag _ _ _ HX) as MX. pose proof (apx_mag _ _ _ HY) as MY. unfold prot, vecR in MX, MY. cbn [vx vy] in MX, MY.
    pose proof (Rabs_triang (toR (vx v) * cos (deg (toR d))) (- (toR (vy v) * sin (deg (toR d))))) as R1. rewrite Rabs_Ropp in R1. fold (toR (vx v) * cos (deg (toR d)) - toR (vy v) * sin (deg (toR d))) in R1.
    pose proof (Rabs_triang (toR (vx v) * sin (deg (toR d))) (toR (vy v) * cos (deg (toR d)))) as R2.
    assert (Q : 44 * runit * (Rabs (toR (vx v)) + Rabs (toR (vy v))) <= 2 * bpow radix2 980) by (pose proof (Rabs_pos (toR (vx v))); pose proof (Rabs_pos (toR (vy v))); nra).
    rewrite E2. split; lra. }
  destruct (fopp_toR d Fd) as [Fo Vo]. destruct (C114_rotated L w (- d)%float HL Fo MW) as [F2 H2]. fold N in F2, H2. split; [exact F2|].
  eapply Rle_trans; [apply (dist_triangle _ (prot (toR (- d)%float) (vecR w)))|].
  assert (E : vecR v = prot (toR (- d)%float) (prot (toR d) (vecR v))).
  { rewrite Vo. unfold prot, deg. cbn [vx vy]. replace (- toR d * PI / 180) with (- (toR d * PI / 180)) by field. rewrite cos_neg, sin_neg. destruct (vecR v) as [x y]. cbn [vx vy]. set (t := toR d * PI / 180).
    pose proof (sin2_cos2 t) as P. unfold Rsqr in P. f_equal; [transitivity (x * (sin t * sin t + cos t * cos t)); [rewrite P; ring|ring]|transitivity (y * (sin t * sin t + cos t * cos t)); [rewrite P; ring|ring]]. }
  assert (D : dist (prot (toR (- d)%float) (vecR w)) (vecR v) <= dist (vecR w) (prot (toR d) (vecR v))).
  { rewrite E at 1. unfold dist. rewrite prot_sub, prot_norm. lra. }
  change (bpow radix2 (-53)) with runit in *. change (bpow radix2 (-1075)) with tiny in *. apply abs_le2 in K. pose proof (norm_nonneg (vecR v)) as NP. set (n := norm (vecR v)) in *.
  assert (KW : norm (vecR w) <= n + 132 * runit * n + 6 * tiny) by lra. clearbody n.
  assert (X1 : 132 * runit * norm (vecR w) <= 132 * runit * (n + 132 * runit * n + 6 * tiny)) by (apply Rmult_le_compat_l; lra).
  assert (X2 : runit * (runit * n) <= / 1048576 * (runit * n)) by (apply Rmult_le_compat_r; [apply Rmult_le_pos; lra|lra]).
  assert (X3 : runit * tiny <= / 1048576 * tiny) by (apply Rmult_le_compat_r; lra). assert (0 <= runit * n) by (apply Rmult_le_pos; lra). lra.
Qed.
Print Assumptions C114_back.

(** [Vec2.polar]: within 84 roundings of the length from the exact point. *)
Theorem C114_polar : forall (L : FloatLib) (a l : PrimFloat.float), trig_ok L -> finite a -> finite l -> Rabs (toR l) <= bpow radix2 990 -> let N := FNum L in
  close_vec (vec_polar a l) (mkV (toR l * cos (deg (toR a))) (toR l * sin (deg (toR a)))) (84 * bpow radix2 (-53) * Rabs (toR l) + 2 * bpow radix2 (-1075)).
Proof.
  intros L a l HL Fa Fl Bl N. pose proof (cos_sin_err L a HL Fa) as [HC HS]. unfold vec_polar. fold N in HC, HS. destruct (cos_sin_deg a) as [c s]. cbn [fst snd] in *.
  apply mid_huge in Bl. pose proof huge_pos as HP. pose proof runit_small as U1. pose proof runit_pos as U0. assert (GC : Rabs (cos (deg (toR a))) <= 1) by (apply Rabs_le, COS_bound). assert (GS : Rabs (sin (deg (toR a))) <= 1) by (apply Rabs_le, SIN_bound).
  assert (MM : forall c g, apx c g (40 * runit) -> Rabs g <= 1 -> apx (c * l) (toR l * g) (42 * runit * Rabs (toR l) + tiny)).
  { intros c0 g Hc Hg. apply mul_comm_float; [apply turn_mul; auto; lra|exact Fl|apply Hc|]. rewrite Rabs_mult. pose proof (apx_mag _ _ _ Hc) as MC. pose proof (Rabs_pos (toR l)). pose proof (Rabs_pos (toR c0)). nra. }
  destruct (near_dist (mkV (c * l)%float (s * l)%float) (mkV (toR l * cos (deg (toR a))) (toR l * sin (deg (toR a)))) _ (MM _ _ HC GC) (MM _ _ HS GS)) as [F H]. split; [exact F|].
  eapply Rle_trans; [exact H|]. change (bpow radix2 (-53)) with runit. change (bpow radix2 (-1075)) with tiny. lra.
Qed.
Print Assumptions C114_polar.

(** [Affine.rotation(d) * v]: as accurate as [v.rotated(d)]. *)
Theorem C114_rotation : forall (L : FloatLib) (v : vec PrimFloat.float) (d : PrimFloat.float), trig_ok L -> finite d -> mid_vec v -> let N := FNum L in
  close_vec (aapply (arotation d None) v) (prot (toR d) (vecR v)) (132 * bpow radix2 (-53) * norm (vecR v) + 6 * bpow radix2 (-1075)).
Proof.
  intros L v d HL Fd ([Fx Fy] & Bx & By) N. pose proof (cos_sin_err L d HL Fd) as [HC HS]. fold N in HC, HS. unfold aapply, arotation, vec2. destruct (cos_sin_deg d) as [c s]. cbn [fst snd aa ab ac ad ae af] in *. cbn [nadd nsub nmul nopp N FNum].
  change (@n1 _ N) with 1%float. change (@n0 _ N) with 0%float. rewrite !fmul1.
  apply mid_huge in Bx, By. pose proof huge_pos as HP. assert (GC : Rabs (cos (deg (toR d))) <= 1) by (apply Rabs_le, COS_bound). assert (GS : Rabs (sin (deg (toR d))) <= 1) by (apply Rabs_le, SIN_bound).
  assert (GN : Rabs (- sin (deg (toR d))) <= 1) by (rewrite Rabs_Ropp; exact GS). pose proof (apx_opp _ _ _ HS) as HN.
  unfold prot, vecR. cbn [vx vy]. set (C := cos (deg (toR d))) in *. set (D := sin (deg (toR d))) in *. clearbody C D.
  pose proof (turn_mul _ _ _ Fx HC GC ltac:(lra)) as XC. pose proof (turn_mul _ _ _ Fy HN GN ltac:(lra)) as YS.
  pose proof (turn_mul _ _ _ Fx HS GS ltac:(lra)) as XS. pose proof (turn_mul _ _ _ Fy HC GC ltac:(lra)) as YC.
  destruct (turn_sum _ _ _ _ _ _ XC YS) as [Z1 _]; try apply abs_mul_le; auto; try lra.
  destruct (turn_sum _ _ _ _ _ _ XS YC) as [Z2 _]; try apply abs_mul_le; auto; try lra.
  replace (toR (vx v) * C + toR (vy v) * - D) with (toR (vx v) * C - toR (vy v) * D) in Z1 by ring.
  assert (U1 := runit_small). assert (U0 := runit_pos). assert (T0 := tiny_pos). assert (T1 := tiny_small). assert (H4 : 4 <= huge) by (unfold huge; change 4 with (bpow radix2 2); apply bpow_le; lia).
  pose proof (Rabs_pos (toR (vx v))) as PX. pose proof (Rabs_pos (toR (vy v))) as PY.
  assert (Q : 44 * runit * (Rabs (toR (vx v)) + Rabs (toR (vy v))) <= Rabs (toR (vx v)) + Rabs (toR (vy v))) by nra.
  assert (ZZ1 : apx (vx v * c + vy v * - s + 0)%float (toR (vx v) * C - toR (vy v) * D) (44 * runit * (Rabs (toR (vx v)) + Rabs (toR (vy v))) + 3 * tiny)).
  { apply apx_add0; [exact Z1|]. pose proof (apx_mag _ _ _ Z1) as MZ. pose proof (Rabs_triang (toR (vx v) * C) (- (toR (vy v) * D))) as R1. rewrite Rabs_Ropp in R1. fold (toR (vx v) * C - toR (vy v) * D) in R1. pose proof (abs_mul_le (toR (vx v)) _ GC). pose proof (abs_mul_le (toR (vy v)) _ GS). lra. }
  assert (ZZ2 : apx (vx v * s + vy v * c + 0)%float (toR (vx v) * D + toR (vy v) * C) (44 * runit * (Rabs (toR (vx v)) + Rabs (toR (vy v))) + 3 * tiny)).
  { apply apx_add0; [exact Z2|]. pose proof (apx_mag _ _ _ Z2) as MZ. pose proof (Rabs_triang (toR (vx v) * D) (toR (vy v) * C)) as R1. pose proof (abs_mul_le (toR (vx v)) _ GS). pose proof (abs_mul_le (toR (vy v)) _ GC). lra. }
  destruct (near_dist (mkV (vx v * c + vy v * - s + 0)%float (vx v * s + vy v * c + 0)%float) (mkV (toR (vx v) * C - toR (vy v) * D) (toR (vx v) * D + toR (vy v) * C)) _ ZZ1 ZZ2) as [F H].
  split; [exact F|]. eapply Rle_trans; [exact H|]. pose proof (l1_vec v) as LV. unfold vecR in LV. change (bpow radix2 (-53)) with runit. change (bpow radix2 (-1075)) with tiny.
  assert (44 * runit * (Rabs (toR (vx v)) + Rabs (toR (vy v))) <= 44 * runit * (3 / 2 * norm {| vx := toR (vx v); vy := toR (vy v) |})) by (apply Rmult_le_compat_l; lra). lra.
Qed.
Print Assumptions C114_rotation.

(** [Affine.rotation(d, pivot) * v]: the error grows with the distances of the
    vector and of the pivot from the origin. *)
Theorem C114_pivot : forall (L : FloatLib) (v p : vec PrimFloat.float) (d : PrimFloat.float), trig_ok L -> finite d -> mid_vec v -> mid_vec p -> let N := FNum L in
  close_vec (aapply (arotation d (Some p)) v) (padd (vecR p) (prot (toR d) (psub (vecR v) (vecR p))))
    (282 * bpow radix2 (-53) * (norm (vecR v) + norm (vecR p)) + 16 * bpow radix2 (-1075)).
Proof.
  intros L v p d HL Fd ([Fx Fy] & Bx & By) ([Fp Fq] & Bp & Bq) N. pose proof (cos_sin_err L d HL Fd) as [HC HS]. fold N in HC, HS. unfold aapply, arotation, vec2. destruct (cos_sin_deg d) as [c s]. cbn [fst snd aa ab ac ad ae af] in *. cbn [nadd nsub nmul nopp N FNum].
  change (@n1 _ N) with 1%float. rewrite !fmul1.
  apply mid_huge in Bx, By, Bp, Bq. pose proof huge_pos as HP. assert (GC : Rabs (cos (deg (toR d))) <= 1) by (apply Rabs_le, COS_bound). assert (GS : Rabs (sin (deg (toR d))) <= 1) by (apply Rabs_le, SIN_bound).
  assert (GN : Rabs (- sin (deg (toR d))) <= 1) by (rewrite Rabs_Ropp; exact GS). pose proof (apx_opp _ _ _ HS) as HN.
  pose proof (l1_vec v) as LV. pose proof (l1_vec p) as LP.
  unfold prot, padd, psub, vecR in *. cbn [vx vy] in *. set (nv := norm {| vx := toR (vx v); vy := toR (vy v) |}) in *. set (np := norm {| vx := toR (vx p); vy := toR (vy p) |}) in *. clearbody nv np.
  set (C := cos (deg (toR d))) in *. set (D := sin (deg (toR d))) in *. clearbody C D.
  pose proof (turn_mul _ _ _ Fx HC GC ltac:(lra)) as XC. pose proof (turn_mul _ _ _ Fy HN GN ltac:(lra)) as YS.
  pose proof (turn_mul _ _ _ Fx HS GS ltac:(lra)) as XS. pose proof (turn_mul _ _ _ Fy HC GC ltac:(lra)) as YC.
  pose proof (turn_mul _ _ _ Fp HC GC ltac:(lra)) as PC. pose proof (turn_mul _ _ _ Fq HS GS ltac:(lra)) as QS.
  pose proof (turn_mul _ _ _ Fp HS GS ltac:(lra)) as PS. pose proof (turn_mul _ _ _ Fq HC GC ltac:(lra)) as QC.
  pose proof (apx_exact _ Fp) as EP. pose proof (apx_exact _ Fq) as EQ.
  destruct v as [x y], p as [px py]. cbn [vx vy] in *.
  pose proof (Rabs_pos (toR x)) as PX. pose proof (Rabs_pos (toR y)) as PY. pose proof (Rabs_pos (toR px)) as PPX. pose proof (Rabs_pos (toR py)) as PPY.
  pose proof (abs_mul_le (toR x) _ GC) as A1. pose proof (abs_mul_le (toR x) _ GS) as A2. pose proof (abs_mul_le (toR y) _ GC) as A3. pose proof (abs_mul_le (toR y) _ GN) as A4.
  pose proof (abs_mul_le (toR px) _ GC) as A5. pose proof (abs_mul_le (toR px) _ GS) as A6. pose proof (abs_mul_le (toR py) _ GC) as A7. pose proof (abs_mul_le (toR py) _ GS) as A8.
  set (X := Rabs (toR x)) in *. set (Y := Rabs (toR y)) in *. set (P := Rabs (toR px)) in *. set (Q := Rabs (toR py)) in *.
  pose proof runit_pos as U0. pose proof tiny_pos as T0.
  assert (W : forall f z k j Z, apx f z (42 * runit * Z + tiny) -> 42 <= k -> 1 <= j -> 0 <= Z -> apx f z (k * runit * Z + j * tiny)).
  { intros f z k j Z H Hk Hj HZ. eapply apx_weak; [exact H|]. assert (0 <= runit * Z) by (apply Rmult_le_pos; lra). nra. }
  (* linear part *)
  destruct (turn_sum _ _ _ _ X Y XC YS) as [L1 _]; try lra. destruct (turn_sum _ _ _ _ X Y XS YC) as [L2 _]; try lra.
  (* constant column *)
  assert (EP' : apx px (toR px) (0 * runit * P + 0 * tiny)) by (eapply apx_weak; [exact EP|lra]). assert (EQ' : apx py (toR py) (0 * runit * Q + 0 * tiny)) by (eapply apx_weak; [exact EQ|lra]).
  apply (W _ _ 42 1 _) in PC; try lra. apply (W _ _ 42 1 _) in QS; try lra. apply (W _ _ 42 1 _) in PS; try lra. apply (W _ _ 42 1 _) in QC; try lra.
  assert (RP : Rabs (toR px) <= P) by (unfold P; lra). assert (RQ : Rabs (toR py) <= Q) by (unfold Q; lra). clearbody X Y P Q.
  destruct (acc 0 42 0 1 _ _ _ _ P P EP' PC) as [_ K1]; try lra.
  assert (K1' : apx (px - px * c)%float (toR px - toR px * C) (23 * runit * (2 * P) + 2 * tiny)) by (eapply apx_weak; [exact K1|lra]). clear K1.
  assert (M1 : Rabs (toR px - toR px * C) <= 2 * P). { pose proof (Rabs_triang (toR px) (- (toR px * C))) as R1. rewrite Rabs_Ropp in R1. unfold Rminus. lra. }
  destruct (acc 23 42 2 1 _ _ _ _ (2 * P) Q K1' QS) as [K2 _]; try lra.
  assert (M2 : Rabs (toR px - toR px * C + toR py * D) <= 2 * (P + Q)). { pose proof (Rabs_triang (toR px - toR px * C) (toR py * D)). lra. }
  assert (RPs : 0 <= runit * P) by (apply Rmult_le_pos; lra). assert (RQs : 0 <= runit * Q) by (apply Rmult_le_pos; lra). assert (RXs : 0 <= runit * X) by (apply Rmult_le_pos; lra). assert (RYs : 0 <= runit * Y) by (apply Rmult_le_pos; lra).
  assert (K2' : apx (px - px * c + py * s)%float (toR px - toR px * C + toR py * D) (25 * runit * (2 * (P + Q)) + 4 * tiny)) by (eapply apx_weak; [exact K2|lra]). clear K2.
  assert (LL1 : apx (x * c + y * - s)%float (toR x * C + toR y * - D) (44 * runit * (X + Y) + 3 * tiny)) by exact L1.
  assert (ML1 : Rabs (toR x * C + toR y * - D) <= X + Y). { pose proof (Rabs_triang (toR x * C) (toR y * - D)). lra. }
  destruct (acc 44 25 3 4 _ _ _ _ (X + Y) (2 * (P + Q)) LL1 K2') as [Z1 _]; try lra.
  (* second coordinate *)
  destruct (acc 0 42 0 1 _ _ _ _ Q P EQ' PS) as [_ K3]; try lra.
  assert (M3 : Rabs (toR py - toR px * D) <= P + Q). { pose proof (Rabs_triang (toR py) (- (toR px * D))) as R1. rewrite Rabs_Ropp in R1. unfold Rminus. lra. }
  assert (K3' : apx (py - px * s)%float (toR py - toR px * D) (44 * runit * (P + Q) + 2 * tiny)) by (eapply apx_weak; [exact K3|lra]). clear K3.
  destruct (acc 44 42 2 1 _ _ _ _ (P + Q) Q K3' QC) as [_ K4]; try lra.
  assert (M4 : Rabs (toR py - toR px * D - toR py * C) <= 2 * (P + Q)). { pose proof (Rabs_triang (toR py - toR px * D) (- (toR py * C))) as R1. rewrite Rabs_Ropp in R1. unfold Rminus in *. lra. }
  assert (K4' : apx (py - px * s - py * c)%float (toR py - toR px * D - toR py * C) (45 * runit * (2 * (P + Q)) + 4 * tiny)) by (eapply apx_weak; [exact K4|lra]). clear K4.
  assert (LL2 : apx (x * s + y * c)%float (toR x * D + toR y * C) (44 * runit * (X + Y) + 3 * tiny)) by exact L2.
  assert (ML2 : Rabs (toR x * D + toR y * C) <= X + Y). { pose proof (Rabs_triang (toR x * D) (toR y * C)). lra. }
  destruct (acc 44 45 3 4 _ _ _ _ (X + Y) (2 * (P + Q)) LL2 K4') as [Z2 _]; try lra.
  set (e := 94 * runit * (X + Y + P + Q) + 8 * tiny).
  assert (ZZ1 : apx (x * c + y * - s + (px - px * c + py * s))%float (toR px + ((toR x - toR px) * C - (toR y - toR py) * D)) e).
  { apply apx_eq with (toR x * C + toR y * - D + (toR px - toR px * C + toR py * D)); [eapply apx_weak; [exact Z1|unfold e; lra]|ring]. }
  assert (ZZ2 : apx (x * s + y * c + (py - px * s - py * c))%float (toR py + ((toR x - toR px) * D + (toR y - toR py) * C)) e).
  { apply apx_eq with (toR x * D + toR y * C + (toR py - toR px * D - toR py * C)); [eapply apx_weak; [exact Z2|unfold e; lra]|ring]. }
  destruct (near_dist (mkV (x * c + y * - s + (px - px * c + py * s))%float (x * s + y * c + (py - px * s - py * c))%float)
    (mkV (toR px + ((toR x - toR px) * C - (toR y - toR py) * D)) (toR py + ((toR x - toR px) * D + (toR y - toR py) * C))) e ZZ1 ZZ2) as [F H].
  split; [exact F|]. eapply Rle_trans; [exact H|]. unfold e. change (bpow radix2 (-53)) with runit. change (bpow radix2 (-1075)) with tiny.
  assert (runit * (X + Y + P + Q) <= runit * (3 / 2 * (nv + np))) by (apply Rmult_le_compat_l; lra). lra.
Qed.
Print Assumptions C114_pivot.

(** The pivot stays where it is, up to that error. *)
Theorem C114_pivot_fixed : forall (L : FloatLib) (p : vec PrimFloat.float) (d : PrimFloat.float), trig_ok L -> finite d -> mid_vec p -> let N := FNum L in
  close_vec (aapply (arotation d (Some p)) p) (vecR p) (564 * bpow radix2 (-53) * norm (vecR p) + 16 * bpow radix2 (-1075)).
Proof.
  intros L p d HL Fd Hp N. destruct (C114_pivot L p p d HL Fd Hp Hp) as [F H]. fold N in F, H. split; [exact F|].
  replace (padd (vecR p) (prot (toR d) (psub (vecR p) (vecR p)))) with (vecR p) in H; [lra|]. unfold prot. ug. destruct (vecR p) as [a b]. cbn [vx vy]. f_equal; ring.
Qed.
Print Assumptions C114_pivot_fixed.

Lemma prod_unit a b x y : apx a x (40 * runit) -> apx b y (40 * runit) -> Rabs x <= 1 -> Rabs y <= 1 -> apx (a * b) (x * y) (92 * runit).
Proof.
  intros Ha Hb Hx Hy. pose proof runit_pos. pose proof runit_small. pose proof tiny_small. pose proof huge_pos. assert (4 <= huge) by (unfold huge; change 4 with (bpow radix2 2); apply bpow_le; lia).
  eapply apx_weak; [apply (apx_mul a b x y _ _ (1 + 40 * runit) (1 + 40 * runit) Ha Hb); try lra; nra|]. nra.
Qed.
Lemma sum_unit a b x y : apx a x (92 * runit) -> apx b y (92 * runit) -> Rabs x <= 1 -> Rabs y <= 1 -> apx (a + b) (x + y) (190 * runit) /\ apx (a - b) (x - y) (190 * runit).
Proof.
  intros Ha Hb Hx Hy. pose proof runit_pos. pose proof runit_small. assert (4 <= huge) by (unfold huge; change 4 with (bpow radix2 2); apply bpow_le; lia).
  split; (eapply apx_weak; [first [apply (apx_add _ _ _ _ _ _ 3 Ha Hb)|apply (apx_sub _ _ _ _ _ _ 3 Ha Hb)]|]); try lra.
  - pose proof (Rabs_triang x y). lra.
  - pose proof (Rabs_triang x (- y)) as K. rewrite Rabs_Ropp in K. unfold Rminus. lra.
Qed.

(** Rotation matrices pass the tests for rotations, whatever the angle and the pivot. *)
Theorem C114_orthonormal : forall (L : FloatLib) (E d : PrimFloat.float) (p : option (vec PrimFloat.float)), trig_ok L -> finite d ->
  finite E -> bpow radix2 (-44) <= toR E <= / 2 -> let N := FNum L in
  is_conformal E (arotation d p) = true /\ is_orthonormal E (arotation d p) = true /\ is_degenerate E (arotation d p) = false.
Proof.
  intros L E d p HL Fd FE BE N. pose proof (cos_sin_err L d HL Fd) as [HC HS]. fold N in HC, HS.
  assert (M : exists c s x y, arotation d p = mkA c s x (- s)%float c y /\ apx c (cos (deg (toR d))) (40 * runit) /\ apx s (sin (deg (toR d))) (40 * runit)).
  { unfold arotation. destruct (cos_sin_deg d) as [c s]. cbn [fst snd] in *. destruct p as [q|]; [exists c, s, (vx q - vx q * c + vy q * s)%float, (vy q - vx q * s - vy q * c)%float|exists c, s, 0%float, 0%float]; repeat split; auto; apply HC || apply HS. }
  clear HC HS. destruct M as (c & s & x & y & EM & HC & HS). rewrite EM. clear EM.
  assert (GC : Rabs (cos (deg (toR d))) <= 1) by (apply Rabs_le, COS_bound). assert (GS : Rabs (sin (deg (toR d))) <= 1) by (apply Rabs_le, SIN_bound).
  assert (GN : Rabs (- sin (deg (toR d))) <= 1) by (rewrite Rabs_Ropp; exact GS). pose proof (apx_opp _ _ _ HS) as HN.
  pose proof (sin2_cos2 (deg (toR d))) as PY. unfold Rsqr in PY. set (C := cos (deg (toR d))) in *. set (D := sin (deg (toR d))) in *. clearbody C D.
  assert (LE1 : forall a b, Rabs a <= 1 -> Rabs b <= 1 -> Rabs (a * b) <= 1) by (intros a b Ha Hb; pose proof (abs_mul_le a b Hb); lra).
  pose proof runit_pos as U0. pose proof runit_small as U1. assert (H4 : 4 <= huge) by (unfold huge; change 4 with (bpow radix2 2); apply bpow_le; lia).
  assert (E44 : bpow radix2 (-44) = 512 * runit). { unfold runit. replace 512 with (bpow radix2 9) by (cbn; lra). rewrite <- bpow_plus. reflexivity. }
  rewrite E44 in BE. pose proof (apx_exact E FE) as AE.
  pose proof (float_of_Z_exact 1 ltac:(lia)) as [F1 V1]. change (float_of_Z 1) with 1%float in *. pose proof (apx_exact 1 F1) as A1. rewrite V1 in A1.
  (* the three sums *)
  assert (S1 : apx (c * s + - s * c)%float 0 (190 * runit)).
  { apply apx_eq with (C * D + - D * C); [|ring]. apply sum_unit; try (apply LE1; auto); apply prod_unit; auto. }
  assert (S2 : apx (c * c + - s * - s)%float 1 (190 * runit)).
  { apply apx_eq with (C * C + - D * - D); [|lra]. apply sum_unit; try (apply LE1; auto); apply prod_unit; auto. }
  assert (S3 : apx (s * s + c * c)%float 1 (190 * runit)).
  { apply apx_eq with (D * D + C * C); [|lra]. apply sum_unit; try (apply LE1; auto); apply prod_unit; auto. }
  assert (S4 : apx (c * c - s * - s)%float 1 (190 * runit)).
  { apply apx_eq with (C * C - D * - D); [|lra]. apply sum_unit; try (apply LE1; auto); apply prod_unit; auto. }
  assert (ONE : forall f, apx f 1 (190 * runit) -> apx (1 - f)%float 0 (192 * runit)).
  { intros f Hf. apply apx_eq with (1 - 1); [|ring]. eapply apx_weak; [apply (apx_sub _ _ _ _ _ _ 1 A1 Hf)|]; try lra. rewrite Rminus_diag_eq, Rabs_R0 by reflexivity. lra. }
  assert (SMALL : forall f, apx f 0 (192 * runit) -> PrimFloat.ltb (abs f) E = true).
  { intros f Hf. apply apx_abs in Hf. rewrite Rabs_R0 in Hf. apply (proj1 (apx_lt _ _ _ _ _ _ Hf AE)). lra. }
  assert (Q1 : is_conformal E (mkA c s x (- s)%float c y) = true).
  { unfold is_conformal. cbn [aa ab ad ae nabs nadd nmul nltb N FNum]. apply SMALL. eapply apx_weak; [exact S1|lra]. }
  split; [exact Q1|]. split.
  - unfold is_orthonormal. rewrite Q1. cbn [aa ab ad ae nabs nadd nsub nmul nltb N FNum andb]. change (@n1 _ N) with 1%float.
    rewrite (SMALL _ (ONE _ S2)), (SMALL _ (ONE _ S3)). reflexivity.
  - unfold is_degenerate, determinant. cbn [aa ab ad ae nabs nadd nsub nmul nltb N FNum]. apply apx_abs in S4. rewrite Rabs_R1 in S4.
    destruct (PrimFloat.ltb (abs (c * c - s * - s)) E) eqn:Q; auto. apply (proj2 (apx_lt _ _ _ _ _ _ S4 AE)) in Q. lra.
Qed.
Print Assumptions C114_orthonormal.

(** The hypotheses can be met: by the correctly rounded functions; 1000 degrees, and a point of large coordinates. *)
Example C114_ex : trig_ok ideal_lib /\ finite 1000%float /\ finite (-37.5)%float /\ mid_vec (mkV 3 (-4))%float /\ mid_vec (mkV 0x1p900 1)%float.
Proof.
  split; [exact ideal_trig|]. split; [reflexivity|]. split; [reflexivity|].
  assert (V3 : toR 3%float = 3) by exact (proj2 (float_of_Z_exact 3 ltac:(lia))). assert (V4 : toR (-4)%float = -4) by exact (proj2 (float_of_Z_exact (-4) ltac:(lia))). assert (V1 : toR 1%float = 1) by exact (proj2 (float_of_Z_exact 1 ltac:(lia))).
  assert (B : 4 <= bpow radix2 990) by (change 4 with (bpow radix2 2); apply bpow_le; lia).
  split; (split; [split; reflexivity|]); cbn [vx vy].
  - rewrite V3, V4. split; apply Rabs_le; lra.
  - rewrite V1. split; [|apply Rabs_le; lra]. assert (V : toR 0x1p900%float = bpow radix2 900); [|rewrite V, Rabs_pos_eq by apply bpow_ge_0; apply bpow_le; lia].
    unfold toR. rewrite <- SF2R_B2SF, B2SF_Prim2B. replace (Prim2SF 0x1p900%float) with (S754_finite false 4503599627370496 848) by (vm_compute; reflexivity). unfold SF2R, F2R. cbn [Fnum Fexp cond_Zopp]. 
    replace (IZR 4503599627370496) with (bpow radix2 52) by (cbn; lra). rewrite <- bpow_plus. reflexivity.
Qed.
Example C114_orthonormal_ex : finite 0x1p-17%float /\ bpow radix2 (-44) <= toR 0x1p-17%float <= / 2.
Proof.
  split; [reflexivity|]. assert (V : toR 0x1p-17%float = bpow radix2 (-17)).
  { unfold toR. rewrite <- SF2R_B2SF, B2SF_Prim2B. replace (Prim2SF 0x1p-17%float) with (S754_finite false 4503599627370496 (-69)) by (vm_compute; reflexivity). unfold SF2R, F2R. cbn [Fnum Fexp cond_Zopp].
    replace (IZR 4503599627370496) with (bpow radix2 52) by (cbn; lra). rewrite <- bpow_plus. reflexivity. }
  rewrite V. split; [apply bpow_le; lia|]. replace (/ 2) with (bpow radix2 (-1)) by (cbn; lra). apply bpow_le. lia.
Qed.
