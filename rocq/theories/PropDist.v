(** * Property C87, distances: [Vec2.distance_to] on doubles is accurate also where the squares overflow *)
From Coq Require Import ZArith List Bool Reals Lra Lia Floats SpecFloat.
From Flocq Require Import Core IEEE754.PrimFloat IEEE754.BinarySingleNaN.
From Verif Require Import Num NumFloat Vec OrdLaws SpecGeom RBase VecFacts2 FloatFacts FloatFacts2 FloatVec SpecExact FloatExact FloatErr FloatErr2 FloatErr3.
Import ListNotations.
Local Open Scope R_scope.

(** Accuracy assumed of [math.hypot]: within two roundings at the given arguments. *)
Definition hypot_at (L : FloatLib) (x y : PrimFloat.float) : Prop :=
  finite (fl_hypot L x y) /\
  Rabs (toR (fl_hypot L x y) - norm (mkV (toR x) (toR y))) <= 2 * bpow radix2 (-53) * norm (mkV (toR x) (toR y)) + bpow radix2 (-1075).

Lemma fsub_rel a b : finite a -> finite b -> Rabs (toR a - toR b) <= huge -> Rabs (toR (a - b) - (toR a - toR b)) <= runit * Rabs (toR a - toR b).
Proof.
  intros Fa Fb H. destruct (fsub_toR a b Fa Fb H) as [_ ->]. replace (toR a - toR b) with (toR a + toR (- b)) by (rewrite (proj2 (fopp_toR b Fb)); ring).
  apply frnd_add_err; apply toR_format.
Qed.
Lemma norm_mono (a b c d : R) : Rabs a <= Rabs c -> Rabs b <= Rabs d -> norm (mkV a b) <= norm (mkV c d).
Proof.
  intros H1 H2. unfold norm. cbn [vx vy]. apply sqrt_le_1_alt. apply Rplus_le_compat.
  - change (Rsqr a <= Rsqr c). apply Rsqr_le_abs_1, H1.
  - change (Rsqr b <= Rsqr d). apply Rsqr_le_abs_1, H2.
Qed.
Lemma norm_scale (k a b : R) : 0 <= k -> norm (mkV (k * a) (k * b)) = k * norm (mkV a b).
Proof.
  intro H. unfold norm. cbn [vx vy]. replace (k * a * (k * a) + k * b * (k * b)) with (Rsqr k * (a * a + b * b)) by (unfold Rsqr; ring).
  rewrite sqrt_mult_alt by apply Rle_0_sqr. rewrite sqrt_Rsqr by exact H. reflexivity.
Qed.
Theorem C87_distance : forall (L : FloatLib) (v w : vec PrimFloat.float), finite_vec v -> finite_vec w ->
  Rabs (toR (vx v) - toR (vx w)) <= bpow radix2 1000 -> Rabs (toR (vy v) - toR (vy w)) <= bpow radix2 1000 -> let N := FNum L in
  hypot_at L (vx v - vx w)%float (vy v - vy w)%float ->
  apx (distance_to v w) (dist (vecR v) (vecR w)) (4 * bpow radix2 (-53) * dist (vecR v) (vecR w) + bpow radix2 (-1075)).
Proof.
  intros L v w [V1 V2] [W1 W2] BX BY N [F H]. unfold distance_to. cbn [nhypot nsub N FNum]. split; [exact F|].
  set (h := toR (fl_hypot L (vx v - vx w) (vy v - vy w))) in *. clearbody h.
  pose proof (fsub_rel _ _ V1 W1 BX) as RX. pose proof (fsub_rel _ _ V2 W2 BY) as RY.
  change (dist (vecR v) (vecR w)) with (norm (mkV (toR (vx v) - toR (vx w)) (toR (vy v) - toR (vy w)))).
  set (dx := toR (vx v) - toR (vx w)) in *. set (dy := toR (vy v) - toR (vy w)) in *.
  set (x := toR (vx v - vx w)) in *. set (y := toR (vy v - vy w)) in *. clearbody dx dy x y. change (bpow radix2 (-53)) with runit in *. change (bpow radix2 (-1075)) with tiny in *.
  pose proof runit_pos as U0. pose proof runit_small as U1.
  assert (G : norm (mkV (x - dx) (y - dy)) <= runit * norm (mkV dx dy)).
  { rewrite <- norm_scale by lra. apply norm_mono; rewrite Rabs_mult, (Rabs_pos_eq runit) by lra; assumption. }
  assert (G2 : norm (mkV (dx - x) (dy - y)) = norm (mkV (x - dx) (y - dy))) by (unfold norm; cbn [vx vy]; f_equal; ring).
  assert (T1 : norm (mkV x y) <= norm (mkV dx dy) + norm (mkV (x - dx) (y - dy))).
  { eapply Rle_trans; [|apply norm_triangle]. right. f_equal. unfold padd. cbn [vx vy]. f_equal; ring. }
  assert (T2 : norm (mkV dx dy) <= norm (mkV x y) + norm (mkV (dx - x) (dy - y))).
  { eapply Rle_trans; [|apply norm_triangle]. right. f_equal. unfold padd. cbn [vx vy]. f_equal; ring. }
  rewrite G2 in T2. pose proof (norm_pos (mkV dx dy)) as P0. set (n := norm (mkV dx dy)) in *. set (m := norm (mkV x y)) in *. set (e := norm (mkV (x - dx) (y - dy))) in *. clearbody n m e.
  apply abs_le2 in H. apply Rabs_le. assert (M : m <= n + runit * n) by lra.
  assert (M2 : 2 * runit * m <= 2 * runit * (n + runit * n)) by (apply Rmult_le_compat_l; lra).
  assert (M3 : runit * (runit * n) <= / 1048576 * (runit * n)) by (apply Rmult_le_compat_r; [apply Rmult_le_pos; lra|lra]).
  assert (M4 : 0 <= runit * n) by (apply Rmult_le_pos; lra). lra.
Qed.
Print Assumptions C87_distance.
(** Points so far apart that the square of the distance overflows. *)
Example C87_distance_ex : let v := (mkV 0x1.8p701 0)%float in let w := (mkV 0 0x1p702)%float in let L := {| fl_sqrt := PrimFloat.sqrt; fl_pow2 := fun x => (x * x)%float; fl_floordiv := fun x _ => x; fl_mod := fun x _ => x;
     fl_cos := fun x => x; fl_sin := fun x => x; fl_tan := fun x => x; fl_atan2 := fun x _ => x; fl_hypot := fun x y => 0x1.4p702%float;
     fl_radians := fun x => x; fl_degrees := fun x => x |} in
  finite_vec v /\ finite_vec w /\ hypot_at L (vx v - vx w)%float (vy v - vy w)%float /\ @length2 _ (FNum L) (@vsub _ (FNum L) v w) = infinity.
Proof.
  cbv zeta. split; [split; reflexivity|]. split; [split; reflexivity|]. split; [|vm_compute; reflexivity]. split; [reflexivity|]. cbn [fl_hypot vx vy].
  assert (V : forall f m e, Prim2SF f = S754_finite false m e -> toR f = IZR (Zpos m) * bpow radix2 e).
  { intros f m e H. unfold toR. change (Prim2B f) with (SF2B (Prim2SF f) (Prim2SF_valid f)). rewrite B2R_SF2B, H. reflexivity. }
  assert (V' : forall f m e, Prim2SF f = S754_finite true m e -> toR f = IZR (Zneg m) * bpow radix2 e).
  { intros f m e H. unfold toR. change (Prim2B f) with (SF2B (Prim2SF f) (Prim2SF_valid f)). rewrite B2R_SF2B, H. reflexivity. }
  rewrite (V 0x1.4p702%float 5629499534213120%positive 650%Z) by (vm_compute; reflexivity).
  rewrite (V (0x1.8p701 - 0)%float 6755399441055744%positive 649%Z) by (vm_compute; reflexivity).
  rewrite (V' (0 - 0x1p702)%float 4503599627370496%positive 650%Z) by (vm_compute; reflexivity).
  replace (bpow radix2 650) with (2 * bpow radix2 649) by (change 650%Z with (1 + 649)%Z; rewrite bpow_plus; reflexivity).
  set (b := bpow radix2 649). assert (B : 0 < b) by apply bpow_gt_0. clearbody b.
  assert (K : norm (mkV (6755399441055744 * b) (-4503599627370496 * (2 * b))) = 5629499534213120 * (2 * b)).
  { unfold norm. cbn [vx vy]. replace (_ + _) with (Rsqr (5629499534213120 * (2 * b))) by (unfold Rsqr; ring). apply sqrt_Rsqr. lra. }
  rewrite K, Rminus_diag_eq, Rabs_R0 by reflexivity. pose proof (bpow_gt_0 radix2 (-53)). pose proof (bpow_gt_0 radix2 (-1075)).
  assert (0 <= 2 * bpow radix2 (-53) * (5629499534213120 * (2 * b))) by (apply Rmult_le_pos; lra). lra.
Qed.
