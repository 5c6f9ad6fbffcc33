(** * C97: bounding boxes on doubles *)
From Coq Require Import ZArith List Bool Reals Lra Lia Psatz Floats.
From Flocq Require Import Core Relative Plus_error IEEE754.PrimFloat IEEE754.BinarySingleNaN.
From Verif Require Import Num NumFloat Vec Affine Box Seq Polygon BoxPoly OrdLaws SpecGeom SpecBox RBase BoxFacts FloatFacts FloatFacts2 FloatVec SpecExact FloatExact FloatErr FloatErr2 FloatErr4 FloatErr5 SpecBoxF BoxFloat.
Import ListNotations.
Local Open Scope R_scope.

(** The center lies in the closed box and is the exact midpoint up to rounding. *)
Theorem C97_center : forall (L : FloatLib) (b : bbox PrimFloat.float), box_within (huge / 2) b -> proper (boxR b) -> let N := FNum L in
  exists c, box_center b = Ok c /\ finite_vec c /\ in_closed (boxR b) (vecR c) /\
    Rabs (toR (vx c) - vx (mid (boxR b))) <= 3 * runit * Rabs (vx (mid (boxR b))) + tiny /\
    Rabs (toR (vy c) - vy (mid (boxR b))) <= 3 * runit * Rabs (vy (mid (boxR b))) + tiny.
Proof.
  intros L b [B1 B2] [PX PY] N. apply within_coords in B1, B2. cbn [boxR vecR bmin bmax vx vy] in *.
  destruct (mid_coord _ _ _ (Rle_refl _) (proj1 B1) (proj1 B2) PX) as (F1 & X1 & E1).
  destruct (mid_coord _ _ _ (Rle_refl _) (proj2 B1) (proj2 B2) PY) as (F2 & X2 & E2).
  exists (mkV ((vx (bmin b) + vx (bmax b)) / 2)%float ((vy (bmin b) + vy (bmax b)) / 2)%float). split; [reflexivity|].
  unfold finite_vec, in_closed, mid. cbn [boxR vecR bmin bmax vx vy]. tauto.
Qed.
Print Assumptions C97_center.

(** Width and height are the exact ones, correctly rounded, never negative; a
    box is empty exactly if two of its sides coincide. *)
Theorem C97_size : forall (L : FloatLib) (b : bbox PrimFloat.float), box_within (huge / 2) b -> proper (boxR b) -> let N := FNum L in
  (finite (box_width b) /\ 0 <= toR (box_width b) /\ Rabs (toR (box_width b) - wd (boxR b)) <= runit * wd (boxR b)) /\
  (finite (box_height b) /\ 0 <= toR (box_height b) /\ Rabs (toR (box_height b) - ht (boxR b)) <= runit * ht (boxR b)) /\
  (box_is_empty b = true <-> wd (boxR b) = 0 \/ ht (boxR b) = 0).
Proof.
  intros L b [B1 B2] [PX PY] N. apply within_coords in B1, B2. unfold wd, ht. cbn [boxR vecR bmin bmax vx vy] in *.
  destruct (sub_coord _ _ _ (Rle_refl _) (proj1 B2) (proj1 B1)) as (F1 & R1 & E1).
  destruct (sub_coord _ _ _ (Rle_refl _) (proj2 B2) (proj2 B1)) as (F2 & R2 & E2).
  rewrite (Rabs_pos_eq (toR (vx (bmax b)) - toR (vx (bmin b)))) in E1 by lra. rewrite (Rabs_pos_eq (toR (vy (bmax b)) - toR (vy (bmin b)))) in E2 by lra.
  assert (Q1 : 0 <= toR (vx (bmax b) - vx (bmin b))) by (rewrite R1; apply frnd_pos; lra).
  assert (Q2 : 0 <= toR (vy (bmax b) - vy (bmin b))) by (rewrite R2; apply frnd_pos; lra).
  split; [|split]; auto. unfold box_is_empty, nfalsy. cbn [vsub vx vy]. cbn [neqb nsub N FNum]. change (@n0 _ N) with 0%float.
  rewrite orb_true_iff, !toR_eq by (auto; reflexivity). rewrite toR_0. unfold Reqb.
  assert (Z1 : forall x y : PrimFloat.float, toR (x - y) = frnd (toR x - toR y) -> (toR (x - y) = 0 <-> toR x - toR y = 0)).
  { intros x y K. rewrite K. split; intro H; [apply frnd_diff_0 in H; [lra|apply toR_format|apply toR_format]|rewrite H; apply frnd_0]. }
  apply Z1 in R1, R2. clear Z1.
  destruct (Req_EM_T (toR (vx (bmax b) - vx (bmin b))) 0), (Req_EM_T (toR (vy (bmax b) - vy (bmin b))) 0); intuition congruence.
Qed.
Print Assumptions C97_size.

(** A box inflated by a non-negative amount encloses the original one; inflated
    by a negative amount of at most its size it stays inside. *)
Theorem C97_inflate : forall (L : FloatLib) (b : bbox PrimFloat.float) (v : vec PrimFloat.float),
  box_within (huge / 2) b -> proper (boxR b) -> within (huge / 2) v -> let N := FNum L in
  exists r, box_inflate b v = Ok r /\ finite_vec (bmin r) /\ finite_vec (bmax r) /\ proper (boxR r) /\
    (0 <= toR (vx v) -> 0 <= toR (vy v) -> encloses (boxR r) (boxR b)) /\
    (- wd (boxR b) <= toR (vx v) <= 0 -> - ht (boxR b) <= toR (vy v) <= 0 -> encloses (boxR b) (boxR r)).
Proof.
  intros L b v [B1 B2] [PX PY] V N. apply within_coords in B1, B2, V. unfold wd, ht. cbn [boxR vecR bmin bmax vx vy] in *.
  destruct (half_coord _ _ (Rle_refl _) (proj1 V)) as (H1 & R1). destruct (half_coord _ _ (Rle_refl _) (proj2 V)) as (H2 & R2).
  destruct (sub_coord _ _ _ (Rle_refl _) (proj1 B1) H1) as (F1 & S1 & _). destruct (sub_coord _ _ _ (Rle_refl _) (proj2 B1) H2) as (F2 & S2 & _).
  destruct (add_coord _ _ _ (Rle_refl _) (proj1 B2) H1) as (F3 & S3 & _). destruct (add_coord _ _ _ (Rle_refl _) (proj2 B2) H2) as (F4 & S4 & _).
  destruct (two_points L (mkV (vx (bmin b) - vx v / 2) (vy (bmin b) - vy v / 2))%float (mkV (vx (bmax b) + vx v / 2) (vy (bmax b) + vy v / 2))%float) as (r & Hr & G1 & G2 & X1 & X2 & Y1 & Y2);
    [split; auto|split; auto|]. cbn [vx vy] in *.
  exists r. split.
  { rewrite <- Hr. unfold box_inflate. rewrite (vec2_of_id L). reflexivity. }
  unfold proper, encloses, in_closed. cbn [boxR vecR bmin bmax vx vy]. rewrite X1, X2, Y1, Y2. split; [auto|split; [auto|split]].
  { split; apply Rle_trans with (1 := Rmin_l _ _), Rmax_l. }
  pose proof (toR_format (vx (bmin b))) as T1. pose proof (toR_format (vx (bmax b))) as T2. pose proof (toR_format (vy (bmin b))) as T3. pose proof (toR_format (vy (bmax b))) as T4.
  split; intros Q1 Q2.
  - assert (0 <= toR (vx v / 2)) by (rewrite R1; apply frnd_pos; lra). assert (0 <= toR (vy v / 2)) by (rewrite R2; apply frnd_pos; lra).
    assert (toR (vx (bmin b) - vx v / 2) <= toR (vx (bmin b))) by (rewrite S1; apply frnd_hi; auto; lra).
    assert (toR (vy (bmin b) - vy v / 2) <= toR (vy (bmin b))) by (rewrite S2; apply frnd_hi; auto; lra).
    assert (toR (vx (bmax b)) <= toR (vx (bmax b) + vx v / 2)) by (rewrite S3; apply frnd_lo; auto; lra).
    assert (toR (vy (bmax b)) <= toR (vy (bmax b) + vy v / 2)) by (rewrite S4; apply frnd_lo; auto; lra).
    rewrite !Rmin_left, !Rmax_right by lra. intros p. lra.
  - assert (K : forall x h : PrimFloat.float, toR h = frnd (toR x / 2) -> toR x <= 0 -> toR x <= toR h <= 0).
    { intros x h -> Hx. split; [apply frnd_lo; [apply toR_format|lra]|apply frnd_hi; [apply generic_format_0|lra]]. }
    pose proof (K _ _ R1 (proj2 Q1)). pose proof (K _ _ R2 (proj2 Q2)). clear K.
    assert (toR (vx (bmin b)) <= toR (vx (bmin b) - vx v / 2) <= toR (vx (bmax b))) by (rewrite S1; split; [apply frnd_lo|apply frnd_hi]; auto; lra).
    assert (toR (vy (bmin b)) <= toR (vy (bmin b) - vy v / 2) <= toR (vy (bmax b))) by (rewrite S2; split; [apply frnd_lo|apply frnd_hi]; auto; lra).
    assert (toR (vx (bmin b)) <= toR (vx (bmax b) + vx v / 2) <= toR (vx (bmax b))) by (rewrite S3; split; [apply frnd_lo|apply frnd_hi]; auto; lra).
    assert (toR (vy (bmin b)) <= toR (vy (bmax b) + vy v / 2) <= toR (vy (bmax b))) by (rewrite S4; split; [apply frnd_lo|apply frnd_hi]; auto; lra).
    intros p. unfold Rmin, Rmax. repeat match goal with |- context [Rle_dec ?a ?b] => destruct (Rle_dec a b) end; lra.
Qed.
Print Assumptions C97_inflate.

(** [from_center] with a width and a height of any signs: the center lies in
    the closed box. *)
Theorem C97_from_center : forall (L : FloatLib) (c : vec PrimFloat.float) (w h : PrimFloat.float),
  within (huge / 2) c -> coord (huge / 2) w -> coord (huge / 2) h -> let N := FNum L in
  exists r, box_from_center c w h = Ok r /\ finite_vec (bmin r) /\ finite_vec (bmax r) /\ proper (boxR r) /\ in_closed (boxR r) (vecR c).
Proof.
  intros L c w h C W H N. apply within_coords in C. destruct C as [C1 C2].
  destruct (half_coord' _ _ (Rle_refl _) W) as (H1 & R1). destruct (half_coord' _ _ (Rle_refl _) H) as (H2 & R2).
  destruct (sub_coord _ _ _ (Rle_refl _) C1 H1) as (F1 & S1 & _). destruct (sub_coord _ _ _ (Rle_refl _) C2 H2) as (F2 & S2 & _).
  destruct (add_coord _ _ _ (Rle_refl _) C1 H1) as (F3 & S3 & _). destruct (add_coord _ _ _ (Rle_refl _) C2 H2) as (F4 & S4 & _).
  destruct (two_points L (mkV (vx c - w * 0.5) (vy c - h * 0.5))%float (mkV (vx c + w * 0.5) (vy c + h * 0.5))%float) as (r & Hr & G1 & G2 & X1 & X2 & Y1 & Y2);
    [split; auto|split; auto|]. cbn [vx vy] in *.
  exists r. split; [exact Hr|]. unfold proper, in_closed. cbn [boxR vecR bmin bmax vx vy]. rewrite X1, X2, Y1, Y2. split; [auto|split; [auto|split]].
  { split; apply Rle_trans with (1 := Rmin_l _ _), Rmax_l. }
  assert (K : forall x y d : PrimFloat.float, toR (x - d) = frnd (toR x - toR d) -> toR (x + d) = frnd (toR x + toR d) ->
    Rmin (toR (x - d)) (toR (x + d)) <= toR x <= Rmax (toR (x - d)) (toR (x + d))).
  { intros x _ d E1 E2. rewrite E1, E2. pose proof (toR_format x) as T. destruct (Rle_or_lt 0 (toR d)).
    - split; [apply Rle_trans with (1 := Rmin_l _ _), frnd_hi|apply Rle_trans with (2 := Rmax_r _ _), frnd_lo]; auto; lra.
    - split; [apply Rle_trans with (1 := Rmin_r _ _), frnd_hi|apply Rle_trans with (2 := Rmax_l _ _), frnd_lo]; auto; lra. }
  split; apply K; auto.
Qed.
Print Assumptions C97_from_center.

(** A transform with exact zeros in the right places maps every point of the
    closed box into the closed transformed box: no tolerance is needed. *)
Theorem C97_transform : forall (L : FloatLib) (E : PrimFloat.float) (b : bbox PrimFloat.float) (m : affine PrimFloat.float) (M K : R),
  box_within M b -> proper (boxR b) -> aff_within K m -> axis_parallel (affR m) -> 2 * (M * K) + K <= huge / 2 -> finite E -> 0 < toR E -> let N := FNum L in
  exists r, box_mul E b m = Ok (IsBox r) /\ finite_vec (bmin r) /\ finite_vec (bmax r) /\ proper (boxR r) /\
    forall p, finite_vec p -> in_closed (boxR b) (vecR p) -> finite_vec (aapply m p) /\ in_closed (boxR r) (vecR (aapply m p)).
Proof.
  intros L E b m M K [B1 B2] [PX PY] (Ka & Kb & Kc & Kd & Ke & Kf) A H FE E0 N. apply within_coords in B1, B2.
  unfold in_closed, axis_parallel in *. cbn [boxR vecR affR bmin bmax vx vy aa ab ac ad ae af] in *.
  assert (RC : is_rectilinear E m = true).
  { unfold is_rectilinear. cbn [nabs nltb N FNum]. rewrite orb_true_iff, !andb_true_iff.
    assert (Z : forall x, coord K x -> toR x = 0 -> PrimFloat.ltb (abs x) E = true).
    { intros x [Fx _] Hx. destruct (fabs_toR x Fx) as [Fa Ea]. rewrite toR_lt by auto. rewrite Ea, Hx, Rabs_R0. apply Rltb_true. exact E0. }
    destruct A as [[A1 A2]|[A1 A2]]; [right|left]; split; apply Z; auto. }
  assert (AP : forall p : vec PrimFloat.float, aapply m p = mkV (vx p * aa m + vy p * ad m + ac m)%float (vx p * ab m + vy p * ae m + af m)%float).
  { intro p. unfold aapply. rewrite (vec2_float L). reflexivity. }
  assert (IN : forall p, finite_vec p -> (toR (vx (bmin b)) <= toR (vx p) <= toR (vx (bmax b)) /\ toR (vy (bmin b)) <= toR (vy p) <= toR (vy (bmax b))) ->
     coord M (vx p) /\ coord M (vy p)).
  { intros p [F1 F2] [I1 I2]. split; split; auto; eapply between_mag; try eassumption; first [apply B1|apply B2]. }
  assert (G : forall p, coord M (vx p) -> coord M (vy p) -> finite_vec (aapply m p) /\
     ((toR (ab m) = 0 /\ toR (ad m) = 0 /\ toR (vx (aapply m p)) = frnd (frnd (toR (vx p) * toR (aa m)) + toR (ac m)) /\
         toR (vy (aapply m p)) = frnd (frnd (toR (vy p) * toR (ae m)) + toR (af m))) \/
      (toR (aa m) = 0 /\ toR (ae m) = 0 /\ toR (vx (aapply m p)) = frnd (frnd (toR (vy p) * toR (ad m)) + toR (ac m)) /\
         toR (vy (aapply m p)) = frnd (frnd (toR (vx p) * toR (ab m)) + toR (af m))))).
  { intros p P1 P2. rewrite AP. unfold finite_vec. cbn [vx vy]. destruct A as [[A1 A2]|[A1 A2]].
    - destruct (axis_coord _ _ _ _ _ _ _ P1 P2 Ka Kd Kc A2 H) as [[X1 X2] _]. destruct (axis_coord _ _ _ _ _ _ _ P2 P1 Ke Kb Kf A1 H) as [_ [Y1 Y2]]. split; [auto|left; auto].
    - destruct (axis_coord _ _ _ _ _ _ _ P2 P1 Kd Ka Kc A1 H) as [_ [X1 X2]]. destruct (axis_coord _ _ _ _ _ _ _ P1 P2 Kb Ke Kf A2 H) as [[Y1 Y2] _]. split; [auto|right; auto]. }
  destruct (G (bmin b) (proj1 B1) (proj2 B1)) as [F1 G1]. destruct (G (bmax b) (proj1 B2) (proj2 B2)) as [F2 G2].
  destruct (two_points L (aapply m (bmin b)) (aapply m (bmax b)) F1 F2) as (r & Hr & Q1 & Q2 & X1 & X2 & Y1 & Y2).
  exists r. split; [unfold N in *; unfold box_mul; rewrite RC, Hr; reflexivity|].
  unfold proper. cbn [boxR vecR bmin bmax vx vy]. rewrite X1, X2, Y1, Y2. split; [auto|split; [auto|split]].
  { split; apply Rle_trans with (1 := Rmin_l _ _), Rmax_l. }
  intros p Fp I. destruct (IN p Fp I) as [P1 P2]. destruct (G p P1 P2) as [F3 G3]. split; [exact F3|]. destruct I as [I1 I2].
  unfold N in *. destruct G3 as [(Z1 & Z2 & W1 & W2)|(Z1 & Z2 & W1 & W2)]; rewrite W1, W2;
    (destruct G1 as [(U1 & U2 & -> & ->)|(U1 & U2 & -> & ->)]; destruct G2 as [(V1 & V2 & -> & ->)|(V1 & V2 & -> & ->)]);
    rewrite ?Z1, ?Z2, ?U1, ?U2, ?V1, ?V2; split;
    try (apply affine_between; assumption);
    rewrite !Rmult_0_r; split; first [apply Rle_trans with (1 := Rmin_l _ _)|apply Rle_trans with (2 := Rmax_l _ _)]; apply Rle_refl.
Qed.
Print Assumptions C97_transform.

(** [fit] of a box: the result lies in the box up to rounding. *)
Theorem C97_fit_partial : forall (L : FloatLib) (M : R) (b s : bbox PrimFloat.float), room M -> box_within M b -> box_within M s -> proper (boxR b) ->
  bpow radix2 (-600) <= wd (boxR s) -> bpow radix2 (-600) <= ht (boxR s) -> let N := FNum L in
  exists r, box_fit_box b s = Ok r /\ finite_vec (bmin r) /\ finite_vec (bmax r) /\ proper (boxR r) /\
    forall p, in_closed (boxR r) p -> in_widened (16 * runit * M) (boxR b) p.
Proof.
  intros L M b s HR [B1 B2] [S1 S2] [PX PY] W H N. apply within_coords in B1, B2, S1, S2.
  destruct (room_tiny M HR) as (T1 & T2 & T3 & T4). pose proof runit_pos as U0. pose proof runit_small as U1. pose proof huge_pos as HP.
  unfold wd, ht, in_closed, in_widened, proper in *. cbn [boxR vecR bmin bmax vx vy] in *.
  assert (P6 : bpow radix2 (-600) = 2 * bpow radix2 (-601)) by (change (-600)%Z with (1 + -601)%Z; rewrite bpow_plus; reflexivity).
  pose proof (bpow_gt_0 radix2 (-601)) as P60.
  assert (SZ : forall x y, coord M x -> coord M y -> bpow radix2 (-600) <= toR y - toR x -> coord (3 * M) (y - x) /\ bpow radix2 (-601) <= toR (y - x)).
  { intros x y X Y D. destruct (sub_coord y x M ltac:(lra) Y X) as (F & _ & E). destruct X as [_ X], Y as [_ Y]. apply abs_le2 in X. apply abs_le2 in Y.
    rewrite (Rabs_pos_eq (toR y - toR x)) in E by lra. apply abs_le2 in E.
    assert (K : runit * (toR y - toR x) <= / 4 * (toR y - toR x)) by (apply Rmult_le_compat_r; lra).
    split; [split; auto; apply Rabs_le; lra|lra]. }
  destruct (SZ _ _ (proj1 S1) (proj1 S2) W) as [C1 L1]. destruct (SZ _ _ (proj2 S1) (proj2 S2) H) as [C2 L2].
  set (sw := (vx (bmax s) - vx (bmin s))%float) in *. set (sh := (vy (bmax s) - vy (bmin s))%float) in *.
  assert (NZ : forall f, finite f -> bpow radix2 (-601) <= toR f -> PrimFloat.eqb f 0 = false).
  { intros f F D. rewrite toR_eq by (auto; reflexivity). rewrite toR_0. unfold Reqb. destruct (Req_EM_T (toR f) 0); auto. lra. }
  assert (QT : forall x y f, coord M x -> coord M y -> toR x <= toR y -> finite f -> bpow radix2 (-601) <= toR f ->
     finite ((y - x) / f) /\ 0 <= toR ((y - x) / f)).
  { intros x y f X Y D F Lf. destruct (sub_coord y x M ltac:(lra) Y X) as (Fw & R1 & E). destruct X as [_ X], Y as [_ Y]. apply abs_le2 in X. apply abs_le2 in Y.
    assert (0 <= toR (y - x)) by (rewrite R1; apply frnd_pos; lra).
    rewrite (Rabs_pos_eq (toR y - toR x)) in E by lra. apply abs_le2 in E.
    assert (K : runit * (toR y - toR x) <= / 4 * (toR y - toR x)) by (apply Rmult_le_compat_r; lra).
    assert (IV : / toR f <= bpow radix2 601). { change (bpow radix2 601) with (bpow radix2 (- (-601))). rewrite bpow_opp. apply Rinv_le; auto. }
    assert (IP : 0 < / toR f) by (apply Rinv_0_lt_compat; lra).
    destruct (fdiv_toR (y - x) f Fw ltac:(lra)) as [F3 E3].
    { unfold Rdiv. rewrite Rabs_pos_eq by (apply Rmult_le_pos; lra). apply Rle_trans with (16 * M * bpow radix2 601); [apply Rmult_le_compat; lra|lra]. }
    split; auto. rewrite E3. apply frnd_pos. unfold Rdiv. apply Rmult_le_pos; lra. }
  destruct (QT _ _ sw (proj1 B1) (proj1 B2) PX (proj1 C1) L1) as [FW QW]. destruct (QT _ _ sh (proj2 B1) (proj2 B2) PY (proj1 C2) L2) as [FH QH].
  set (qw := ((vx (bmax b) - vx (bmin b)) / sw)%float) in *. set (qh := ((vy (bmax b) - vy (bmin b)) / sh)%float) in *.
  set (sc := @pymin _ N qw qh).
  assert (SC : finite sc /\ 0 <= toR sc /\ toR sc <= toR qw /\ toR sc <= toR qh).
  { unfold sc, pymin. cbn [nltb N FNum]. rewrite toR_lt by auto. unfold Rltb. destruct (Rlt_dec (toR qh) (toR qw)); repeat split; auto; lra. }
  destruct SC as (Fs & S0 & SX & SY).
  destruct (fit_coord _ _ sw sc M HR (proj1 B1) (proj1 B2) PX C1 L1 Fs (conj S0 SX)) as (F1 & F2 & X1 & X2 & X3).
  destruct (fit_coord _ _ sh sc M HR (proj2 B1) (proj2 B2) PY C2 L2 Fs (conj S0 SY)) as (F3 & F4 & Y1 & Y2 & Y3).
  set (cx := ((vx (bmin b) + vx (bmax b)) / 2)%float) in *. set (cy := ((vy (bmin b) + vy (bmax b)) / 2)%float) in *.
  destruct (two_points L (mkV (cx - sw * sc * 0.5) (cy - sh * sc * 0.5))%float (mkV (cx + sw * sc * 0.5) (cy + sh * sc * 0.5))%float) as (r & Hr & G1 & G2 & V1 & V2 & V3 & V4);
    [split; auto|split; auto|]. cbn [vx vy] in *.
  exists r. split.
  { unfold box_fit_box, box_width, box_height. cbn [nsub N FNum]. fold sw sh. unfold pydiv at 1 2. cbn [neqb ndiv N FNum]. change (@n0 _ N) with 0%float.
    rewrite (NZ sw (proj1 C1) L1), (NZ sh (proj1 C2) L2). cbn [bind]. fold qw qh sc. exact Hr. }
  rewrite Rmin_left in V1, V3 by lra. rewrite Rmax_right in V2, V4 by lra. rewrite V1, V2, V3, V4.
  split; [auto|split; [auto|split; [split; lra|]]]. intros p. lra.
Qed.
Print Assumptions C97_fit_partial.

(** The polygon of a box decides containment exactly like the box, unless the
    box or the distance to a side is so small that a product underflows. *)
Theorem C97_to_polygon_partial : forall (L : FloatLib) (E : PrimFloat.float) (M : R) (b : bbox PrimFloat.float) (q : vec PrimFloat.float), M <= bpow radix2 395 ->
  box_within M b -> within M q -> vx (bmin (boxR b)) < vx (bmax (boxR b)) -> vy (bmin (boxR b)) < vy (bmax (boxR b)) -> off_sides (boxR b) (vecR q) -> let N := FNum L in
  exists p, box_to_polygon b = Ok p /\ fst (contains_point E q p) = Ok (box_contains b q).
Proof.
  intros L E M b q HM [B1 B2] Q PX PY [O1 O2] N. apply within_coords in B1, B2, Q. unfold ht in *. cbn [boxR vecR bmin bmax vx vy] in *.
  destruct b as [[x0 y0] [x1 y1]], q as [px py]. cbn [bmin bmax vx vy] in *. destruct B1 as [X0 Y0], B2 as [X1 Y1], Q as [QX QY].
  pose proof (side_vert x0 y0 y1 px py M HM X0 Y0 Y1 QX QY PY O1) as S0. pose proof (side_vert x1 y0 y1 px py M HM X1 Y0 Y1 QX QY PY O2) as S1.
  destruct X0 as [X0 _], X1 as [X1 _], Y0 as [Y0 _], Y1 as [Y1 _], QX as [QX _], QY as [QY _].
  assert (LT : forall a b, finite a -> finite b -> toR a < toR b -> PrimFloat.ltb a b = true) by (intros; rewrite toR_lt by auto; apply Rltb_true; auto).
  assert (GE : forall a b, finite a -> finite b -> toR b <= toR a -> PrimFloat.ltb a b = false) by (intros; rewrite toR_lt by auto; unfold Rltb; destruct (Rlt_dec (toR a) (toR b)); auto; lra).
  assert (SP : split_y_polylines [mkV x0 y0; mkV x0 y1; mkV x1 y1; mkV x1 y0] = Ok ([(y0, x0); (y1, x0)], [(y0, x0); (y0, x1); (y1, x1); (y1, x0)])).
  { assert (K0 : ext_step (mkExt x0 x0 y0 y0 0 0 0 0) (0%nat, mkV x0 y0) = mkExt x0 x0 y0 y0 0 0 0 0) by (unfold ext_step; cbn [nltb N FNum vx vy x_min_x x_max_x x_min_y x_max_y x_min_i x_max_i x_left_i x_right_i]; rewrite ?(LT y0 y1), ?(LT x0 x1), ?(GE y0 y0), ?(GE x0 x0), ?(GE y1 y0), ?(GE x1 x0), ?(GE y1 y1), ?(GE x1 x1) by (auto; lra); reflexivity).
    assert (K1 : ext_step (mkExt x0 x0 y0 y0 0 0 0 0) (1%nat, mkV x0 y1) = mkExt x0 x0 y0 y1 0 1 0 0) by (unfold ext_step; cbn [nltb N FNum vx vy x_min_x x_max_x x_min_y x_max_y x_min_i x_max_i x_left_i x_right_i]; rewrite ?(LT y0 y1), ?(LT x0 x1), ?(GE y0 y0), ?(GE x0 x0), ?(GE y1 y0), ?(GE x1 x0), ?(GE y1 y1), ?(GE x1 x1) by (auto; lra); reflexivity).
    assert (K2 : ext_step (mkExt x0 x0 y0 y1 0 1 0 0) (2%nat, mkV x1 y1) = mkExt x0 x1 y0 y1 0 1 0 2) by (unfold ext_step; cbn [nltb N FNum vx vy x_min_x x_max_x x_min_y x_max_y x_min_i x_max_i x_left_i x_right_i]; rewrite ?(LT y0 y1), ?(LT x0 x1), ?(GE y0 y0), ?(GE x0 x0), ?(GE y1 y0), ?(GE x1 x0), ?(GE y1 y1), ?(GE x1 x1) by (auto; lra); reflexivity).
    assert (K3 : ext_step (mkExt x0 x1 y0 y1 0 1 0 2) (3%nat, mkV x1 y0) = mkExt x0 x1 y0 y1 0 1 0 2) by (unfold ext_step; cbn [nltb N FNum vx vy x_min_x x_max_x x_min_y x_max_y x_min_i x_max_i x_left_i x_right_i]; rewrite ?(LT y0 y1), ?(LT x0 x1), ?(GE y0 y0), ?(GE x0 x0), ?(GE y1 y0), ?(GE x1 x0), ?(GE y1 y1), ?(GE x1 x1) by (auto; lra); reflexivity).
    unfold split_y_polylines, find_extrema. cbn [enumerate_from fold_left bind vx vy]. rewrite K0, K1, K2, K3.
    cbn. unfold orient_pl. cbn. rewrite ?(LT y0 y1), ?(GE y1 y0) by (auto; lra). reflexivity. }
  unfold box_to_polygon, poly_new, seq_new. cbn [map bmin bmax vx vy]. rewrite !(vec2_of_id L). cbn [length Nat.ltb Nat.leb cleared pconvex andb]. rewrite SP. cbn [bind psimple].
  eexists. split; [reflexivity|]. unfold contains_point. cbn [pverts length Nat.eqb radial_shortcut Nat.ltb Nat.leb pypl fst]. 
  assert (KB : forall y x, finite y -> key_before py (y, x) = Rleb (toR py) (toR y)).
  { intros y x Fy. unfold key_before. cbn [fst neqb nltb N FNum]. rewrite toR_eq, toR_lt by auto. unfold Reqb, Rltb, Rleb.
    destruct (Req_EM_T (toR py) (toR y)), (Rlt_dec (toR py) (toR y)), (Rle_dec (toR py) (toR y)); auto; lra. }
  assert (BL : bisect_right [(y0, x0); (y1, x0)] py = Ok (if Rleb (toR py) (toR y0) then 0%nat else if Rleb (toR py) (toR y1) then 1%nat else 2%nat)).
  { unfold bisect_right. cbn [length bisect_loop Nat.ltb Nat.leb Nat.add Nat.div2 nth_error]. rewrite !KB by auto. unfold Rleb.
    destruct (Rle_dec (toR py) (toR y1)), (Rle_dec (toR py) (toR y0)); cbn [bisect_loop Nat.ltb Nat.leb Nat.add Nat.div2 nth_error]; rewrite ?KB by auto; unfold Rleb;
      repeat match goal with |- context [Rle_dec ?a ?b] => destruct (Rle_dec a b) end; try lra; reflexivity. }
  assert (BR : toR y0 < toR py <= toR y1 -> bisect_right [(y0, x0); (y0, x1); (y1, x1); (y1, x0)] py = Ok 2%nat).
  { intros [H1 H2]. unfold bisect_right. cbn [length bisect_loop Nat.ltb Nat.leb Nat.add Nat.div2 nth_error]. rewrite !KB by auto. unfold Rleb.
    destruct (Rle_dec (toR py) (toR y1)); [|lra]. destruct (Rle_dec (toR py) (toR y0)); [lra|]. reflexivity. }
  unfold y_monotone_test. cbn [vy]. rewrite BL. cbn [bind].
  unfold box_contains. cbn [bmin bmax vx vy nltb nleb N FNum]. rewrite !toR_le, !toR_lt by auto. unfold Rleb, Rltb.
  destruct (Rle_dec (toR py) (toR y0)) as [H1|H1].
  { cbn. f_equal. destruct (Rlt_dec (toR y0) (toR py)); [lra|]. rewrite andb_false_r. reflexivity. }
  destruct (Rle_dec (toR py) (toR y1)) as [H2|H2]; [|cbn; f_equal; rewrite !andb_false_r; reflexivity].
  destruct (Rlt_dec (toR y0) (toR py)) as [H3|H3]; [|lra]. cbn [length Nat.eqb orb andb]. rewrite andb_true_r.
  change (py_get [(y0, x0); (y1, x0)] (Z.of_nat 1 - 1)) with (Ok (y0, x0)). change (py_get [(y0, x0); (y1, x0)] (Z.of_nat 1)) with (Ok (y1, x0)). cbn [bind].
  unfold side_yx at 1. cbn [fst snd vx vy nltb nsub nmul N FNum]. change (@n0 _ N) with 0%float. rewrite S0. unfold Rltb.
  destruct (Rlt_dec (toR px) (toR x0)) as [H4|H4], (Rle_dec (toR x0) (toR px)) as [H5|H5]; try lra; [reflexivity|].
  rewrite BR by lra. cbn [bind]. change (py_get [(y0, x0); (y0, x1); (y1, x1); (y1, x0)] (Z.of_nat 2 - 1)) with (Ok (y0, x1)). change (py_get [(y0, x0); (y0, x1); (y1, x1); (y1, x0)] (Z.of_nat 2)) with (Ok (y1, x1)). cbn [bind].
  unfold side_yx. cbn [fst snd vx vy nltb nsub nmul N FNum]. rewrite S1. reflexivity.
Qed.
Print Assumptions C97_to_polygon_partial.

Ltac give r := let v := eval vm_compute in r in match v with Ok ?p => exists p end.
(** Four claims that hold in exact arithmetic fail on doubles: a tiny box has
    interior points that its polygon denies; [fit] may stick out; the center of
    a huge box is infinite; inflating and deflating is not the identity. *)
Theorem C97_to_polygon_refuted : forall (L : FloatLib) (E : PrimFloat.float), let N := FNum L in
  exists (b : bbox PrimFloat.float) (q : vec PrimFloat.float) p, box_from_points [mkV 0 0; mkV 0x1p-600 0x1p-600]%float = Ok b /\
    finite_vec q /\ box_contains b q = true /\ box_to_polygon b = Ok p /\ fst (contains_point E q p) = Ok false.
Proof.
  intros L E N. exists (mkBox (mkV 0 0) (mkV 0x1p-600 0x1p-600))%float, (mkV 0x1p-601 0x1p-601)%float. give (@box_to_polygon _ N (mkBox (mkV 0 0) (mkV 0x1p-600 0x1p-600))%float). split; [vm_compute; reflexivity|].
  split; [split; reflexivity|]. split; [vm_compute; reflexivity|]. split; [vm_compute; reflexivity|]. vm_compute. reflexivity.
Qed.
Print Assumptions C97_to_polygon_refuted.
Theorem C97_fit_refuted : forall (L : FloatLib), let N := FNum L in
  exists b s r : bbox PrimFloat.float, box_from_points [mkV 0 0; mkV 15 100]%float = Ok b /\ box_from_points [mkV 0 0; mkV 42.5 1]%float = Ok s /\
    box_fit_box b s = Ok r /\ nltb (vx (bmin r)) (vx (bmin b)) = true.
Proof.
  intros L N. give (@box_from_points _ N [mkV 0 0; mkV 15 100]%float). give (@box_from_points _ N [mkV 0 0; mkV 42.5 1]%float).
  give (@box_fit_box _ N (mkBox (mkV 0 0) (mkV 15 100))%float (mkBox (mkV 0 0) (mkV 42.5 1))%float). repeat (split; [vm_compute; reflexivity|]). vm_compute. reflexivity.
Qed.
Print Assumptions C97_fit_refuted.
Theorem C97_center_refuted : forall (L : FloatLib), let N := FNum L in
  exists (b : bbox PrimFloat.float) (c : vec PrimFloat.float), box_from_points [mkV 0x1p1023 0; mkV 0x1.8p1023 1]%float = Ok b /\
    finite_vec (bmin b) /\ finite_vec (bmax b) /\ box_center b = Ok c /\ nltb (vx (bmax b)) (vx c) = true.
Proof.
  intros L N. give (@box_from_points _ N [mkV 0x1p1023 0; mkV 0x1.8p1023 1]%float). give (@box_center _ N (mkBox (mkV 0x1p1023 0) (mkV 0x1.8p1023 1))%float).
  split; [vm_compute; reflexivity|]. split; [split; reflexivity|]. split; [split; reflexivity|]. split; vm_compute; reflexivity.
Qed.
Print Assumptions C97_center_refuted.
Theorem C97_inflate_back_refuted : forall (L : FloatLib), let N := FNum L in
  exists b r s : bbox PrimFloat.float, box_from_points [mkV 0.9 0; mkV 1.2 1]%float = Ok b /\
    box_inflate b (mkV 0.4 0)%float = Ok r /\ box_inflate r (mkV (-0.4) 0)%float = Ok s /\ box_eqb s b = false.
Proof.
  intros L N. give (@box_from_points _ N [mkV 0.9 0; mkV 1.2 1]%float). give (@box_inflate _ N (mkBox (mkV 0.9 0) (mkV 1.2 1))%float (mkV 0.4 0)%float).
  give (let* b := @box_inflate _ N (mkBox (mkV 0.9 0) (mkV 1.2 1))%float (mkV 0.4 0)%float in @box_inflate _ N b (mkV (-0.4) 0)%float).
  repeat (split; [vm_compute; reflexivity|]). vm_compute. reflexivity.
Qed.
Print Assumptions C97_inflate_back_refuted.

(** The hypotheses are met by an ordinary box. *)
Example C97_ex : let b := mkBox (mkV 0 1)%float (mkV 4 2)%float in
  box_within 4 b /\ 4 <= huge / 2 /\ room 4 /\ proper (boxR b) /\ bpow radix2 (-600) <= wd (boxR b) /\ bpow radix2 (-600) <= ht (boxR b) /\
  off_sides (boxR b) (vecR (mkV 2 1.5)%float) /\ aff_within 4 (mkA 0 (-1) 3 1 0 4)%float /\ axis_parallel (affR (mkA 0 (-1) 3 1 0 4)%float).
Proof.
  intro b. assert (T0 : toR 0 = 0) by apply toR_0. assert (T1 : toR 1 = 1) by apply toR_1. assert (T2 : toR 2 = 2) by apply toR_2.
  assert (T3 : toR 3 = 3) by (vm_compute; lra). assert (T4 : toR 4 = 4) by (vm_compute; lra). assert (T6 : toR (-1) = -1) by (vm_compute; lra).
  assert (HB : forall k, (2 <= k)%Z -> 4 <= bpow radix2 k) by (intros k Hk; change 4 with (bpow radix2 2); apply bpow_le; lia).
  assert (LB : forall k, (k <= 0)%Z -> bpow radix2 k <= 1) by (intros k Hk; change 1 with (bpow radix2 0); apply bpow_le; lia).
  assert (CO : forall x r, finite x -> toR x = r -> -4 <= r <= 4 -> coord 4 x) by (intros x r F <- H; split; [exact F|apply Rabs_le; lra]).
  unfold b, box_within, proper, wd, ht, off_sides, ht, aff_within, axis_parallel, room. rewrite !within_coords. cbn [boxR vecR affR bmin bmax vx vy aa ab ac ad ae af].
  rewrite T0, T1, T2, T4.
  assert (4 <= huge / 2). { unfold huge. change 1000%Z with (1 + 999)%Z. rewrite bpow_plus. change (bpow radix2 1) with 2. pose proof (HB 999%Z ltac:(lia)). lra. }
  pose proof (LB (-400)%Z ltac:(lia)). pose proof (HB 395%Z ltac:(lia)). pose proof (LB (-600)%Z ltac:(lia)). pose proof (LB (-1000)%Z ltac:(lia)).
  replace (2 - 0) with 2 by lra. replace (2 - 4) with (-2) by lra. replace (2 - 1) with 1 by lra. rewrite (Rabs_pos_eq 2), (Rabs_left (-2)) by lra.
  repeat match goal with |- _ /\ _ => split end; try lra; try (eapply CO; [reflexivity|eassumption|lra]).
Qed.
