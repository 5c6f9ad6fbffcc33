(** * Convexity, simplicity and symmetry of star polygons *)
From Coq Require Import ZArith List Bool Reals Lra Lia Psatz Permutation.
From Verif Require Import Num Vec Affine Seq Polygon SpecGeom SpecAffine SpecMass SpecWind SpecCycle SpecSimple SpecExtreme SpecRegular SpecTangent RBase VecFacts VecFacts2 CentroidFacts WindFacts TriFacts ConvexFacts ConvexFacts2 ConvexFacts3 MonoFacts RegularFacts StarFacts.
Import ListNotations.
Local Open Scope R_scope.

Lemma cos_between x t : 0 <= x -> x <= t -> t <= 2 * PI - x -> cos t <= cos x.
Proof.
  intros X T1 T2. pose proof PI_RGT_0. destruct (Rle_dec t PI) as [P|P].
  - destruct (Req_dec x t) as [->|]; [lra|]. apply Rlt_le, cos_decreasing_1; lra.
  - replace (cos t) with (cos (2 * PI - t)) by (rewrite cos_minus, cos_2PI, sin_2PI; ring). destruct (Req_dec x (2 * PI - t)) as [->|]; [lra|]. apply Rlt_le, cos_decreasing_1; lra.
Qed.
Lemma sin_three_pos x t : 0 <= x -> 0 <= t -> x + t <= 2 * PI -> 0 <= sin x + sin t - sin (x + t).
Proof.
  intros X T S. replace x with (2 * (x / 2)) by field. replace t with (2 * (t / 2)) by field. rewrite sin3. 
  assert (0 <= sin (x / 2)) by (apply sin_ge_0; lra). assert (0 <= sin (t / 2)) by (apply sin_ge_0; lra). assert (0 <= sin (x / 2 + t / 2)) by (apply sin_ge_0; lra).
  repeat apply Rmult_le_pos; lra.
Qed.
(** The four shapes of a corner of the star and a third vertex. *)
Lemma gap_lin (p q l h k : R) : h * k <= l -> l <= h -> 0 <= h * p + h * q -> 0 <= h * p + h * k * q -> 0 <= h * p + l * q.
Proof. intros A B C D. destruct (Rle_dec 0 q) as [Q|Q]; nra. Qed.
Section Convex.
  Variables (x h l t : R).
  Hypothesis X : 0 < x <= PI / 2.
  Hypothesis T : x <= t <= 2 * PI - 2 * x.
  Hypothesis L : h * cos x <= l <= h.
  Hypothesis LP : 0 < l.
  Lemma corner_a : 0 <= h * l * sin x + l * h * sin t - h * h * sin (x + t).
  Proof.
    pose proof PI_RGT_0. assert (SX : 0 < sin x) by (apply sin_gt_0; lra). pose proof (sin_three_pos x t ltac:(lra) ltac:(lra) ltac:(lra)) as S3. pose proof (cos_between x t ltac:(lra) ltac:(lra) ltac:(lra)) as CB. assert (h0 : 0 < h) by lra.
    assert (K : 0 <= h * - sin (x + t) + l * (sin x + sin t)).
    { apply (gap_lin _ _ _ _ (cos x)); try lra; [assert (0 <= h * (sin x + sin t - sin (x + t))) by (apply Rmult_le_pos; lra); lra|]. rewrite sin_plus. assert (0 <= h * (sin x * (cos x - cos t))) by (apply Rmult_le_pos; [lra|apply Rmult_le_pos; lra]). lra. }
    assert (0 <= h * (h * - sin (x + t) + l * (sin x + sin t))) by (apply Rmult_le_pos; lra). lra.
  Qed.
  Lemma corner_b : 0 <= h * l * sin x + l * l * sin t - h * l * sin (x + t).
  Proof.
    pose proof PI_RGT_0. assert (SX : 0 < sin x) by (apply sin_gt_0; lra). pose proof (sin_three_pos x t ltac:(lra) ltac:(lra) ltac:(lra)) as S3. pose proof (COS_bound t) as CB. assert (h0 : 0 < h) by lra.
    assert (K : 0 <= h * (sin x - sin (x + t)) + l * sin t).
    { apply (gap_lin _ _ _ _ (cos x)); try lra; [assert (0 <= h * (sin x + sin t - sin (x + t))) by (apply Rmult_le_pos; lra); lra|]. rewrite sin_plus. assert (0 <= h * (sin x * (1 - cos t))) by (apply Rmult_le_pos; [lra|apply Rmult_le_pos; lra]). lra. }
    assert (0 <= l * (h * (sin x - sin (x + t)) + l * sin t)) by (apply Rmult_le_pos; lra). lra.
  Qed.
  Lemma corner_c : 0 <= l * h * sin x + h * l * sin t - l * l * sin (x + t).
  Proof.
    pose proof PI_RGT_0. assert (SX : 0 < sin x) by (apply sin_gt_0; lra). pose proof (sin_three_pos x t ltac:(lra) ltac:(lra) ltac:(lra)) as S3. pose proof (COS_bound (x + t)) as CB. assert (h0 : 0 < h) by lra.
    assert (K : 0 <= h * (sin x + sin t) + l * - sin (x + t)).
    { apply (gap_lin _ _ _ _ (cos x)); try lra; [assert (0 <= h * (sin x + sin t - sin (x + t))) by (apply Rmult_le_pos; lra); lra|]. replace (sin t) with (sin (x + t - x)) by (f_equal; ring). rewrite sin_minus. assert (0 <= h * (sin x * (1 - cos (x + t)))) by (apply Rmult_le_pos; [lra|apply Rmult_le_pos; lra]). lra. }
    assert (0 <= l * (h * (sin x + sin t) + l * - sin (x + t))) by (apply Rmult_le_pos; lra). lra.
  Qed.
  Lemma corner_d : 0 <= l * h * sin x + h * h * sin t - l * h * sin (x + t).
  Proof.
    pose proof PI_RGT_0. assert (SX : 0 < sin x) by (apply sin_gt_0; lra). pose proof (sin_three_pos x t ltac:(lra) ltac:(lra) ltac:(lra)) as S3. pose proof (cos_between x (x + t) ltac:(lra) ltac:(lra) ltac:(lra)) as CB. assert (h0 : 0 < h) by lra.
    assert (K : 0 <= h * sin t + l * (sin x - sin (x + t))).
    { apply (gap_lin _ _ _ _ (cos x)); try lra; [assert (0 <= h * (sin x + sin t - sin (x + t))) by (apply Rmult_le_pos; lra); lra|]. replace (sin t) with (sin (x + t - x)) by (f_equal; ring). rewrite sin_minus. assert (0 <= h * (sin x * (cos x - cos (x + t)))) by (apply Rmult_le_pos; [lra|apply Rmult_le_pos; lra]). lra. }
    assert (0 <= h * (h * sin t + l * (sin x - sin (x + t)))) by (apply Rmult_le_pos; lra). lra.
  Qed.
End Convex.

Section Star2.
  Variables (n : nat) (r1 r2 : R) (c : pt) (a : R).
  Hypothesis Hn : (2 <= n)%nat.
  Hypothesis P1 : 0 < r1.
  Hypothesis P2 : 0 < r2.
  Notation x := (sx n). Notation l := (lo r1 r2). Notation h := (hi r1 r2). Notation s := (sv n r1 r2 c a). Notation rd := (rad r1 r2).
  Lemma lo_pos : 0 < l. Proof. unfold lo. apply Rmin_pos; auto. Qed.
  Lemma lo_hi_le : l <= h. Proof. unfold lo, hi. apply Rle_trans with r1; [apply Rmin_l|apply Rmax_l]. Qed.
  Lemma rd_cases k : (rd k = h /\ rd (S k) = l) \/ (rd k = l /\ rd (S k) = h).
  Proof. unfold rad, lo, hi, Rmin, Rmax. rewrite Nat.even_succ, <- Nat.negb_even. destruct (Nat.even k), (Rle_dec r1 r2); cbn [negb]; auto. Qed.
  Lemma rd_add2 k : rd (S (S k)) = rd k. Proof. reflexivity. Qed.
  Lemma rd_plus k m : rd (k + m) = if Nat.even m then rd k else rd (S k).
  Proof. unfold rad. rewrite Nat.even_add, Nat.even_succ, <- Nat.negb_even. destruct (Nat.even k), (Nat.even m); reflexivity. Qed.
  Lemma s_ahead k m : orient (s k) (s (S k)) (s (S k + m)) = rd k * rd (S k) * sin x + rd (S k) * rd (S k + m) * sin (INR m * x) - rd k * rd (S k + m) * sin (x + INR m * x).
  Proof.
    rewrite s_three by auto. rewrite plus_INR, S_INR. replace ((INR k + 1 - INR k) * x) with x by ring. replace ((INR k + 1 + INR m - (INR k + 1)) * x) with (INR m * x) by ring. replace ((INR k + 1 + INR m - INR k) * x) with (x + INR m * x) by ring. reflexivity.
  Qed.
  Lemma s_period k : s (k + 2 * n) = s k.
  Proof.
    unfold sv. rewrite !polar_xy, !s_deg by auto. rewrite rd_plus, Nat.even_mul. cbn [Nat.even orb]. rewrite plus_INR, mult_INR. replace (deg a + (INR k + INR 2 * INR n) * x) with (deg a + INR k * x + 2 * PI) by (rewrite <- (sx_full n Hn); cbn; ring).
    rewrite (cos_plus _ (2 * PI)), (sin_plus _ (2 * PI)), cos_2PI, sin_2PI. vext; ring.
  Qed.
  Lemma star_ahead_nonneg k m : h * cos x <= l -> (1 <= m)%nat -> (m + 2 <= 2 * n)%nat -> 0 <= orient (s k) (s (S k)) (s (S k + m)).
  Proof.
    intros Hc M1 M2. rewrite s_ahead. pose proof (sx_bound n Hn) as B. pose proof lo_pos. pose proof lo_hi_le.
    assert (T : x <= INR m * x <= 2 * PI - 2 * x).
    { assert (1 <= INR m) by (apply (le_INR 1 m) in M1; cbn in M1; lra). assert (INR m + 2 <= 2 * INR n) by (apply le_INR in M2; rewrite plus_INR, mult_INR in M2; cbn in M2; lra). rewrite <- (sx_full n Hn). split; nra. }
    rewrite (rd_plus (S k) m), rd_add2. destruct (rd_cases k) as [[-> ->]|[-> ->]]; destruct (Nat.even m).
    - apply corner_b; auto.
    - apply corner_a; auto.
    - apply corner_d; auto.
    - apply corner_c; auto.
  Qed.
  Lemma star_convex : h * cos x <= l -> convex_ccw (star_points n r1 r2 c a).
  Proof.
    intros Hc u v w He Hw. rewrite star_def in He, Hw. apply cyc_index in He as (k & Hk & -> & ->); [|apply s_wrap; auto]. apply in_map_iff in Hw as (j & <- & Hj). apply in_seq in Hj.
    assert (Z : forall u v : pt, orient u v u = 0 /\ orient u v v = 0) by (intros; split; ug; ring).
    destruct (Nat.eq_dec j k) as [->|N1]; [rewrite (proj1 (Z _ _)); lra|]. destruct (Nat.eq_dec j (S k)) as [->|N2]; [rewrite (proj2 (Z _ _)); lra|].
    destruct (le_lt_dec j k) as [Q|Q].
    - destruct (Nat.eq_dec (j + 2 * n) (S k)) as [E|E]; [rewrite <- (s_period j), E, (proj2 (Z _ _)); lra|]. rewrite <- (s_period j). replace (j + 2 * n)%nat with (S k + (j + 2 * n - S k))%nat by lia.
      destruct (Nat.eq_dec (j + 2 * n - S k) (2 * n - 1)); [lia|]. apply star_ahead_nonneg; auto; lia.
    - replace j with (S k + (j - S k))%nat by lia. apply star_ahead_nonneg; auto; lia.
  Qed.
  Lemma hi_cos_lt : l * cos x < h.
  Proof. pose proof (sx_bound n Hn) as B. pose proof PI_RGT_0. pose proof lo_pos. pose proof lo_hi_le. assert (cos x < 1) by (rewrite <- cos_0; apply cos_decreasing_1; lra). nra. Qed.
  Lemma star_corner k : orient (s k) (s (S k)) (s (S (S k))) = 2 * rd k * sin x * (rd (S k) - rd k * cos x).
  Proof.
    replace (S (S k)) with (S k + 1)%nat by lia. rewrite s_ahead. cbn [INR]. rewrite Rmult_1_l. replace (S k + 1)%nat with (S (S k)) by lia. rewrite rd_add2. replace (x + x) with (2 * x) by ring. rewrite sin_2a. ring.
  Qed.
  Lemma star_not_convex : l < h * cos x -> ~ convex_ccw (star_points n r1 r2 c a) /\ ~ convex_cw (star_points n r1 r2 c a).
  Proof.
    intro Hc. pose proof (sin_sx n Hn) as SS. pose proof lo_pos as LP. pose proof lo_hi_le as LH. pose proof hi_cos_lt as HC.
    assert (E : forall k, (k < 2)%nat -> In (s k, s (S k)) (cyc_pairs (star_points n r1 r2 c a)) /\ In (s (S (S k))) (star_points n r1 r2 c a)).
    { intros k Hk. split; [rewrite star_def; apply cyc_index_in; [apply s_wrap; auto|lia]|apply star_in; lia]. }
    assert (A : forall k, rd k = h -> rd (S k) = l -> orient (s k) (s (S k)) (s (S (S k))) < 0).
    { intros k E1 E2. rewrite star_corner, E1, E2. assert (0 < h * sin x * (h * cos x - l)) by (apply Rmult_lt_0_compat; [apply Rmult_lt_0_compat; lra|lra]). lra. }
    assert (B : forall k, rd k = l -> rd (S k) = h -> 0 < orient (s k) (s (S k)) (s (S (S k)))).
    { intros k E1 E2. rewrite star_corner, E1, E2. repeat apply Rmult_lt_0_compat; lra. }
    destruct (E 0%nat) as [E0 E0']; [lia|]. destruct (E 1%nat) as [E1 E1']; [lia|].
    destruct (rd_cases 0) as [[R0 R1]|[R0 R1]].
    - split; intro C; [specialize (C _ _ _ E0 E0'); specialize (A 0%nat R0 R1); lra|specialize (C _ _ _ E1 E1'); specialize (B 1%nat R1 R0); lra].
    - split; intro C; [specialize (C _ _ _ E1 E1'); specialize (A 1%nat R1 R0); lra|specialize (C _ _ _ E0 E0'); specialize (B 0%nat R0 R1); lra].
  Qed.

  (** *** Non-adjacent edges of a star are disjoint *)
  Lemma wedge (f : pt -> R) u v p : (forall u v t, f (between u v t) = (1 - t) * f u + t * f v) -> on_segment u v p -> exists t, 0 <= t <= 1 /\ f p = (1 - t) * f u + t * f v.
  Proof. intros F (t & Ht & ->). exists t. split; auto. Qed.
  Lemma orient_lin o d u v t : orient o d (between u v t) = (1 - t) * orient o d u + t * orient o d v.
  Proof. destruct u as [u1 u2], v as [v1 v2]. unfold between. ug. ring. Qed.
  Lemma rd_pos k : 0 < rd k. Proof. unfold rad. destruct (Nat.even k); auto. Qed.
  Lemma sin_mult m : (1 <= m)%nat -> (m < n)%nat -> 0 < sin (INR m * x).
  Proof.
    intros M1 M2. pose proof (sx_bound n Hn) as B. assert (1 <= INR m) by (apply (le_INR 1 m) in M1; cbn in M1; lra). apply lt_INR in M2. pose proof (sx_full n Hn). apply sin_gt_0; nra.
  Qed.
  Lemma ahead_apart k d : (2 <= d)%nat -> (d <= n - 1)%nat -> ~ share (s k) (s (S k)) (s (k + d)) (s (S (k + d))).
  Proof.
    intros D1 D2 (p & H1 & H2). apply (wedge (orient c (s (S k)))) in H1; [|intros; apply orient_lin]. apply (wedge (orient c (s (S k)))) in H2; [|intros; apply orient_lin].
    destruct H1 as (t & Ht & E1), H2 as (t' & Ht' & E2). rewrite E1 in E2. clear E1. rewrite !s_from in E2 by auto.
    replace ((INR (S k) - INR (S k)) * x) with 0 in E2 by ring. rewrite sin_0 in E2.
    replace ((INR k - INR (S k)) * x) with (- x) in E2 by (rewrite S_INR; ring). rewrite sin_neg in E2.
    replace ((INR (k + d) - INR (S k)) * x) with (INR (d - 1) * x) in E2 by (rewrite S_INR, plus_INR, minus_INR by lia; cbn; ring).
    replace ((INR (S (k + d)) - INR (S k)) * x) with (INR d * x) in E2 by (rewrite !S_INR, plus_INR; ring).
    pose proof (sin_sx n Hn) as SS. pose proof (sin_mult d ltac:(lia) ltac:(lia)) as S1. pose proof (sin_mult (d - 1) ltac:(lia) ltac:(lia)) as S2.
    pose proof (rd_pos (S k)) as Q1. pose proof (rd_pos k) as Q2. pose proof (rd_pos (k + d)) as Q3. pose proof (rd_pos (S (k + d))) as Q4.
    assert (A : 0 <= (1 - t) * (rd (S k) * rd k * sin x)) by (apply Rmult_le_pos; [lra|]; repeat apply Rmult_le_pos; lra).
    assert (B : 0 < rd (S k) * rd (k + d) * sin (INR (d - 1) * x)) by (repeat apply Rmult_lt_0_compat; lra). assert (B' : 0 < rd (S k) * rd (S (k + d)) * sin (INR d * x)) by (repeat apply Rmult_lt_0_compat; lra).
    set (b := rd (S k) * rd (k + d) * sin (INR (d - 1) * x)) in *. set (b' := rd (S k) * rd (S (k + d)) * sin (INR d * x)) in *. clearbody b b'. nra.
  Qed.
  Lemma opposite_apart k : ~ share (s k) (s (S k)) (s (k + n)) (s (S (k + n))).
  Proof.
    set (f := fun v : pt => (cos (deg a + INR k * x) + cos (deg a + INR (S k) * x)) * (vx v - vx c) + (sin (deg a + INR k * x) + sin (deg a + INR (S k) * x)) * (vy v - vy c)).
    assert (FL : forall u v t, f (between u v t) = (1 - t) * f u + t * f v) by (intros [u1 u2] [v1 v2] t; unfold f, between; ug; ring).
    assert (FS : forall j, f (s j) = rd j * (cos ((INR j - INR k) * x) + cos ((INR j - INR (S k)) * x))).
    { intro j. unfold f, sv. rewrite polar_xy, s_deg by auto. cbn [vx vy]. replace ((INR j - INR k) * x) with (deg a + INR j * x - (deg a + INR k * x)) by ring. replace ((INR j - INR (S k)) * x) with (deg a + INR j * x - (deg a + INR (S k) * x)) by ring. rewrite !cos_minus. ring. }
    intros (p & H1 & H2). apply (wedge f) in H1; auto. apply (wedge f) in H2; auto. destruct H1 as (t & Ht & E1), H2 as (t' & Ht' & E2). rewrite E1 in E2. clear E1. rewrite !FS in E2.
    replace ((INR k - INR k) * x) with 0 in E2 by ring. replace ((INR (S k) - INR (S k)) * x) with 0 in E2 by ring. rewrite cos_0 in E2.
    replace ((INR k - INR (S k)) * x) with (- x) in E2 by (rewrite S_INR; ring). rewrite cos_neg in E2. replace ((INR (S k) - INR k) * x) with x in E2 by (rewrite S_INR; ring).
    replace ((INR (k + n) - INR k) * x) with PI in E2 by (rewrite plus_INR, <- (sx_full n Hn); ring). replace ((INR (k + n) - INR (S k)) * x) with (- x + PI) in E2 by (rewrite S_INR, plus_INR, <- (sx_full n Hn); ring).
    replace ((INR (S (k + n)) - INR k) * x) with (x + PI) in E2 by (rewrite S_INR, plus_INR, <- (sx_full n Hn); ring). replace ((INR (S (k + n)) - INR (S k)) * x) with PI in E2 by (rewrite !S_INR, plus_INR, <- (sx_full n Hn); ring).
    rewrite cos_PI, !neg_cos, cos_neg in E2. pose proof (cos_sx n Hn) as C.
    pose proof (rd_pos (S k)) as Q1. pose proof (rd_pos k) as Q2. pose proof (rd_pos (k + n)) as Q3. pose proof (rd_pos (S (k + n))) as Q4.
    set (A := rd k) in *. set (B := rd (S k)) in *. set (A' := rd (k + n)) in *. set (B' := rd (S (k + n))) in *. set (w := cos x) in *. clearbody A B A' B' w. clear FL FS f.
    assert (M : forall u v y, 0 < u -> 0 < v -> 0 <= y <= 1 -> 0 < (1 - y) * (u * (1 + w)) + y * (v * (1 + w))).
    { intros u v y U V Y. replace ((1 - y) * (u * (1 + w)) + y * (v * (1 + w))) with (((1 - y) * u + y * v) * (1 + w)) by ring. apply Rmult_lt_0_compat; [|lra]. destruct (Rle_dec u v); nra. }
    pose proof (M A B t Q2 Q1 Ht). pose proof (M A' B' t' Q3 Q4 Ht'). lra.
  Qed.
  Lemma share_sym u v u' v' : share u v u' v' -> share u' v' u v. Proof. intros (p & H1 & H2). exists p. tauto. Qed.
  Lemma apart k d : (2 <= d)%nat -> (d + 2 <= 2 * n)%nat -> ~ share (s k) (s (S k)) (s (k + d)) (s (S (k + d))).
  Proof.
    intros D1 D2. destruct (le_lt_dec d (n - 1)) as [L|L]; [apply ahead_apart; auto|]. destruct (Nat.eq_dec d n) as [->|N]; [apply opposite_apart|].
    intro H. apply share_sym in H. apply (ahead_apart (k + d) (2 * n - d)); [lia|lia|]. replace (k + d + (2 * n - d))%nat with (k + 2 * n)%nat by lia. change (S (k + 2 * n)) with (S k + 2 * n)%nat. rewrite !s_period. exact H.
  Qed.
  Lemma star_edge_into i u v : edge_into (star_points n r1 r2 c a) i u v -> (i < 2 * n)%nat /\ u = s (i + 2 * n - 1) /\ v = s (S (i + 2 * n - 1)).
  Proof.
    intros (E1 & E2). assert (Hi : (i < 2 * n)%nat) by (rewrite <- (star_length n r1 r2 c a); apply nth_error_Some; congruence). split; auto.
    assert (NT : forall j, (j < 2 * n)%nat -> nth_error (star_points n r1 r2 c a) j = Some (s j)).
    { intros j Hj. rewrite star_def, nth_error_map, (nth_error_nth' _ 0%nat) by (rewrite seq_length; exact Hj). rewrite seq_nth by exact Hj. reflexivity. }
    rewrite star_length in E2. rewrite NT in E1 by auto. replace (S (i + 2 * n - 1)) with (i + 2 * n)%nat by lia. rewrite s_period. split; [|congruence].
    destruct i as [|i]; rewrite NT in E2 by lia.
    - replace (0 + 2 * n - 1)%nat with (2 * n - 1)%nat by lia. congruence.
    - replace (S i + 2 * n - 1)%nat with (i + 2 * n)%nat by lia. rewrite s_period. congruence.
  Qed.
  Lemma star_simple : ~ some_far_edges (star_points n r1 r2 c a) share.
  Proof.
    intros (i & j & u & v & u1 & v1 & F & E1 & E2 & SH). apply star_edge_into in E1 as (Hi & -> & ->). apply star_edge_into in E2 as (Hj & -> & ->). rewrite star_length in F. destruct F as [(F1 & F2)|(F1 & F2)].
    - replace (j + 2 * n - 1)%nat with (i + 2 * n - 1 + (j - i))%nat in SH by lia. apply apart in SH; auto; lia.
    - apply share_sym in SH. replace (i + 2 * n - 1)%nat with (j + 2 * n - 1 + (i - j))%nat in SH by lia. apply apart in SH; auto; lia.
  Qed.
End Star2.

(** ** Centre of mass by symmetry *)
Lemma area_about (c : pt) l : area2 l = rsum (map (fun e => orient c (fst e) (snd e)) (cyc_pairs l)).
Proof. unfold area2. symmetry. apply (cyc_shift _ _ (fun v => - pcross c v)). intros [u v]. cbn [fst snd]. ug. ring. Qed.
Lemma rsum_const {X} (f : X -> R) k l : (forall e, In e l -> f e = k) -> rsum (map f l) = INR (length l) * k.
Proof.
  intro H. induction l as [|e l IH]; [cbn; ring|]. change (rsum (map f (e :: l))) with (f e + rsum (map f l)). rewrite IH by (intros; apply H; cbn; auto). rewrite (H e) by (cbn; auto). cbn [length]. rewrite S_INR. ring.
Qed.
(** The rotation by g radians about c. *)
Definition spin (c : pt) (g : R) : affine R := mkA (cos g) (sin g) (vx c - cos g * vx c + sin g * vy c) (- sin g) (cos g) (vy c - sin g * vx c - cos g * vy c).
Lemma spin_polar c g r d d' : deg d' = deg d + g -> img (spin c g) (polar_at c r d) = polar_at c r d'.
Proof. intro E. rewrite !polar_xy, E, cos_plus, sin_plus. unfold img, spin. cbn. vext; ring. Qed.
Lemma spin_fixed c g v : cos g <> 1 -> img (spin c g) v = v -> v = c.
Proof.
  intros C E. destruct c as [cx cy], v as [x y]. unfold img, spin in E. cbn in E. apply mkV_inj in E as [E1 E2]. pose proof (sin2_cos2 g) as S. unfold Rsqr in S.
  set (p := x - cx). set (q := y - cy). assert (A : (cos g - 1) * p - sin g * q = 0) by (unfold p, q; lra). assert (B : sin g * p + (cos g - 1) * q = 0) by (unfold p, q; lra).
  assert (K : 0 < (cos g - 1) * (cos g - 1)) by nra.
  assert (Z : ((cos g - 1) * (cos g - 1) + sin g * sin g) * (p * p + q * q) = 0). { transitivity (((cos g - 1) * p - sin g * q) * ((cos g - 1) * p - sin g * q) + (sin g * p + (cos g - 1) * q) * (sin g * p + (cos g - 1) * q)); [ring|]. rewrite A, B. ring. }
  assert (p * p + q * q <= 0). { apply Rmult_integral in Z as [Z|Z]; [nra|lra]. } apply sumsq0 in H as [H1 H2]. unfold p, q in *. vext; lra.
Qed.
Lemma spin_det c g : det (spin c g) <> 0.
Proof. unfold det, spin. cbn. pose proof (sin2_cos2 g) as S. unfold Rsqr in S. lra. Qed.
Lemma seq_off k j : forall s, seq (s + k) j = map (fun i => (i + k)%nat) (seq s j).
Proof. induction j; intro s; cbn; auto. f_equal. apply (IHj (S s)). Qed.
Lemma symmetric_mass (f : nat -> pt) (c : pt) (g : R) (m k : nat) : (2 <= m)%nat -> (k <= m)%nat -> (forall i, f (i + m)%nat = f i) -> (forall i, img (spin c g) (f i) = f (i + k)%nat) -> cos g <> 1 ->
  area2 (map f (seq 0 m)) <> 0 -> mass_centre (map f (seq 0 m)) = c.
Proof.
  intros Hm Hk Per Sp Hg Ar. apply (spin_fixed c g); auto. rewrite <- mass_img; [|rewrite map_length, seq_length; exact Hm|apply spin_det|exact Ar].
  apply mass_cycle. left. exists (map f (seq k (m - k))), (map f (seq 0 k)). split.
  - rewrite map_map. rewrite (map_ext _ _ Sp). replace m with ((m - k) + k)%nat at 1 by lia. rewrite seq_app, map_app. f_equal.
    + change (seq k (m - k)) with (seq (0 + k) (m - k)). rewrite (seq_off k (m - k) 0), map_map. reflexivity.
    + rewrite (seq_off (m - k) k 0), map_map. apply map_ext. intro i. rewrite <- (Per i). f_equal. lia.
  - rewrite <- map_app, <- seq_app. f_equal. f_equal. lia.
Qed.
