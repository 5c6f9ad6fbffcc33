(** * Regular polygons *)
From Coq Require Import ZArith List Bool Reals Lra Lia Psatz.
From Verif Require Import Num Vec Affine Box Seq Polygon SpecGeom SpecMass SpecConvex SpecExtreme SpecTangent SpecRegular RBase VecFacts VecFacts2 BoxFacts2 CentroidFacts.
Import ListNotations.
Local Open Scope R_scope.

(** ** Cycles given by an index function *)
Lemma cyc_seq {X} (f : nat -> X) : forall n s, (1 <= n)%nat -> cyc_pairs_from (f (s + n)%nat) (map f (seq s n)) = map (fun k => (f k, f (S k))) (seq s n).
Proof.
  induction n as [|n IH]; intros s Hn; [lia|]. destruct n as [|n].
  - cbn. replace (s + 1)%nat with (S s) by lia. reflexivity.
  - specialize (IH (S s) ltac:(lia)). replace (S s + S n)%nat with (s + S (S n))%nat in IH by lia.
    change (seq s (S (S n))) with (s :: S s :: seq (S (S s)) n). change (seq (S s) (S n)) with (S s :: seq (S (S s)) n) in IH.
    cbn [map] in *. cbn [cyc_pairs_from] in *. rewrite IH. reflexivity.
Qed.
Lemma cyc_index {X} (f : nat -> X) n : f n = f 0%nat -> forall a b, In (a, b) (cyc_pairs (map f (seq 0 n))) -> exists k, (k < n)%nat /\ a = f k /\ b = f (S k).
Proof.
  intros Hp a b H. destruct n as [|n]; [destruct H|]. unfold cyc_pairs in H. change (seq 0 (S n)) with (0%nat :: seq 1 n) in H. cbn [map] in H.
  assert (E := cyc_seq f (S n) 0 ltac:(lia)). change (0 + S n)%nat with (S n) in E. rewrite Hp in E. change (seq 0 (S n)) with (0%nat :: seq 1 n) in E. cbn [map] in E. rewrite E in H.
  change ((f 0%nat, f 1%nat) :: map (fun k => (f k, f (S k))) (seq 1 n)) with (map (fun k => (f k, f (S k))) (seq 0 (S n))) in H.
  apply in_map_iff in H. destruct H as (k & Ek & Hk). apply in_seq in Hk. exists k. split; [lia|]. split; congruence.
Qed.
Lemma cyc_index_in {X} (f : nat -> X) n k : f n = f 0%nat -> (k < n)%nat -> In (f k, f (S k)) (cyc_pairs (map f (seq 0 n))).
Proof.
  intros Hp Hk. destruct n as [|n]; [lia|]. unfold cyc_pairs. change (seq 0 (S n)) with (0%nat :: seq 1 n). cbn [map].
  assert (E := cyc_seq f (S n) 0 ltac:(lia)). change (0 + S n)%nat with (S n) in E. rewrite Hp in E. change (seq 0 (S n)) with (0%nat :: seq 1 n) in E. cbn [map] in E. rewrite E.
  change ((f 0%nat, f 1%nat) :: map (fun k => (f k, f (S k))) (seq 1 n)) with (map (fun k => (f k, f (S k))) (seq 0 (S n))). apply in_map_iff. exists k. split; [reflexivity|]. apply in_seq. lia.
Qed.

(** ** Trigonometry *)
Lemma polar_xy c r d : polar_at c r d = mkV (vx c + r * cos (deg d)) (vy c + r * sin (deg d)).
Proof. unfold polar_at, padd, prot. cbn [vx vy]. vext; ring. Qed.
Lemma sin3 x y : sin (2 * x) + sin (2 * y) - sin (2 * x + 2 * y) = 4 * sin x * sin y * sin (x + y).
Proof.
  rewrite !sin_plus, !sin_2a, !cos_2a_sin. pose proof (sin2_cos2 x) as Sx. pose proof (sin2_cos2 y) as Sy. unfold Rsqr in *. ring.
Qed.
Lemma orient_polar c r1 r2 r3 a b d : orient (polar_at c r1 a) (polar_at c r2 b) (polar_at c r3 d) =
  r1 * r2 * sin (deg b - deg a) + r2 * r3 * sin (deg d - deg b) - r1 * r3 * sin (deg d - deg a).
Proof. rewrite !polar_xy, !sin_minus. destruct c as [cx cy]. unfold orient, pcross, psub. cbn [vx vy]. ring. Qed.
Lemma orient_mid c r q a b : orient (polar_at c r a) (polar_at c r b) q =
  2 * r * sin ((deg b - deg a) / 2) * (r * cos ((deg b - deg a) / 2) - (cos ((deg a + deg b) / 2) * (vx q - vx c) + sin ((deg a + deg b) / 2) * (vy q - vy c))).
Proof.
  rewrite !polar_xy. set (m := (deg a + deg b) / 2). set (x := (deg b - deg a) / 2). replace (deg a) with (m - x) by (unfold m, x; field). replace (deg b) with (m + x) by (unfold m, x; field). clearbody m x.
  destruct c as [cx cy], q as [qx qy]. unfold orient, pcross, psub. cbn [vx vy]. rewrite !cos_plus, !sin_plus, !cos_minus, !sin_minus.
  pose proof (sin2_cos2 m) as Sm. unfold Rsqr in Sm.
  transitivity (2 * r * sin x * (r * cos x * (sin m * sin m + cos m * cos m) - (cos m * (qx - cx) + sin m * (qy - cy)))); [ring|]. rewrite Sm. ring.
Qed.
Lemma deg_lin a k n : (0 < n)%nat -> deg (a + k * (360 / INR n)) = deg a + k * (2 * PI / INR n).
Proof. intro H. unfold deg. field. apply not_0_INR. lia. Qed.

(** Distance and direction of a point. *)
Lemma polar_form (c q : pt) : q <> c -> exists phi, q = mkV (vx c + dist q c * cos phi) (vy c + dist q c * sin phi).
Proof.
  destruct c as [cx cy], q as [qx qy]. intro NE. destruct (Ratan2_polar (qy - cy) (qx - cx)) as (E1 & E2).
  - intros (X & Y). apply NE. vext; lra.
  - exists (Ratan2 (qy - cy) (qx - cx)). unfold dist, norm, psub. cbn [vx vy]. rewrite <- E1, <- E2. f_equal; ring.
Qed.
Lemma dist_sq (a b : pt) : dist a b * dist a b = (vx a - vx b) * (vx a - vx b) + (vy a - vy b) * (vy a - vy b).
Proof. unfold dist. rewrite norm_sq. reflexivity. Qed.
Lemma dist_pos (a b : pt) : 0 <= dist a b. Proof. unfold dist, norm. apply sqrt_pos. Qed.
(** Cauchy-Schwarz for a unit direction. *)
Lemma unit_dot_le m (c q : pt) : Rabs (cos m * (vx q - vx c) + sin m * (vy q - vy c)) <= dist q c.
Proof.
  apply Rsqr_incr_0_var; [|apply dist_pos]. rewrite <- Rsqr_abs. unfold Rsqr. rewrite dist_sq. pose proof (sin2_cos2 m) as S. unfold Rsqr in S.
  set (X := vx q - vx c). set (Y := vy q - vy c). set (C := cos m) in *. set (D := sin m) in *. clearbody X Y C D.
  assert (E : (X * X + Y * Y) = (D * D + C * C) * (X * X + Y * Y)) by (rewrite S; ring). rewrite E.
  assert (0 <= (C * Y - D * X) * (C * Y - D * X)) by apply Rle_0_sqr. nra.
Qed.

Section Regular.
  Variables (n : nat) (r : R) (c : pt) (a : R).
  Hypothesis Hn : (3 <= n)%nat.
  Let N0 : 0 < INR n. Proof. apply lt_0_INR. lia. Qed.
  Let w (k : nat) : pt := polar_at c r (a + INR k * (360 / INR n)).
  Definition half : R := PI / INR n.
  Lemma half_bound : 0 < half <= PI / 3.
  Proof.
    unfold half. pose proof PI_RGT_0. split; [apply Rdiv_lt_0_compat; lra|]. unfold Rdiv. apply Rmult_le_compat_l; [lra|]. apply Rinv_le_contravar; [lra|].
    change 3 with (INR 3 + 0) || idtac. replace 3 with (INR 3) by (cbn; lra). apply le_INR. exact Hn.
  Qed.
  Lemma cos_half : 0 < cos half.
  Proof. pose proof half_bound. pose proof PI_RGT_0. apply cos_gt_0; lra. Qed.
  Lemma sin_half : 0 < sin half.
  Proof. pose proof half_bound. pose proof PI_RGT_0. apply sin_gt_0; lra. Qed.
  Lemma w_deg k : deg (a + INR k * (360 / INR n)) = deg a + INR k * (2 * half).
  Proof. rewrite deg_lin by lia. unfold half. field. lra. Qed.
  Lemma w_wrap : w n = w 0%nat.
  Proof.
    unfold w. rewrite !polar_xy, !w_deg. replace (deg a + INR n * (2 * half)) with (deg a + 2 * PI) by (unfold half; field; lra).
    replace (deg a + INR 0 * (2 * half)) with (deg a) by (cbn; ring). rewrite cos_plus, sin_plus, cos_2PI, sin_2PI. vext; ring.
  Qed.
  Lemma w_orient k j : orient (w k) (w (S k)) (w j) = 4 * (r * r) * sin half * sin ((INR j - INR k - 1) * half) * sin ((INR j - INR k) * half).
  Proof.
    unfold w. rewrite orient_polar, !w_deg, S_INR.
    replace (deg a + (INR k + 1) * (2 * half) - (deg a + INR k * (2 * half))) with (2 * half) by ring.
    replace (deg a + INR j * (2 * half) - (deg a + (INR k + 1) * (2 * half))) with (2 * ((INR j - INR k - 1) * half)) by ring.
    replace (deg a + INR j * (2 * half) - (deg a + INR k * (2 * half))) with (2 * half + 2 * ((INR j - INR k - 1) * half)) by ring.
    replace ((INR j - INR k) * half) with (half + (INR j - INR k - 1) * half) by ring.
    transitivity (r * r * (sin (2 * half) + sin (2 * ((INR j - INR k - 1) * half)) - sin (2 * half + 2 * ((INR j - INR k - 1) * half)))); [ring|]. rewrite sin3. ring.
  Qed.
  Lemma sin_frac m : (0 < m)%Z -> (m < Z.of_nat n)%Z -> 0 < sin (IZR m * half).
  Proof.
    intros H1 H2. apply IZR_lt in H1, H2. rewrite <- INR_IZR_INZ in H2. pose proof half_bound as (B1 & _). apply sin_gt_0; [apply Rmult_lt_0_compat; lra|].
    replace PI with (INR n * half) by (unfold half; field; lra). apply Rmult_lt_compat_r; lra.
  Qed.
  Lemma w_side k j : r <> 0 -> (k < n)%nat -> (j < n)%nat -> j <> k -> j <> S k -> ~ (j = 0%nat /\ S k = n) -> 0 < orient (w k) (w (S k)) (w j).
  Proof.
    intros Hr Hk Hj N1 N2 N3. rewrite w_orient. assert (R2 : 0 < r * r) by nra. pose proof sin_half as SH.
    assert (P : 0 < sin ((INR j - INR k - 1) * half) * sin ((INR j - INR k) * half)).
    { rewrite !INR_IZR_INZ. rewrite <- minus_IZR. replace (IZR (Z.of_nat j - Z.of_nat k) - 1) with (IZR (Z.of_nat j - Z.of_nat k - 1)) by (rewrite minus_IZR; ring).
      destruct (Nat.lt_ge_cases j k) as [L|L].
      - replace (IZR (Z.of_nat j - Z.of_nat k - 1) * half) with (- (IZR (Z.of_nat k + 1 - Z.of_nat j) * half)) by (rewrite !minus_IZR, plus_IZR; ring).
        replace (IZR (Z.of_nat j - Z.of_nat k) * half) with (- (IZR (Z.of_nat k - Z.of_nat j) * half)) by (rewrite !minus_IZR; ring). rewrite !sin_neg.
        assert (0 < sin (IZR (Z.of_nat k + 1 - Z.of_nat j) * half)) by (apply sin_frac; lia). assert (0 < sin (IZR (Z.of_nat k - Z.of_nat j) * half)) by (apply sin_frac; lia). nra.
      - assert (0 < sin (IZR (Z.of_nat j - Z.of_nat k - 1) * half)) by (apply sin_frac; lia). assert (0 < sin (IZR (Z.of_nat j - Z.of_nat k) * half)) by (apply sin_frac; lia). nra. }
    replace (4 * (r * r) * sin half * sin ((INR j - INR k - 1) * half) * sin ((INR j - INR k) * half)) with ((4 * (r * r) * sin half) * (sin ((INR j - INR k - 1) * half) * sin ((INR j - INR k) * half))) by ring.
    apply Rmult_lt_0_compat; [|exact P]. apply Rmult_lt_0_compat; lra.
  Qed.
  Lemma w_inj i j : r <> 0 -> (i < n)%nat -> (j < n)%nat -> w i = w j -> i = j.
  Proof.
    intros Hr Hi Hj E. destruct (Nat.eq_dec i j) as [|NE]; [auto|exfalso].
    assert (K : forall i j, (i < j < n)%nat -> w i = w j -> False).
    { clear - Hr Hn N0. intros i j H E. unfold w in E. rewrite !polar_xy, !w_deg in E. apply mkV_inj in E. destruct E as (E1 & E2).
      set (x := deg a + INR i * (2 * half)) in *. set (y := deg a + INR j * (2 * half)) in *.
      assert (C1 : cos x = cos y) by (apply (Rmult_eq_reg_l r); lra). assert (C2 : sin x = sin y) by (apply (Rmult_eq_reg_l r); lra).
      assert (C : cos (y - x) = 1) by (rewrite cos_minus, C1, C2; pose proof (sin2_cos2 y) as S; unfold Rsqr in S; lra).
      replace (y - x) with (2 * (IZR (Z.of_nat j - Z.of_nat i) * half)) in C by (unfold x, y; rewrite !INR_IZR_INZ, minus_IZR; ring). rewrite cos_2a_sin in C.
      assert (0 < sin (IZR (Z.of_nat j - Z.of_nat i) * half)) by (apply sin_frac; lia). nra. }
    destruct (Nat.lt_ge_cases i j); [apply (K i j); auto|apply (K j i); auto; lia].
  Qed.
  Lemma regular_length : length (regular_points n r c a) = n.
  Proof. unfold regular_points. rewrite map_length, seq_length. reflexivity. Qed.
  Lemma regular_strict : r <> 0 -> strictly_convex 1 (regular_points n r c a).
  Proof.
    intro Hr. split; [auto|]. split; [rewrite regular_length; exact Hn|]. split.
    - unfold regular_points. fold w. assert (ND : forall l, NoDup l -> (forall k, In k l -> (k < n)%nat) -> NoDup (map w l)).
      { induction l as [|x l IH]; intros H1 H2; cbn [map]; constructor.
        - rewrite in_map_iff. intros (y & Ey & Iy). inversion H1; subst. apply w_inj in Ey; [congruence|auto|apply H2; right; auto|apply H2; left; auto].
        - inversion H1; subst. apply IH; auto. intros k Hk. apply H2. right. auto. }
      apply ND; [apply seq_NoDup|]. intros k Hk. apply in_seq in Hk. lia.
    - intros x y v He Hv Nx Ny. apply (cyc_index w n w_wrap) in He. destruct He as (k & Hk & -> & ->). apply in_map_iff in Hv. destruct Hv as (j & <- & Hj). apply in_seq in Hj.
      rewrite Rmult_1_l. apply (w_side k j); auto; try lia; try congruence.
      + intros ->. apply Nx. reflexivity.
      + intros ->. apply Ny. reflexivity.
      + intros (-> & E). apply Ny. rewrite E. symmetry. apply w_wrap.
  Qed.

  (** ** The inscribed and the circumscribed circle *)
  Lemma w_edge k q : orient (w k) (w (S k)) q = 2 * r * sin half * (r * cos half - (cos (deg a + (2 * INR k + 1) * half) * (vx q - vx c) + sin (deg a + (2 * INR k + 1) * half) * (vy q - vy c))).
  Proof.
    unfold w. rewrite orient_mid, !w_deg, S_INR.
    replace ((deg a + (INR k + 1) * (2 * half) - (deg a + INR k * (2 * half))) / 2) with half by field.
    replace ((deg a + INR k * (2 * half) + (deg a + (INR k + 1) * (2 * half))) / 2) with (deg a + (2 * INR k + 1) * half) by field. reflexivity.
  Qed.
  Lemma inner_inside q : dist q c < Rabs r * cos half -> strictly_inside 1 (regular_points n r c a) q.
  Proof.
    intros H x y He _. apply (cyc_index w n w_wrap) in He. destruct He as (k & Hk & -> & ->). rewrite Rmult_1_l, w_edge.
    pose proof (unit_dot_le (deg a + (2 * INR k + 1) * half) c q) as U. set (D := cos _ * _ + _) in *. clearbody D.
    pose proof sin_half. pose proof cos_half. pose proof (dist_pos q c).
    assert (K : 0 < r * (r * cos half - D)).
    { unfold Rabs in *. destruct (Rcase_abs r), (Rcase_abs D).
      - assert (0 < - r) by lra. replace (r * (r * cos half - D)) with (- r * (- r * cos half + D)) by ring. apply Rmult_lt_0_compat; lra.
      - assert (0 < - r) by lra. replace (r * (r * cos half - D)) with (- r * (- r * cos half + D)) by ring. apply Rmult_lt_0_compat; lra.
      - assert (0 < r) by nra. apply Rmult_lt_0_compat; lra.
      - assert (0 < r) by nra. apply Rmult_lt_0_compat; lra. }
    replace (2 * r * sin half * (r * cos half - D)) with (2 * sin half * (r * (r * cos half - D))) by ring. apply Rmult_lt_0_compat; [lra|exact K].
  Qed.
  (** Every direction is within [half] of the middle of an edge. *)
  Lemma near_edge phi : exists k, (k < n)%nat /\ cos half <= cos (phi - (deg a + (2 * INR k + 1) * half)).
  Proof.
    pose proof half_bound as (B1 & B2). pose proof PI_RGT_0. set (z := Int_part ((phi - deg a) / (2 * half))).
    assert (Z : IZR z <= (phi - deg a) / (2 * half) < IZR z + 1) by (unfold z; destruct (base_Int_part ((phi - deg a) / (2 * half))); lra). clearbody z.
    assert (Z1 : IZR z * (2 * half) <= phi - deg a) by (apply (Rmult_le_reg_r (/ (2 * half))); [apply Rinv_0_lt_compat; lra|]; rewrite Rmult_assoc, Rinv_r, Rmult_1_r by lra; lra).
    assert (Z2 : phi - deg a < (IZR z + 1) * (2 * half)) by (apply (Rmult_lt_reg_r (/ (2 * half))); [apply Rinv_0_lt_compat; lra|]; rewrite Rmult_assoc, Rinv_r, Rmult_1_r by lra; lra).
    assert (NZ : (0 < Z.of_nat n)%Z) by lia. pose proof (Z.div_mod z (Z.of_nat n) ltac:(lia)) as DM. pose proof (Z.mod_pos_bound z (Z.of_nat n) NZ) as MB.
    exists (Z.to_nat (z mod Z.of_nat n)). split; [lia|]. rewrite INR_IZR_INZ, Z2Nat.id by lia.
    set (m := (z mod Z.of_nat n)%Z) in *. set (e := (z / Z.of_nat n)%Z) in *. assert (EZ : IZR z = INR n * IZR e + IZR m) by (rewrite DM at 1; rewrite plus_IZR, mult_IZR, <- INR_IZR_INZ; ring). clearbody m e.
    replace (phi - (deg a + (2 * IZR m + 1) * half)) with ((phi - deg a - (2 * IZR z + 1) * half) + 2 * IZR e * PI) by (rewrite EZ; unfold half; field; lra).
    rewrite cos_period_Z. set (u := phi - deg a - (2 * IZR z + 1) * half). assert (U : - half <= u <= half) by (unfold u; lra). clearbody u.
    destruct (Rle_dec 0 u) as [P|P].
    - destruct (Req_dec u half) as [->|]; [lra|]. apply Rlt_le, cos_decreasing_1; lra.
    - rewrite <- (cos_neg u). destruct (Req_dec (- u) half) as [->|]; [lra|]. apply Rlt_le, cos_decreasing_1; lra.
  Qed.
  Lemma outer_outside q : r <> 0 -> Rabs r < dist q c -> exists x y, In (x, y) (cyc_pairs (regular_points n r c a)) /\ orient x y q < 0.
  Proof.
    intros Hr H. assert (NE : q <> c). { intros ->. assert (D0 : dist c c * dist c c = 0) by (rewrite dist_sq; ring). pose proof (Rabs_pos_lt r Hr). nra. }
    destruct (polar_form c q NE) as (phi & E). set (rho := dist q c) in *.
    destruct (near_edge (if Rle_dec 0 r then phi else phi + PI)) as (k & Hk & C).
    exists (w k), (w (S k)). split; [apply (cyc_index_in w n k w_wrap Hk)|]. rewrite w_edge. set (m := deg a + (2 * INR k + 1) * half) in *. clearbody m.
    assert (D : cos m * (vx q - vx c) + sin m * (vy q - vy c) = rho * cos (phi - m)).
    { rewrite E. cbn [vx vy]. rewrite cos_minus. ring. }
    rewrite D. clear D E. pose proof sin_half as SH. pose proof cos_half as CH. clearbody rho.
    assert (K : r * (r * cos half - rho * cos (phi - m)) < 0).
    { unfold Rabs in H. destruct (Rle_dec 0 r) as [P|P]; destruct (Rcase_abs r) as [Q|Q]; try lra.
      - assert (0 < r) by lra. assert (r * cos half < rho * cos (phi - m)); [|nra]. apply Rlt_le_trans with (rho * cos half); nra.
      - replace (phi + PI - m) with (phi - m + PI) in C by ring. rewrite neg_cos in C. assert (0 < - r) by lra. assert (- r * cos half < rho * (- cos (phi - m))); [|nra].
        apply Rlt_le_trans with (rho * cos half); nra. }
    replace (2 * r * sin half * (r * cos half - rho * cos (phi - m))) with (2 * sin half * (r * (r * cos half - rho * cos (phi - m)))) by ring. nra.
  Qed.
End Regular.
