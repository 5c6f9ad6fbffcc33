(** * Winding numbers of cycles that turn around a centre; star polygons *)
From Coq Require Import ZArith List Bool Reals Lra Lia Psatz.
From Verif Require Import Num Vec Affine Seq Polygon SpecGeom SpecMass SpecWind SpecSimple SpecExtreme SpecRegular SpecTangent RBase VecFacts VecFacts2 CentroidFacts WindFacts TriFacts ConvexFacts ConvexFacts2 ConvexFacts3 MonoFacts RegularFacts.
Import ListNotations.
Local Open Scope R_scope.

(** ** Cycles seen from a centre *)
(** A generic point and a counter-clockwise triangle. *)
Lemma tri_sign (o a b p : pt) : 0 < orient o a b -> orient o a p <> 0 -> orient a b p <> 0 -> orient b o p <> 0 ->
  (wnum [o; a; b] p <= 0)%Z /\ (0 < orient o a p -> 0 < orient a b p -> 0 < orient b o p -> (wnum [o; a; b] p < 0)%Z).
Proof.
  intros H N1 N2 N3. assert (CP : cyc_pairs [o; a; b] = [(o, a); (a, b); (b, o)]) by reflexivity.
  assert (Sd : sided 1 [o; a; b]).
  { intros u v w He Hw. rewrite CP in He. assert (orient a b o = orient o a b /\ orient b o a = orient o a b) as [E1 E2] by (split; ug; ring).
    assert (Z : forall u v : pt, orient u v u = 0 /\ orient u v v = 0) by (intros; split; ug; ring).
    cbn in He, Hw. destruct He as [He|[He|[He|[]]]]; injection He as <- <-; destruct Hw as [<-|[<-|[<-|[]]]]; rewrite ?(proj1 (Z _ _)), ?(proj2 (Z _ _)); lra. }
  assert (Out : forall u v, In (u, v) (cyc_pairs [o; a; b]) -> orient u v p < 0 -> wnum [o; a; b] p = 0%Z) by (intros u v He Hp; apply (outside_edge 1 _ u v); auto; [left; auto|lra]).
  assert (Inn : 0 < orient o a p -> 0 < orient a b p -> 0 < orient b o p -> (wnum [o; a; b] p < 0)%Z).
  { intros P1 P2 P3. assert (D : exists u v, In (u, v) (cyc_pairs [o; a; b]) /\ u <> v). { exists o, a. split; [rewrite CP; left; auto|]. intros ->. revert H. ug. lra. }
    assert (SI : strictly_inside 1 [o; a; b] p). { intros u v He _. rewrite CP in He. cbn in He. destruct He as [He|[He|[He|[]]]]; injection He as <- <-; lra. }
    pose proof (inside_off 1 _ p D SI) as Off. destruct (turns_total p (cyc_pairs [o; a; b])) as [ts Hts]. { intros [u v] He. apply Off; auto. }
    pose proof (wnum_turns p _ ts Off Hts) as S. rewrite CP in Hts.
    inversion Hts as [|? t1 ? ts1 T1 F1]; subst. inversion F1 as [|? t2 ? ts2 T2 F2]; subst. inversion F2 as [|? t3 ? ts3 T3 F3]; subst. inversion F3; subst.
    assert (L : tsign 1) by (left; auto).
    apply (turn_sign 1) in T1; [|auto|apply Off; rewrite CP; cbn; auto|lra]. apply (turn_sign 1) in T2; [|auto|apply Off; rewrite CP; cbn; auto|lra]. apply (turn_sign 1) in T3; [|auto|apply Off; rewrite CP; cbn; auto|lra].
    destruct T1 as [_ T1], T2 as [_ T2], T3 as [_ T3]. specialize (T1 ltac:(lra)). specialize (T2 ltac:(lra)). specialize (T3 ltac:(lra)).
    unfold rsum in S. cbn [fold_right] in S. pose proof PI_RGT_0. apply lt_IZR. nra. }
  split; auto. destruct (Rlt_le_dec (orient o a p) 0); [rewrite (Out o a); auto; [lia|rewrite CP; cbn; auto]|].
  destruct (Rlt_le_dec (orient a b p) 0); [rewrite (Out a b); auto; [lia|rewrite CP; cbn; auto]|].
  destruct (Rlt_le_dec (orient b o p) 0); [rewrite (Out b o); auto; [lia|rewrite CP; cbn; auto]|].
  assert (wnum [o; a; b] p < 0)%Z by (apply Inn; lra). lia.
Qed.
Lemma zsum_neg {X} (f : X -> Z) l : (forall x, In x l -> (f x <= 0)%Z) -> (exists x, In x l /\ (f x < 0)%Z) -> (zsum (map f l) < 0)%Z.
Proof.
  unfold zsum. induction l as [|x l IH]; intros H (y & Hy & K); [destruct Hy|]. cbn [map fold_right].
  assert (N : (fold_right Z.add 0 (map f l) <= 0)%Z). { clear - H. induction l as [|z l IH]; cbn; [lia|]. pose proof (H z (or_intror (or_introl eq_refl))). assert (forall x0, In x0 (x :: l) -> (f x0 <= 0)%Z) by (intros; apply H; cbn in *; tauto). specialize (IH H1). lia. }
  pose proof (H x (or_introl eq_refl)). destruct Hy as [->|Hy]; [lia|]. assert (fold_right Z.add 0 (map f l) < 0)%Z; [|lia]. apply IH; [intros; apply H; cbn; auto|eauto].
Qed.
(** If every edge goes counter-clockwise around o, the cycle winds around every
    generic point that is inside one of the triangles with corner o. *)
Lemma fan_winds (o p : pt) l : (forall a b, In (a, b) (cyc_pairs l) -> 0 < orient o a b /\ orient o a p <> 0 /\ orient a b p <> 0 /\ orient b o p <> 0) ->
  (exists a b, In (a, b) (cyc_pairs l) /\ 0 < orient o a p /\ 0 < orient a b p /\ 0 < orient b o p) -> (wnum l p < 0)%Z.
Proof.
  intros H (a & b & He & P1 & P2 & P3). rewrite (wnum_fan o). apply zsum_neg.
  - intros [u v] Hu. cbn [fst snd]. destruct (H u v Hu) as (Q & Q1 & Q2 & Q3). apply tri_sign; auto.
  - exists (a, b). split; auto. cbn [fst snd]. destruct (H a b He) as (Q & Q1 & Q2 & Q3). apply tri_sign; auto.
Qed.

(** ** Stars *)
Section Star.
  Variables (n : nat) (r1 r2 : R) (c : pt) (a : R).
  Hypothesis Hn : (2 <= n)%nat.
  Definition sx : R := PI / INR n.
  Definition rad (k : nat) : R := if Nat.even k then r1 else r2.
  Definition sv (k : nat) : pt := polar_at c (rad k) (a + INR k * (180 / INR n)).
  Lemma star_def : star_points n r1 r2 c a = map sv (seq 0 (2 * n)). Proof. reflexivity. Qed.
  Lemma star_length : length (star_points n r1 r2 c a) = (2 * n)%nat. Proof. rewrite star_def, map_length, seq_length. reflexivity. Qed.
  Lemma n_pos : 2 <= INR n. Proof. replace 2 with (INR 2) by (cbn; ring). apply le_INR. exact Hn. Qed.
  Lemma sx_bound : 0 < sx <= PI / 2.
  Proof. pose proof n_pos. pose proof PI_RGT_0. split; [apply Rdiv_lt_0_compat; lra|]. unfold sx. apply (Rmult_le_reg_r (INR n)); [lra|]. replace (PI / INR n * INR n) with PI by (field; lra). nra. Qed.
  Lemma sx_full : INR n * sx = PI. Proof. pose proof n_pos. unfold sx. field. lra. Qed.
  Lemma sin_sx : 0 < sin sx. Proof. pose proof sx_bound. pose proof PI_RGT_0. apply sin_gt_0; lra. Qed.
  Lemma cos_sx : 0 <= cos sx. Proof. pose proof sx_bound. pose proof PI_RGT_0. apply cos_ge_0; lra. Qed.
  Lemma s_deg k : deg (a + INR k * (180 / INR n)) = deg a + INR k * sx.
  Proof. pose proof n_pos. unfold deg, sx. field. lra. Qed.
  Lemma s_wrap : sv (2 * n) = sv 0.
  Proof.
    unfold sv. rewrite !polar_xy, !s_deg. assert (ER : rad (2 * n) = rad 0) by (unfold rad; rewrite Nat.even_mul; reflexivity). rewrite ER, mult_INR. replace (INR 2 * INR n * sx) with (2 * PI) by (rewrite Rmult_assoc, sx_full; cbn; ring).
    rewrite cos_plus, sin_plus, cos_2PI, sin_2PI. cbn [INR]. rewrite Rmult_0_l, Rplus_0_r. vext; ring.
  Qed.
  Lemma rad_flip k : rad k * rad (S k) = r1 * r2.
  Proof. unfold rad. rewrite Nat.even_succ, <- Nat.negb_even. destruct (Nat.even k); cbn [negb]; ring. Qed.
  Lemma s_from k j : orient c (sv k) (sv j) = rad k * rad j * sin ((INR j - INR k) * sx).
  Proof.
    assert (C0 : c = polar_at c 0 0) by (rewrite polar_xy; destruct c as [cx cy]; cbn [vx vy]; vext; ring). rewrite C0 at 1. unfold sv. rewrite orient_polar, !s_deg.
    replace (deg a + INR j * sx - (deg a + INR k * sx)) with ((INR j - INR k) * sx) by ring. ring.
  Qed.
  Lemma s_edge_c k : orient c (sv k) (sv (S k)) = r1 * r2 * sin sx.
  Proof. rewrite s_from, rad_flip, S_INR. replace ((INR k + 1 - INR k) * sx) with sx by ring. reflexivity. Qed.
  Lemma s_three i j k : orient (sv i) (sv j) (sv k) =
    rad i * rad j * sin ((INR j - INR i) * sx) + rad j * rad k * sin ((INR k - INR j) * sx) - rad i * rad k * sin ((INR k - INR i) * sx).
  Proof. unfold sv. rewrite orient_polar, !s_deg. f_equal; [f_equal|]; f_equal; f_equal; ring. Qed.
  Lemma s_dist k : dist (sv k) c = Rabs (rad k).
  Proof.
    apply Rsqr_inj; [apply dist_pos|apply Rabs_pos|]. rewrite <- Rsqr_abs. unfold Rsqr. rewrite dist_sq. unfold sv. rewrite polar_xy. cbn [vx vy]. set (t := deg _). pose proof (sin2_cos2 t) as S. unfold Rsqr in S.
    transitivity (rad k * rad k * (sin t * sin t + cos t * cos t)); [ring|]. rewrite S. ring.
  Qed.
  Lemma rad_cases k : rad k = r1 \/ rad k = r2. Proof. unfold rad. destruct (Nat.even k); auto. Qed.
  Lemma star_in k : (k < 2 * n)%nat -> In (sv k) (star_points n r1 r2 c a). Proof. intro H. rewrite star_def. apply in_map, in_seq. lia. Qed.

  (** Every direction falls into the sector of some edge. *)
  Lemma sector phi : exists k u, (k < 2 * n)%nat /\ 0 <= u < sx /\ cos phi = cos (deg a + INR k * sx + u) /\ sin phi = sin (deg a + INR k * sx + u).
  Proof.
    pose proof sx_bound as (B1 & B2). pose proof n_pos. set (z := Int_part ((phi - deg a) / sx)).
    assert (Z : IZR z <= (phi - deg a) / sx < IZR z + 1) by (unfold z; destruct (base_Int_part ((phi - deg a) / sx)); lra). clearbody z.
    assert (Z1 : IZR z * sx <= phi - deg a) by (apply (Rmult_le_reg_r (/ sx)); [apply Rinv_0_lt_compat; lra|]; rewrite Rmult_assoc, Rinv_r, Rmult_1_r by lra; lra).
    assert (Z2 : phi - deg a < (IZR z + 1) * sx) by (apply (Rmult_lt_reg_r (/ sx)); [apply Rinv_0_lt_compat; lra|]; rewrite Rmult_assoc, Rinv_r, Rmult_1_r by lra; lra).
    set (N2 := Z.of_nat (2 * n)). assert (NZ : (0 < N2)%Z) by (unfold N2; lia). pose proof (Z.div_mod z N2 ltac:(lia)) as DM. pose proof (Z.mod_pos_bound z N2 NZ) as MB.
    exists (Z.to_nat (z mod N2)), (phi - deg a - IZR z * sx). split; [unfold N2 in *; lia|]. split; [lra|]. rewrite INR_IZR_INZ, Z2Nat.id by lia.
    set (m := (z mod N2)%Z) in *. set (e := (z / N2)%Z) in *. assert (EZ : IZR z = 2 * INR n * IZR e + IZR m). { rewrite DM at 1. rewrite plus_IZR, mult_IZR. unfold N2. rewrite <- INR_IZR_INZ, mult_INR. cbn [INR]. ring. } clearbody m e.
    assert (P : phi = deg a + IZR m * sx + (phi - deg a - IZR z * sx) + 2 * IZR e * PI) by (rewrite EZ; unfold sx; field; lra).
    assert (SP : forall t, sin (t + 2 * IZR e * PI) = sin t). { intro t. rewrite <- (cos_shift (t + 2 * IZR e * PI)), <- (cos_shift t). replace (PI / 2 - (t + 2 * IZR e * PI)) with (PI / 2 - t + 2 * IZR (- e) * PI) by (rewrite opp_IZR; ring). apply cos_period_Z. }
    split; [rewrite P at 1; apply cos_period_Z|rewrite P at 1; apply SP].
  Qed.
  Definition lo : R := Rmin r1 r2.
  Definition hi : R := Rmax r1 r2.
  Lemma trig_gap u w : 0 < u -> 0 < w -> u + w <= PI / 2 -> sin u + cos (u + w) * sin w <= sin (u + w).
  Proof.
    intros U W T. pose proof (sin2_cos2 w) as S. unfold Rsqr in S. pose proof PI_RGT_0. assert (0 < sin (u + w)) by (apply sin_gt_0; lra). pose proof (COS_bound w).
    assert (E : sin (u + w) - sin u - cos (u + w) * sin w = (1 - cos w) * sin (u + w)).
    { rewrite sin_plus, cos_plus. replace ((cos u * cos w - sin u * sin w) * sin w) with (cos u * cos w * sin w - sin u * (sin w * sin w)) by ring. replace (sin w * sin w) with (1 - cos w * cos w) by lra. ring. }
    assert (0 <= (1 - cos w) * sin (u + w)) by (apply Rmult_le_pos; lra). lra.
  Qed.
  (** In a deep star the circle through the inner corners is inside. *)
  Lemma star_inner q : 0 < r1 -> 0 < r2 -> lo <= hi * cos sx -> dist q c < lo -> (wnum (star_points n r1 r2 c a) q < 0)%Z.
  Proof.
    intros P1 P2 Hd Hq. pose proof sin_sx as SS. assert (EC : 0 < r1 * r2 * sin sx) by (apply Rmult_lt_0_compat; nra).
    assert (J : just_right_below q (fun p => ((wnum (star_points n r1 r2 c a) p = wnum (star_points n r1 r2 c a) q /\ off_edges p (star_points n r1 r2 c a)) /\ dist p c < lo) /\
      forall e, In e (cyc_pairs (star_points n r1 r2 c a)) -> (orient c (fst e) p <> 0 /\ orient (fst e) (snd e) p <> 0) /\ orient (snd e) c p <> 0)).
    { assert (IX : forall x y, In (x, y) (cyc_pairs (star_points n r1 r2 c a)) -> 0 < orient c x y).
      { intros x y He. rewrite star_def in He. apply cyc_index in He as (k & Hk & -> & ->); [|apply s_wrap]. rewrite s_edge_c. exact EC. }
      apply jrb_and; [apply jrb_and; [apply wnum_half_open|]|].
      - pose proof (dist_pos q c) as DP. assert (DQ : dist q c * dist q c < lo * lo) by nra. set (K := lo * lo - dist q c * dist q c) in *.
        set (B := Rabs (vx q - vx c) + Rabs (vy q - vy c) + 1). assert (B1 : 1 <= B) by (unfold B; pose proof (Rabs_pos (vx q - vx c)); pose proof (Rabs_pos (vy q - vy c)); lra).
        exists (Rmin 1 (K / (6 * B))). assert (KP : 0 < K / (6 * B)) by (apply Rdiv_lt_0_compat; unfold K; lra). split; [apply Rmin_pos; lra|]. intros dx Hx. exists (Rmin 1 (K / (6 * B))). split; [apply Rmin_pos; lra|]. intros dy Hy.
        assert (X1 : dx < 1 /\ dx < K / (6 * B)) by (pose proof (Rmin_l 1 (K / (6 * B))); pose proof (Rmin_r 1 (K / (6 * B))); lra). assert (Y1 : dy < 1 /\ dy < K / (6 * B)) by (pose proof (Rmin_l 1 (K / (6 * B))); pose proof (Rmin_r 1 (K / (6 * B))); lra).
        assert (X2 : dx * (6 * B) < K) by (apply (Rmult_lt_reg_r (/ (6 * B))); [apply Rinv_0_lt_compat; lra|]; rewrite Rmult_assoc, Rinv_r, Rmult_1_r by lra; tauto).
        assert (Y2 : dy * (6 * B) < K) by (apply (Rmult_lt_reg_r (/ (6 * B))); [apply Rinv_0_lt_compat; lra|]; rewrite Rmult_assoc, Rinv_r, Rmult_1_r by lra; tauto).
        pose proof (dist_sq q c) as Q. pose proof (dist_sq (mkV (vx q + dx) (vy q - dy)) c) as Q'. cbn [vx vy] in Q'. set (d' := dist _ c) in Q' |- *. 
        pose proof (Rle_abs (vx q - vx c)) as A1. pose proof (Rle_abs (- (vy q - vy c))) as A2. rewrite Rabs_Ropp in A2. pose proof (Rabs_pos (vx q - vx c)) as A3. pose proof (Rabs_pos (vy q - vy c)) as A4.
        assert (L1 : dx * (vx q - vx c) <= dx * B) by (apply Rmult_le_compat_l; unfold B; lra). assert (L2 : dy * (- (vy q - vy c)) <= dy * B) by (apply Rmult_le_compat_l; unfold B; lra).
        assert (L3 : dx * dx <= dx * B) by (apply Rmult_le_compat_l; lra). assert (L4 : dy * dy <= dy * B) by (apply Rmult_le_compat_l; lra).
        assert (d' * d' < lo * lo). { rewrite Q'. unfold K in X2, Y2. clearbody B K. nra. }
        assert (0 < lo) by lra. nra.
      - apply (jrb_all q (cyc_pairs (star_points n r1 r2 c a)) (fun e p => (orient c (fst e) p <> 0 /\ orient (fst e) (snd e) p <> 0) /\ orient (snd e) c p <> 0)). intros [x y] He. cbn [fst snd]. specialize (IX x y He).
        apply jrb_and; [apply jrb_and|]; apply jrb_orient; intros ->; revert IX; ug; lra. }
    destruct J as (e & He & J). destruct (J (e / 2) ltac:(lra)) as (d & Hd' & J'). destruct (J' (d / 2) ltac:(lra)) as (((W & _) & D) & G). clear J J'. set (p := mkV _ _) in *. clearbody p. rewrite <- W. clear W e He d Hd'.
    apply (fan_winds c).
    - intros x y He. pose proof (G (x, y) He) as ((G1 & G2) & G3). cbn [fst snd] in *. split; auto. rewrite star_def in He. apply cyc_index in He as (k & Hk & -> & ->); [|apply s_wrap]. rewrite s_edge_c. exact EC.
    - assert (G' : forall k, (k < 2 * n)%nat -> (orient c (sv k) p <> 0 /\ orient (sv k) (sv (S k)) p <> 0) /\ orient (sv (S k)) c p <> 0) by (intros k Hk; apply (G (sv k, sv (S k))); rewrite star_def; apply cyc_index_in; auto; apply s_wrap).
      assert (NE : p <> c). { intros ->. destruct (G' 0%nat ltac:(lia)) as ((K & _) & _). apply K. ug. ring. }
      destruct (polar_form c p NE) as (phi & EP). destruct (sector phi) as (k & u & Hk & Hu & C1 & S1). destruct (G' k Hk) as ((K1 & K2) & K3).
      exists (sv k), (sv (S k)). split; [rewrite star_def; apply cyc_index_in; auto; apply s_wrap|].
      set (rho := dist p c) in *. assert (RP : 0 < rho). { destruct (Req_dec rho 0) as [Z|Z]; [|pose proof (dist_pos p c) as DP; fold rho in DP; lra]. exfalso. apply NE. rewrite EP, Z. destruct c as [cx cy]; cbn [vx vy]; vext; ring. }
      assert (O1 : orient c (sv k) p = rad k * rho * sin u). { rewrite EP. unfold sv. rewrite polar_xy, s_deg, C1, S1. destruct c as [cx cy]. set (t := deg a + INR k * sx). replace (sin u) with (sin (t + u - t)) by (f_equal; ring). rewrite (sin_minus (t + u) t). ug. ring. }
      assert (O3 : orient (sv (S k)) c p = rad (S k) * rho * sin (sx - u)). { rewrite EP. unfold sv. rewrite polar_xy, s_deg, C1, S1, S_INR. destruct c as [cx cy]. set (t := deg a + INR k * sx). replace (deg a + (INR k + 1) * sx) with (t + sx) by (unfold t; ring). replace (sin (sx - u)) with (sin (t + sx - (t + u))) by (f_equal; ring). rewrite (sin_minus (t + sx)). ug. ring. }
      assert (O2 : orient (sv k) (sv (S k)) p = r1 * r2 * sin sx - orient c (sv k) p - orient (sv (S k)) c p). { rewrite <- (s_edge_c k). ug. ring. }
      pose proof sx_bound as SB. pose proof PI_RGT_0 as PP. assert (U0 : u <> 0) by (intro Z; apply K1; rewrite O1, Z, sin_0; ring). assert (SU : 0 < sin u) by (apply sin_gt_0; lra). assert (SW : 0 < sin (sx - u)) by (apply sin_gt_0; lra).
      assert (RK : 0 < rad k) by (destruct (rad_cases k) as [->| ->]; auto). assert (RK' : 0 < rad (S k)) by (destruct (rad_cases (S k)) as [->| ->]; auto).
      split; [rewrite O1; repeat apply Rmult_lt_0_compat; auto|]. split; [|rewrite O3; repeat apply Rmult_lt_0_compat; auto]. rewrite O2, O1, O3.
      pose proof (trig_gap u (sx - u) ltac:(lra) ltac:(lra) ltac:(lra)) as T1. pose proof (trig_gap (sx - u) u ltac:(lra) ltac:(lra) ltac:(lra)) as T2.
      replace (u + (sx - u)) with sx in T1 by ring. replace (sx - u + u) with sx in T2 by ring. rewrite <- (rad_flip k).
      assert (X : (rad k = hi /\ rad (S k) = lo) \/ (rad k = lo /\ rad (S k) = hi)). { unfold rad, lo, hi, Rmin, Rmax. rewrite Nat.even_succ, <- Nat.negb_even. destruct (Nat.even k), (Rle_dec r1 r2); cbn [negb]; auto. }
      assert (PL : 0 < lo) by (unfold lo; apply Rmin_pos; auto). assert (PH : 0 < hi) by (unfold hi; apply Rlt_le_trans with r1; auto using Rmax_l).
      clear - X PL PH Hd D SU SW T1 T2 SS RP. clearbody rho. set (su := sin u) in *. set (sw := sin (sx - u)) in *. set (ss := sin sx) in *. set (cs := cos sx) in *. set (L := lo) in *. set (H := hi) in *. clearbody su sw ss cs L H.
      destruct X as [[-> ->]|[-> ->]].
      + assert (M : H * su + L * sw <= H * ss) by (assert (L * sw <= H * cs * sw) by (apply Rmult_le_compat_r; lra); nra). assert (0 < H * su + L * sw) by nra. assert (rho * (H * su + L * sw) < L * (H * su + L * sw)) by (apply Rmult_lt_compat_r; lra). nra.
      + assert (M : H * sw + L * su <= H * ss) by (assert (L * su <= H * cs * su) by (apply Rmult_le_compat_r; lra); nra). assert (0 < H * sw + L * su) by nra. assert (rho * (H * sw + L * su) < L * (H * sw + L * su)) by (apply Rmult_lt_compat_r; lra). nra.
  Qed.
End Star.
