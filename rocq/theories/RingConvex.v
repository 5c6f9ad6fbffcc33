(** * A regular polygon stays strictly convex when its vertices move a little (C115) *)
From Coq Require Import ZArith List Bool Reals Lra Lia.
From Verif Require Import Num Vec SpecGeom SpecRegular SpecTangent RBase VecFacts2 RegularFacts.
Import ListNotations.
Local Open Scope R_scope.

Lemma cross_cs (v w : pt) : Rabs (pcross v w) <= norm v * norm w.
Proof.
  pose proof (norm_sq v) as V. pose proof (norm_sq w) as W. pose proof (norm_nonneg v) as PV. pose proof (norm_nonneg w) as PW. set (n := norm v) in *. set (m := norm w) in *. clearbody n m.
  apply Rsqr_incr_0_var; [|apply Rmult_le_pos; auto]. rewrite <- Rsqr_abs. unfold Rsqr. replace (n * m * (n * m)) with ((n * n) * (m * m)) by ring. rewrite V, W. unfold pcross.
  pose proof (Rle_0_sqr (vx v * vx w + vy v * vy w)) as K. unfold Rsqr in K. nra.
Qed.
Lemma orient_perturb (a b v a' b' v' : pt) d D : dist a' a <= d -> dist b' b <= d -> dist v' v <= d -> dist b a <= D -> dist v a <= D ->
  Rabs (orient a' b' v' - orient a b v) <= 4 * d * D + 4 * d * d.
Proof.
  intros Ha Hb Hv HB HV. set (e1 := psub (psub b' a') (psub b a)). set (e2 := psub (psub v' a') (psub v a)).
  assert (E : orient a' b' v' - orient a b v = pcross (psub b a) e2 + pcross e1 (psub v a) + pcross e1 e2) by (unfold orient, e1, e2; ug; ring).
  assert (N1 : norm e1 <= 2 * d). { replace e1 with (padd (psub b' b) (psub a a')) by (unfold e1; ug; vext; ring). eapply Rle_trans; [apply norm_triangle|]. fold (dist b' b). fold (dist a a'). rewrite (dist_sym a a'). lra. }
  assert (N2 : norm e2 <= 2 * d). { replace e2 with (padd (psub v' v) (psub a a')) by (unfold e2; ug; vext; ring). eapply Rle_trans; [apply norm_triangle|]. fold (dist v' v). fold (dist a a'). rewrite (dist_sym a a'). lra. }
  fold (dist b a) in *. pose proof (cross_cs (psub b a) e2) as C1. pose proof (cross_cs e1 (psub v a)) as C2. pose proof (cross_cs e1 e2) as C3. fold (dist b a) in C1. fold (dist v a) in C2.
  pose proof (norm_nonneg e1) as P1. pose proof (norm_nonneg e2) as P2. pose proof (dist_nonneg b a) as P3. pose proof (dist_nonneg v a) as P4. rewrite E.
  set (x := norm e1) in *. set (y := norm e2) in *. set (p := dist b a) in *. set (q := dist v a) in *.
  assert (p * y <= D * (2 * d)) by (apply Rmult_le_compat; lra). assert (x * q <= 2 * d * D) by (apply Rmult_le_compat; lra). assert (x * y <= 2 * d * (2 * d)) by (apply Rmult_le_compat; lra).
  pose proof (Rabs_triang (pcross (psub b a) e2 + pcross e1 (psub v a)) (pcross e1 e2)). pose proof (Rabs_triang (pcross (psub b a) e2) (pcross e1 (psub v a))). lra.
Qed.
Lemma polar_dist c r a : dist (polar_at c r a) c = Rabs r.
Proof.
  apply Rsqr_inj; [apply dist_pos|apply Rabs_pos|]. rewrite <- Rsqr_abs. unfold Rsqr. rewrite dist_sq, polar_xy. cbn [vx vy]. set (t := deg _). pose proof (sin2_cos2 t) as S. unfold Rsqr in S.
  transitivity (r * r * (sin t * sin t + cos t * cos t)); [ring|]. rewrite S. ring.
Qed.
Lemma sin_mono_half x h : 0 < h -> h <= PI / 3 -> h <= x -> x <= PI - h -> sin h <= sin x.
Proof.
  intros H0 H1 H2 H3. pose proof PI_RGT_0. destruct (Rle_dec x (PI / 2)) as [L|L].
  - apply sin_incr_1; lra.
  - rewrite <- (sin_PI_x x). apply sin_incr_1; lra.
Qed.
Lemma sin_half_lb h : 0 < h -> h <= PI / 3 -> h / 2 <= sin h.
Proof.
  intros H0 H1. pose proof PI_RGT_0. destruct (MVT_cor2 sin cos 0 h H0) as (x & E & Hx); [intros; apply derivable_pt_lim_sin|]. rewrite sin_0 in E.
  assert (C : / 2 <= cos x). { pose proof cos_PI3 as CP. replace (/ 2) with (cos (PI / 3)) by (rewrite CP; lra). apply cos_decr_1; lra. }
  assert (sin h = cos x * h) by lra. assert (/ 2 * h <= cos x * h) by (apply Rmult_le_compat_r; lra). lra.
Qed.

Section Moved.
  Variables (n : nat) (r : R) (c : pt) (a : R).
  Hypothesis Hn : (3 <= n)%nat.
  Let w (k : nat) : pt := polar_at c r (a + INR k * (360 / INR n)).
  Lemma sin_frac_ge m : (0 < m)%Z -> (m < Z.of_nat n)%Z -> sin (half n) <= sin (IZR m * half n).
  Proof using Hn.
    intros H1 H2. destruct (half_bound n Hn) as [B1 B2]. assert (N0 : 0 < INR n) by (apply lt_0_INR; lia).
    assert (M1 : 1 <= IZR m) by (apply IZR_le; lia). assert (M2 : IZR m <= INR n - 1) by (rewrite INR_IZR_INZ, <- minus_IZR; apply IZR_le; lia).
    assert (EP : PI = INR n * half n) by (unfold half; field; lra).
    apply sin_mono_half; auto; [|rewrite EP]; nra.
  Qed.
  Lemma sin_half_n : 3 / 2 / INR n <= sin (half n).
  Proof using Hn.
    destruct (half_bound n Hn) as [B1 B2]. assert (N0 : 0 < INR n) by (apply lt_0_INR; lia). pose proof (sin_half_lb _ B1 B2) as K. eapply Rle_trans; [|exact K]. unfold half. pose proof PI2_3_2.
    unfold Rdiv. rewrite (Rmult_comm (PI * / INR n)), <- Rmult_assoc. apply Rmult_le_compat_r; [left; apply Rinv_0_lt_compat; lra|lra].
  Qed.
  Lemma w_side_lb k j : (k < n)%nat -> (j < n)%nat -> j <> k -> j <> S k -> ~ (j = 0%nat /\ S k = n) ->
    13 * (r * r) / (INR n * INR n * INR n) <= orient (w k) (w (S k)) (w j).
  Proof using Hn.
    intros Hk Hj N1 N2 N3. unfold w. rewrite (w_orient n r c a Hn). assert (R2 : 0 <= r * r) by apply Rle_0_sqr. pose proof sin_half_n as SH. assert (N0 : 0 < INR n) by (apply lt_0_INR; lia).
    set (h := half n) in *. assert (I0 : 0 < 3 / 2 / INR n) by (apply Rdiv_lt_0_compat; lra).
    assert (P : sin h * sin h <= sin ((INR j - INR k - 1) * h) * sin ((INR j - INR k) * h)).
    { rewrite !INR_IZR_INZ. rewrite <- minus_IZR. replace (IZR (Z.of_nat j - Z.of_nat k) - 1) with (IZR (Z.of_nat j - Z.of_nat k - 1)) by (rewrite minus_IZR; ring).
      destruct (Nat.lt_ge_cases j k) as [L|L].
      - replace (IZR (Z.of_nat j - Z.of_nat k - 1) * h) with (- (IZR (Z.of_nat k + 1 - Z.of_nat j) * h)) by (rewrite !minus_IZR, plus_IZR; ring).
        replace (IZR (Z.of_nat j - Z.of_nat k) * h) with (- (IZR (Z.of_nat k - Z.of_nat j) * h)) by (rewrite !minus_IZR; ring). rewrite !sin_neg.
        replace (- sin (IZR (Z.of_nat k + 1 - Z.of_nat j) * h) * - sin (IZR (Z.of_nat k - Z.of_nat j) * h)) with (sin (IZR (Z.of_nat k + 1 - Z.of_nat j) * h) * sin (IZR (Z.of_nat k - Z.of_nat j) * h)) by ring.
        apply Rmult_le_compat; try lra; apply sin_frac_ge; lia.
      - apply Rmult_le_compat; try lra; apply sin_frac_ge; lia. }
    set (p := sin ((INR j - INR k - 1) * h)) in *. set (q := sin ((INR j - INR k) * h)) in *. set (s := sin h) in *. clearbody p q s.
    assert (S3 : 3 / 2 / INR n * (3 / 2 / INR n) * (3 / 2 / INR n) <= s * s * s). { assert (3 / 2 / INR n * (3 / 2 / INR n) <= s * s) by (apply Rmult_le_compat; lra). apply Rmult_le_compat; try lra. apply Rmult_le_pos; lra. }
    assert (S4 : s * s * s <= s * (p * q)) by (replace (s * s * s) with (s * (s * s)) by ring; apply Rmult_le_compat_l; lra).
    replace (4 * (r * r) * s * p * q) with (4 * (r * r) * (s * (p * q))) by ring.
    replace (13 * (r * r) / (INR n * INR n * INR n)) with (4 * (r * r) * (3 / 2 / INR n * (3 / 2 / INR n) * (3 / 2 / INR n)) - / 2 * (r * r) * / (INR n * INR n * INR n)) by (field; lra).
    assert (0 <= / 2 * (r * r) * / (INR n * INR n * INR n)) by (apply Rmult_le_pos; [lra|left; apply Rinv_0_lt_compat; apply Rmult_lt_0_compat; [apply Rmult_lt_0_compat; lra|lra]]).
    assert (4 * (r * r) * (3 / 2 / INR n * (3 / 2 / INR n) * (3 / 2 / INR n)) <= 4 * (r * r) * (s * (p * q))) by (apply Rmult_le_compat_l; lra). lra.
  Qed.
  Lemma strict_of (f : nat -> pt) : f n = f 0%nat ->
    (forall k j, (k < n)%nat -> (j < n)%nat -> j <> k -> j <> S k -> ~ (j = 0%nat /\ S k = n) -> 0 < orient (f k) (f (S k)) (f j)) -> strictly_convex 1 (map f (seq 0 n)).
  Proof using Hn.
    intros W H. assert (Z1 : forall u v : pt, orient u v u = 0) by (intros; unfold orient; ug; ring).
    assert (INJ : forall i j, (i < j < n)%nat -> f i = f j -> False).
    { intros i j Hij E. destruct (Nat.eq_dec j (S i)) as [->|NE].
      - assert (K : 0 < orient (f (S i)) (f (S (S i))) (f i)) by (apply H; lia). rewrite E, Z1 in K. lra.
      - assert (K : 0 < orient (f i) (f (S i)) (f j)) by (apply H; lia). rewrite <- E, Z1 in K. lra. }
    split; [auto|]. split; [rewrite map_length, seq_length; exact Hn|]. split.
    - assert (ND : forall l, NoDup l -> (forall k, In k l -> (k < n)%nat) -> NoDup (map f l)).
      { induction l as [|x l IH]; intros H1 H2; cbn [map]; constructor.
        - rewrite in_map_iff. intros (y & Ey & Iy). inversion H1; subst. assert (x < n)%nat by (apply H2; left; auto). assert (y < n)%nat by (apply H2; right; auto).
          destruct (Nat.lt_total x y) as [L|[L|L]]; [apply (INJ x y); [lia|auto]|congruence|apply (INJ y x); [lia|auto]].
        - inversion H1; subst. apply IH; auto. intros k Hk. apply H2. right. auto. }
      apply ND; [apply seq_NoDup|]. intros k Hk. apply in_seq in Hk. lia.
    - intros x y v He Hv Nx Ny. apply (cyc_index f n W) in He. destruct He as (k & Hk & -> & ->). apply in_map_iff in Hv. destruct Hv as (j & <- & Hj). apply in_seq in Hj.
      rewrite Rmult_1_l. apply H; try lia.
      + intros ->. apply Nx. reflexivity.
      + intros ->. apply Ny. reflexivity.
      + intros (-> & E). apply Ny. rewrite E. symmetry. exact W.
  Qed.
  (** Vertices moved by less than [|r| / n^3] leave the polygon strictly convex. *)
  Lemma moved_convex (l : list pt) d : 0 < d -> INR n * INR n * INR n * d <= Rabs r -> Forall2 (fun x y => dist x y <= d) l (regular_points n r c a) -> strictly_convex 1 l.
  Proof using Hn.
    intros D0 D1 HF. assert (N3 : 3 <= INR n) by (replace 3 with (INR 3) by (cbn; lra); apply le_INR; exact Hn).
    assert (LN : length l = n). { rewrite <- (regular_length n r c a). clear - HF. induction HF; cbn [length]; congruence. }
    assert (NTH : forall k, (k < n)%nat -> dist (nth k l porigin) (w k) <= d).
    { clear D1. intros k Hk. unfold regular_points in HF. fold w in HF. assert (G : forall m s l, Forall2 (fun x y => dist x y <= d) l (map w (seq s m)) -> forall k, (k < m)%nat -> dist (nth k l porigin) (w (s + k)) <= d).
      { clear. induction m as [|m IH]; intros s l H k Hk; [lia|]. cbn [seq map] in H. inversion H as [|x y l' m' H1 H2]; subst. destruct k as [|k]; cbn [nth]; [rewrite Nat.add_0_r; exact H1|].
        rewrite <- Nat.add_succ_comm. apply IH; [exact H2|lia]. }
      exact (G n 0%nat l HF k Hk). }
    set (f := fun k => nth (k mod n) l porigin).
    assert (EF : l = map f (seq 0 n)).
    { apply (nth_ext _ _ porigin (f 0%nat)); [rewrite map_length, seq_length; exact LN|]. intros k Hk. rewrite LN in Hk. rewrite map_nth, seq_nth by exact Hk. unfold f. rewrite Nat.add_0_l, Nat.mod_small by exact Hk. reflexivity. }
    assert (W : f n = f 0%nat) by (unfold f; rewrite Nat.mod_same, Nat.mod_0_l by lia; reflexivity).
    assert (FC : forall k, (k <= n)%nat -> dist (f k) (w k) <= d).
    { intros k Hk. destruct (Nat.eq_dec k n) as [->|NE]; [rewrite W; unfold w; rewrite (w_wrap n r c a Hn); unfold f; rewrite Nat.mod_0_l by lia; apply NTH; lia|unfold f; rewrite Nat.mod_small by lia; apply NTH; lia]. }
    rewrite EF. apply strict_of; [exact W|]. intros k j Hk Hj N1 N2 N3'.
    pose proof (w_side_lb k j Hk Hj N1 N2 N3') as LB.
    assert (DW : forall i i', dist (w i) (w i') <= 2 * Rabs r). { intros i i'. eapply Rle_trans; [apply (dist_triangle _ c)|]. rewrite (dist_sym c). unfold w. rewrite !polar_dist. lra. }
    pose proof (orient_perturb (w k) (w (S k)) (w j) (f k) (f (S k)) (f j) d (2 * Rabs r) (FC k ltac:(lia)) (FC (S k) ltac:(lia)) (FC j ltac:(lia)) (DW _ _) (DW _ _)) as PB.
    set (M := INR n * INR n * INR n) in *. assert (M27 : 27 <= M) by (unfold M; assert (9 <= INR n * INR n) by nra; nra).
    assert (RR : r * r = Rabs r * Rabs r) by (rewrite <- Rabs_mult; rewrite Rabs_pos_eq; [reflexivity|apply Rle_0_sqr]). rewrite RR in LB. set (R := Rabs r) in *.
    assert (R0 : 0 < R) by nra. assert (DR : d <= R / 27) by nra.
    assert (KEY : 4 * d * (2 * R) + 4 * d * d < 13 * (R * R) / M).
    { apply (Rmult_lt_reg_r M); [lra|]. replace (13 * (R * R) / M * M) with (13 * (R * R)) by (field; lra). replace ((4 * d * (2 * R) + 4 * d * d) * M) with ((8 * R + 4 * d) * (M * d)) by ring.
      apply Rle_lt_trans with ((8 * R + 4 * d) * R); [apply Rmult_le_compat_l; lra|nra]. }
    unfold Rabs in PB. destruct (Rcase_abs _) in PB; lra.
  Qed.
End Moved.
