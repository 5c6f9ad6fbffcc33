(** * Lines, rays and segments built on doubles against the ideal shapes *)
From Coq Require Import ZArith List Bool Reals Lra Lia Psatz Floats.
From Flocq Require Import Core IEEE754.PrimFloat IEEE754.BinarySingleNaN.
From Verif Require Import Num NumFloat Vec Affine Line OrdLaws SpecGeom RBase FloatFacts FloatFacts2 FloatFacts3 FloatVec SpecExact FloatExact FloatErr FloatErr2 FloatErr3.
Local Open Scope R_scope.

(** Finite doubles of magnitude at most [M]. *)
Definition within (M : R) (v : vec PrimFloat.float) : Prop :=
  finite_vec v /\ Rabs (toR (vx v)) <= M /\ Rabs (toR (vy v)) <= M.
(** A usable tolerance: positive, at most 1/4, with a sensible square. *)
Definition eps_ok (L : FloatLib) (E : PrimFloat.float) : Prop :=
  finite E /\ 0 < toR E <= / 4 /\ finite (fl_pow2 L E) /\ 0 <= toR (fl_pow2 L E) <= / 2.
(** Length neither extremely small nor large, and above the tolerance by a
    relative 8 roundings. *)
Definition good_length (E : PrimFloat.float) (r : R) : Prop :=
  bpow radix2 (-399) <= r <= bpow radix2 399 /\ toR E < r * (1 - 8 * runit).

(** The ideal frame: unit direction and the normal on its right. *)
Definition right_normal (v : pt) : pt := mkV (vy (punit v)) (- vx (punit v)).

Lemma punit_coords v : 0 < norm v -> Rabs (vx (punit v)) <= 1 /\ Rabs (vy (punit v)) <= 1.
Proof.
  intro H. destruct (coord_norm v) as [A B]. unfold punit, pscale. cbn [vx vy]. rewrite !Rabs_mult, Rabs_pos_eq by (apply Rlt_le, Rinv_0_lt_compat; auto).
  split; apply Rmult_le_reg_l with (norm v); auto; rewrite <- Rmult_assoc, Rinv_r by lra; lra.
Qed.
Lemma near_mag w p d M : near_vec w p d -> Rabs (vx p) <= M -> Rabs (vy p) <= M -> Rabs (vx (vecR w)) <= M + d /\ Rabs (vy (vecR w)) <= M + d.
Proof. intros [A B] H1 H2. apply apx_mag in A. apply apx_mag in B. cbn [vecR vx vy]. lra. Qed.
Lemma near_dot w p d t X : near_vec w p d -> Rabs (vx t) <= X -> Rabs (vy t) <= X ->
  Rabs (pdot t (vecR w) - pdot t p) <= 2 * (X * d) /\ Rabs (pdot (vecR w) t - pdot p t) <= 2 * (X * d).
Proof.
  intros [[_ A] [_ B]] H1 H2. unfold pdot. cbn [vecR vx vy].
  assert (K : Rabs (vx t * (toR (vx w) - vx p) + vy t * (toR (vy w) - vy p)) <= 2 * (X * d)).
  { eapply Rle_trans; [apply Rabs_triang|]. rewrite !Rabs_mult.
    assert (Rabs (vx t) * Rabs (toR (vx w) - vx p) <= X * d) by (apply Rmult_le_compat; auto; apply Rabs_pos).
    assert (Rabs (vy t) * Rabs (toR (vy w) - vy p) <= X * d) by (apply Rmult_le_compat; auto; apply Rabs_pos). lra. }
  split; [replace (_ - _) with (vx t * (toR (vx w) - vx p) + vy t * (toR (vy w) - vy p)) by ring|
          replace (_ - _) with (vx t * (toR (vx w) - vx p) + vy t * (toR (vy w) - vy p)) by ring]; exact K.
Qed.
Lemma dot_mag_le t w X Y : Rabs (vx t) <= X -> Rabs (vy t) <= X -> Rabs (vx w) <= Y -> Rabs (vy w) <= Y -> dot_mag t w <= 2 * (X * Y).
Proof.
  intros. unfold dot_mag. rewrite !Rabs_mult.
  assert (Rabs (vx t) * Rabs (vx w) <= X * Y) by (apply Rmult_le_compat; auto; apply Rabs_pos).
  assert (Rabs (vy t) * Rabs (vy w) <= X * Y) by (apply Rmult_le_compat; auto; apply Rabs_pos). lra.
Qed.
Lemma big_room M : M <= bpow radix2 400 -> 16 * M <= huge / 2.
Proof.
  intro H. apply Rle_trans with (16 * bpow radix2 400); [lra|]. change 16 with (bpow radix2 4). rewrite <- bpow_plus. unfold huge.
  replace (bpow radix2 1000 / 2) with (bpow radix2 999); [apply bpow_le; lia|].
  change 1000%Z with (999 + 1)%Z. rewrite bpow_plus. change (bpow radix2 1) with 2. field.
Qed.
(** Normalizing a slightly wrong vector. *)
Lemma punit_stable v w : 0 < norm v -> Rabs (vx w - vx v) <= runit * Rabs (vx v) -> Rabs (vy w - vy v) <= runit * Rabs (vy v) ->
  (1 - runit) * norm v <= norm w <= (1 + runit) * norm v /\
  Rabs (vx (punit w) - vx (punit v)) <= 3 * runit /\ Rabs (vy (punit w) - vy (punit v)) <= 3 * runit.
Proof.
  intros P A B. pose proof runit_small as U1. pose proof runit_pos as U0.
  assert (SQ : forall a b, Rabs (b - a) <= runit * Rabs a -> (1 - runit) * (1 - runit) * (a * a) <= b * b <= (1 + runit) * (1 + runit) * (a * a)).
  { intros a b H. assert (Rabs a * Rabs a = a * a) by (rewrite <- Rabs_mult; apply Rabs_pos_eq; nra).
    assert (Rabs b * Rabs b = b * b) by (rewrite <- Rabs_mult; apply Rabs_pos_eq; nra).
    pose proof (Rabs_pos a). pose proof (Rabs_pos b).
    assert (H4 : Rabs b <= (1 + runit) * Rabs a). { replace b with (a + (b - a)) by ring. eapply Rle_trans; [apply Rabs_triang|]. lra. }
    assert (H5 : (1 - runit) * Rabs a <= Rabs b).
    { assert (K : Rabs a <= Rabs b + Rabs (b - a)). { rewrite <- (Rabs_Ropp (b - a)). replace a with (b + - (b - a)) at 1 by ring. apply Rabs_triang. } lra. }
    rewrite <- H0, <- H1. split.
    - replace ((1 - runit) * (1 - runit) * (Rabs a * Rabs a)) with (((1 - runit) * Rabs a) * ((1 - runit) * Rabs a)) by ring.
      apply Rmult_le_compat; auto; apply Rmult_le_pos; lra.
    - replace ((1 + runit) * (1 + runit) * (Rabs a * Rabs a)) with (((1 + runit) * Rabs a) * ((1 + runit) * Rabs a)) by ring.
      apply Rmult_le_compat; auto. }
  destruct (SQ _ _ A) as [X1 X2], (SQ _ _ B) as [Y1 Y2].
  pose proof (norm_pos w) as Pw. pose proof (norm_sq v) as QV. pose proof (norm_sq w) as QW.
  assert (N : (1 - runit) * norm v <= norm w <= (1 + runit) * norm v).
  { split; apply Rsqr_incr_0_var; unfold Rsqr; try lra; try (apply Rmult_le_pos; lra).
    - replace ((1 - runit) * norm v * ((1 - runit) * norm v)) with ((1 - runit) * (1 - runit) * (norm v * norm v)) by ring. rewrite QV, QW. lra.
    - replace ((1 + runit) * norm v * ((1 + runit) * norm v)) with ((1 + runit) * (1 + runit) * (norm v * norm v)) by ring. rewrite QV, QW. lra. }
  split; [exact N|]. destruct (coord_norm v) as [C1 C2]. unfold punit, pscale. cbn [vx vy].
  assert (Pw' : 0 < norm w) by (apply Rlt_le_trans with ((1 - runit) * norm v); [apply Rmult_lt_0_compat; lra|lra]).
  assert (G : forall a b, Rabs a <= norm v -> Rabs (b - a) <= runit * Rabs a -> Rabs (/ norm w * b - / norm v * a) <= 3 * runit).
  { intros a b Ha Hb. replace (/ norm w * b - / norm v * a) with (((b - a) * norm v + a * (norm v - norm w)) / (norm v * norm w)) by (field; lra).
    unfold Rdiv. rewrite Rabs_mult, (Rabs_pos_eq (/ _)) by (apply Rlt_le, Rinv_0_lt_compat, Rmult_lt_0_compat; auto).
    apply Rmult_le_reg_r with (norm v * norm w); [apply Rmult_lt_0_compat; auto|]. rewrite Rmult_assoc, Rinv_l, Rmult_1_r by (apply Rmult_integral_contrapositive; lra).
    eapply Rle_trans; [apply Rabs_triang|]. rewrite !Rabs_mult, (Rabs_pos_eq (norm v)) by lra.
    assert (Rabs (norm v - norm w) <= runit * norm v) by (apply Rabs_le; lra).
    assert (Rabs (b - a) * norm v <= runit * norm v * norm v). { apply Rmult_le_compat_r; [lra|]. eapply Rle_trans; [exact Hb|]. apply Rmult_le_compat_l; lra. }
    assert (Rabs a * Rabs (norm v - norm w) <= norm v * (runit * norm v)) by (apply Rmult_le_compat; auto; apply Rabs_pos).
    apply Rle_trans with (2 * (runit * (norm v * norm v))); [lra|].
    assert (2 * norm v <= 3 * norm w) by nra.
    replace (3 * runit * (norm v * norm w)) with (runit * (norm v * (3 * norm w))) by ring.
    replace (2 * (runit * (norm v * norm v))) with (runit * (norm v * (2 * norm v))) by ring.
    apply Rmult_le_compat_l; [lra|]. apply Rmult_le_compat_l; lra. }
  split; apply G; auto.
Qed.

Section Built.
  Variable L : FloatLib.
  Hypothesis HS : sqrt_ok L.
  Let NL : Num PrimFloat.float := FNum L.
  Existing Instance NL.
  Variable E : PrimFloat.float.
  Hypothesis HE : eps_ok L E.

  Lemma v2id (p : vec PrimFloat.float) : vec2_of p = p. Proof using. exact (vec2_of_id L p). Qed.
  Lemma norm_near_unit w p : near_vec w p (10 * runit) -> norm p = 1 -> / 2 < toR (length2 w) /\ finite (length2 w).
  Proof using.
    intros Hw Hp. pose proof runit_small as U1. pose proof runit_pos as U0. pose proof tiny_small as T1. pose proof tiny_pos as T0.
    destruct (coord_norm p) as [C1 C2]. rewrite Hp in C1, C2. destruct (near_mag _ _ _ _ Hw C1 C2) as [M1 M2].
    destruct Hw as [[Fx Ax] [Fy Ay]]. pose proof (norm_sq p) as Q. rewrite Hp in Q.
    assert (F : finite_vec w) by (split; auto).
    assert (H2 : norm (vecR w) <= 2).
    { unfold norm. rewrite <- (sqrt_square 2) by lra. apply sqrt_le_1_alt. apply abs_le2 in M1. apply abs_le2 in M2.
      assert (- (11 / 10) <= vx (vecR w) <= 11 / 10) by lra. assert (- (11 / 10) <= vy (vecR w) <= 11 / 10) by lra. clear M1 M2. nra. }
    destruct (length2_err L w F) as [[FL K] _]. { eapply Rle_trans; [exact H2|]. change 2 with (bpow radix2 1). apply bpow_le. lia. }
    fold NL in K, FL. split; auto. pose proof (norm_pos (vecR w)) as NP. pose proof (norm_sq (vecR w)) as QW. apply abs_le2 in K.
    assert (norm (vecR w) * norm (vecR w) <= 4) by nra.
    assert (3 * runit * (norm (vecR w) * norm (vecR w)) <= 3 * runit * 4) by (apply Rmult_le_compat_l; lra).
    enough (3 / 4 <= norm (vecR w) * norm (vecR w)) by lra. rewrite QW. cbn [vecR vx vy]. apply abs_le2 in Ax. apply abs_le2 in Ay.
    cbn [vecR vx vy] in M1, M2. apply abs_le2 in C1. apply abs_le2 in C2.
    assert (forall a b, Rabs (a - b) <= / 100000 -> -1 <= b <= 1 -> b * b - / 1000 <= a * a).
    { intros a b Hab Hb. apply abs_le2 in Hab. nra. }
    assert (vx p * vx p - / 1000 <= toR (vx w) * toR (vx w)) by (apply H1; [apply Rabs_le; lra|lra]).
    assert (vy p * vy p - / 1000 <= toR (vy w) * toR (vy w)) by (apply H1; [apply Rabs_le; lra|lra]). lra.
  Qed.
  Lemma norm_punit v : 0 < norm v -> norm (punit v) = 1.
  Proof using.
    intro H. apply Rsqr_inj; [apply norm_pos|lra|]. unfold Rsqr. rewrite norm_sq. unfold punit, pscale. cbn [vx vy]. pose proof (norm_sq v) as Q.
    replace (/ norm v * vx v * (/ norm v * vx v) + / norm v * vy v * (/ norm v * vy v)) with (/ norm v * / norm v * (vx v * vx v + vy v * vy v)) by ring.
    rewrite <- Q. field. lra.
  Qed.
  (** The direction setter succeeds with a frame close to the ideal one. *)
  Lemma set_direction_err v : finite_vec v -> bpow radix2 (-400) <= norm (vecR v) <= bpow radix2 400 -> toR E < norm (vecR v) * (1 - 7 * runit) ->
    exists d, set_direction E v = Ok d /\ near_vec (ddir d) (punit (vecR v)) (10 * runit) /\ near_vec (dnormal d) (right_normal (vecR v)) (10 * runit).
  Proof using HS HE.
    intros Fv Hn Hl. destruct HE as (FE & PE & F2 & P2). unfold set_direction. rewrite v2id.
    assert (P : 0 < norm (vecR v)) by (pose proof (bpow_gt_0 radix2 (-400)); lra).
    destruct (normalized_err L HS E v Fv Hn) as (w & Hw & Nw).
    { pose proof (length_rel L HS v Fv Hn) as K. apply (apx_lt _ _ _ _ _ _ (apx_exact E FE) K). lra. }
    fold NL in Hw. rewrite Hw. cbn [bind].
    destruct (norm_near_unit w _ Nw (norm_punit _ P)) as [H1 H2].
    assert (HN : is_null E w = false).
    { unfold is_null. cbn [nltb npow2 NL FNum]. rewrite toR_lt by auto. unfold Rltb. destruct (Rlt_dec _ _); auto. lra. }
    rewrite HN. exists (mkD w (vneg (perpendicular w))). split; [reflexivity|]. cbn [ddir dnormal]. split; [exact Nw|].
    destruct Nw as [Nx Ny]. unfold near_vec, vneg, perpendicular, right_normal. cbn [vx vy nopp NL FNum]. split; [|apply apx_opp; exact Nx].
    eapply apx_eq; [apply apx_opp, apx_opp; exact Ny|]. ring.
  Qed.

  Lemma right_normal_coords v : 0 < norm v -> Rabs (vx (right_normal v)) <= 1 /\ Rabs (vy (right_normal v)) <= 1.
  Proof using. intro H. destruct (punit_coords v H) as [A B]. unfold right_normal. cbn [vx vy]. rewrite Rabs_Ropp. auto. Qed.

  (** Signed distance to a line through [p] with a normal close to [n]. *)
  Lemma distance_near M (p q : vec PrimFloat.float) (d : dirn PrimFloat.float) (n : pt) (e : R) : 0 <= M <= bpow radix2 400 -> 0 <= e <= 20 * runit ->
    within M p -> within M q -> Rabs (vx n) <= 1 -> Rabs (vy n) <= 1 -> near_vec (dnormal d) n e ->
    apx (line_distance_to (mkLine d (dot p (dnormal d))) q) (pdot (psub (vecR q) (vecR p)) n) ((30 * runit + 4 * e) * M + 8 * tiny).
  Proof using.
    intros HM He (Fp & P1 & P2) (Fq & Q1 & Q2) N1 N2 Nd. pose proof runit_small as U1. pose proof runit_pos as U0. pose proof tiny_small as T1. pose proof tiny_pos as T0.
    pose proof (big_room M (proj2 HM)) as BR. destruct (near_mag _ _ _ _ Nd N1 N2) as [M1 M2].
    set (nr := vecR (dnormal d)) in *. assert (Fn : finite_vec (dnormal d)) by (destruct Nd as [[] []]; split; auto).
    assert (Y : 1 + e <= 21 / 20) by lra.
    assert (DP : dot_mag (vecR p) nr <= 21 / 10 * M).
    { eapply Rle_trans; [apply (dot_mag_le _ _ M (21 / 20)); cbn [vecR vx vy]; auto; lra|]. lra. }
    assert (DQ : dot_mag (vecR q) nr <= 21 / 10 * M).
    { eapply Rle_trans; [apply (dot_mag_le _ _ M (21 / 20)); cbn [vecR vx vy]; auto; lra|]. lra. }
    destruct HM as [HM0 HM1].
    assert (OFF : apx (dot p (dnormal d)) (pdot (vecR p) nr) (7 * runit * M + 3 * tiny)).
    { eapply apx_weak; [apply (dot_err L p (dnormal d) Fp Fn); fold nr; lra|]. fold nr.
      assert (runit * dot_mag (vecR p) nr <= runit * (21 / 10 * M)) by (apply Rmult_le_compat_l; lra).
      assert (0 <= runit * M) by (apply Rmult_le_pos; lra). lra. }
    pose proof (apx_mag _ _ _ OFF) as OM. pose proof (pdot_mag (vecR p) nr) as PM.
    assert (SM : runit * M <= / 1048576 * M) by (apply Rmult_le_compat_r; lra).
    assert (TM : 0 <= runit * M) by (apply Rmult_le_pos; lra).
    assert (FO : finite (dot p (dnormal d))) by apply OFF.
    set (o := dot p (dnormal d)) in *.
    assert (4 <= huge) by (unfold huge; change 4 with (bpow radix2 2); apply bpow_le; lia).
    pose proof (line_distance_err L (mkLine d o) q Fn FO Fq) as K. cbn [ldn loffset] in K. fold nr in K.
    assert (KM : dot_mag (vecR q) nr + Rabs (toR o) <= huge / 2) by lra.
    specialize (K KM).
    destruct K as [FK K]. split; [exact FK|]. destruct OFF as [_ OFF].
    set (D := toR (line_distance_to {| ldn := d; loffset := o |} q)) in *.
    assert (X : Rabs (vx (psub (vecR q) (vecR p))) <= 2 * M /\ Rabs (vy (psub (vecR q) (vecR p))) <= 2 * M).
    { unfold psub. cbn [vecR vx vy]. split; eapply Rle_trans; try apply Rabs_triang; rewrite Rabs_Ropp; lra. }
    destruct (near_dot _ _ _ (psub (vecR q) (vecR p)) (2 * M) Nd (proj1 X) (proj2 X)) as [ND _]. fold nr in ND.
    assert (EQ : pdot (psub (vecR q) (vecR p)) nr = pdot (vecR q) nr - pdot (vecR p) nr) by (unfold pdot, psub; cbn [vx vy]; ring).
    rewrite EQ in ND.
    assert (R1 : runit * (dot_mag (vecR q) nr + Rabs (toR o)) <= runit * (44 / 10 * M + 4 * tiny)) by (apply Rmult_le_compat_l; lra).
    assert (R2 : runit * tiny <= / 1048576 * tiny) by (apply Rmult_le_compat_r; lra).
    apply abs_le2 in K. apply abs_le2 in OFF. apply abs_le2 in ND. apply Rabs_le. lra.
  Qed.
  Lemma line_new_err M p v : 0 <= M <= bpow radix2 400 -> within M p -> finite_vec v -> good_length E (norm (vecR v)) ->
    exists l, line_new E p v = Ok l /\
    forall q, within M q -> apx (line_distance_to l q) (pdot (psub (vecR q) (vecR p)) (right_normal (vecR v))) (70 * runit * M + 8 * tiny).
  Proof using HS HE.
    intros HM Hp Fv [[H1 H2] H3]. pose proof runit_small as U1. pose proof runit_pos as U0.
    assert (B1 : bpow radix2 (-400) <= bpow radix2 (-399)) by (apply bpow_le; lia).
    assert (B2 : bpow radix2 399 <= bpow radix2 400) by (apply bpow_le; lia).
    assert (P : 0 < norm (vecR v)) by (pose proof (bpow_gt_0 radix2 (-399)); lra).
    destruct (set_direction_err v Fv) as (d & Hd & _ & Hn); [lra| |].
    { eapply Rlt_le_trans; [exact H3|]. apply Rmult_le_compat_l; lra. }
    unfold line_new. rewrite Hd. cbn [bind]. rewrite v2id. eexists. split; [reflexivity|]. intros q Hq.
    destruct (right_normal_coords _ P) as [C1 C2].
    eapply apx_weak; [apply (distance_near M p q d (right_normal (vecR v)) (10 * runit) HM ltac:(lra) Hp Hq C1 C2 Hn)|]. lra.
  Qed.

  (** Position along or across a direction close to [n], from the anchor [a]. *)
  Lemma along_near M (w p a : vec PrimFloat.float) (n : pt) (e : R) : 0 <= M <= bpow radix2 400 -> 0 <= e <= 20 * runit ->
    within M p -> within M a -> Rabs (vx n) <= 1 -> Rabs (vy n) <= 1 -> near_vec w n e ->
    apx (dot w (vsub p a)) (pdot n (psub (vecR p) (vecR a))) ((25 * runit + 4 * e) * M + 3 * tiny) /\
    apx (dot (vsub p a) w) (pdot n (psub (vecR p) (vecR a))) ((25 * runit + 4 * e) * M + 3 * tiny).
  Proof using.
    intros HM He (Fp & P1 & P2) (Fa & A1 & A2) N1 N2 Nw. pose proof runit_small as U1. pose proof runit_pos as U0.
    pose proof (big_room M (proj2 HM)) as BR. destruct (near_mag _ _ _ _ Nw N1 N2) as [M1 M2]. destruct HM as [HM0 HM1].
    assert (Fw : finite_vec w) by (destruct Nw as [[] []]; split; auto).
    set (to := psub (vecR p) (vecR a)).
    assert (X : Rabs (vx to) <= 2 * M /\ Rabs (vy to) <= 2 * M).
    { unfold to, psub. cbn [vecR vx vy]. split; eapply Rle_trans; try apply Rabs_triang; rewrite Rabs_Ropp; lra. }
    destruct X as [X1 X2]. pose proof huge_pos.
    assert (DM : dot_mag (vecR w) to <= 42 / 10 * M).
    { eapply Rle_trans; [apply (dot_mag_le _ _ (21 / 20) (2 * M)); auto; lra|]. lra. }
    destruct (along_err L w p a Fw Fp Fa) as [K1 K2]; fold to; try lra. fold to NL in K1, K2.
    destruct (near_dot _ _ _ to (2 * M) Nw X1 X2) as [_ ND].
    assert (R1 : runit * dot_mag (vecR w) to <= runit * (42 / 10 * M)) by (apply Rmult_le_compat_l; lra).
    assert (0 <= runit * M) by (apply Rmult_le_pos; lra). apply abs_le2 in ND.
    split; [destruct K1 as [F K]|destruct K2 as [F K]]; (split; [exact F|]); apply abs_le2 in K; apply Rabs_le; lra.
  Qed.
  (** The difference of two points, normalized, against the ideal. *)
  Lemma diff_direction_err M a b : 0 <= M <= bpow radix2 400 -> within M a -> within M b -> good_length E (norm (psub (vecR b) (vecR a))) ->
    exists d, set_direction E (vsub b a) = Ok d /\
      near_vec (ddir d) (punit (psub (vecR b) (vecR a))) (13 * runit) /\
      near_vec (dnormal d) (right_normal (psub (vecR b) (vecR a))) (13 * runit) /\
      finite_vec (vsub b a) /\ (1 - runit) * norm (psub (vecR b) (vecR a)) <= norm (vecR (vsub b a)) <= (1 + runit) * norm (psub (vecR b) (vecR a)).
  Proof using HS HE.
    intros HM (Fa & A1 & A2) (Fb & B1 & B2) [[H1 H2] H3]. pose proof runit_small as U1. pose proof runit_pos as U0.
    pose proof (big_room M (proj2 HM)) as BR. pose proof huge_pos. destruct HM as [HM0 HM1].
    set (v := psub (vecR b) (vecR a)) in *. assert (P : 0 < norm v) by (pose proof (bpow_gt_0 radix2 (-399)); lra).
    assert (X : Rabs (toR (vx b) - toR (vx a)) <= huge /\ Rabs (toR (vy b) - toR (vy a)) <= huge).
    { split; eapply Rle_trans; try apply Rabs_triang; rewrite Rabs_Ropp; lra. }
    destruct Fa as [Fa1 Fa2], Fb as [Fb1 Fb2].
    destruct (apx_diff _ _ Fb1 Fa1 (proj1 X)) as [FX DX]. destruct (apx_diff _ _ Fb2 Fa2 (proj2 X)) as [FY DY].
    assert (Fv : finite_vec (vsub b a)) by (split; auto).
    assert (DX' : Rabs (vx (vecR (vsub b a)) - vx v) <= runit * Rabs (vx v)) by (unfold v, vecR, psub, vsub; cbn [vx vy nsub NL FNum]; exact DX).
    assert (DY' : Rabs (vy (vecR (vsub b a)) - vy v) <= runit * Rabs (vy v)) by (unfold v, vecR, psub, vsub; cbn [vx vy nsub NL FNum]; exact DY).
    destruct (punit_stable v (vecR (vsub b a)) P DX' DY') as (N & S1 & S2).
    assert (G1 : 2 * bpow radix2 (-400) = bpow radix2 (-399)) by (change (-399)%Z with (1 + -400)%Z; rewrite bpow_plus; reflexivity).
    assert (G2 : 2 * bpow radix2 399 = bpow radix2 400) by (change 400%Z with (1 + 399)%Z; rewrite bpow_plus; reflexivity).
    assert (RN : runit * norm v <= / 1048576 * norm v) by (apply Rmult_le_compat_r; lra).
    destruct (set_direction_err (vsub b a) Fv) as (d & Hd & Nd & Nn).
    - lra.
    - eapply Rlt_le_trans; [exact H3|]. apply Rle_trans with (((1 - runit) * norm v) * (1 - 7 * runit)); [|apply Rmult_le_compat_r; lra]. nra.
    - exists d. split; [exact Hd|]. split; [|split; [|split; [exact Fv|exact N]]].
      + destruct Nd as [[K1 K2] [K3 K4]]. apply abs_le2 in K2. apply abs_le2 in K4. apply abs_le2 in S1. apply abs_le2 in S2.
        split; (split; [assumption|apply Rabs_le; lra]).
      + destruct Nn as [[K1 K2] [K3 K4]]. unfold right_normal in *. cbn [vx vy] in *. apply abs_le2 in K2. apply abs_le2 in K4. apply abs_le2 in S1. apply abs_le2 in S2.
        split; (split; [assumption|apply Rabs_le; cbn [vx vy]; lra]).
  Qed.
End Built.
