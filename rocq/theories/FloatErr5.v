(** * Rays and segments on doubles against the ideal shapes *)
From Coq Require Import ZArith List Bool Reals Lra Lia Psatz Floats.
From Flocq Require Import Core IEEE754.PrimFloat IEEE754.BinarySingleNaN.
From Verif Require Import Num NumFloat Vec Affine Line OrdLaws SpecGeom RBase SpecLine LineFacts LineFacts2 FloatFacts FloatFacts2 FloatFacts3 FloatVec SpecExact FloatExact FloatErr FloatErr2 FloatErr3 FloatErr4.
Import ListNotations.
Local Open Scope R_scope.

(** Coordinates neither extremely small nor large. *)
Definition room (M : R) : Prop := bpow radix2 (-400) <= M <= bpow radix2 395.
(** The ideal direction and normal of a vector. *)
Definition ideal_dirn (v : pt) : dirn R := mkD (punit v) (right_normal v).
Definition near_dirn (d : dirn PrimFloat.float) (v : pt) : Prop :=
  near_vec (ddir d) (punit v) (20 * runit) /\ near_vec (dnormal d) (right_normal v) (20 * runit).

Lemma ideal_frame v : 0 < norm v -> frame (ideal_dirn v).
Proof.
  intro H. assert (U : norm (punit v) = 1) by (apply norm_punit; auto). apply frame_iff. unfold ideal_dirn. cbn [ddir dnormal]. split; [exact U|].
  reflexivity.
Qed.
Lemma room_small M : room M -> 0 < M /\ 16 * tiny + 4 * small_root <= runit * M.
Proof.
  intros [H _]. assert (P : 0 < bpow radix2 (-400)) by apply bpow_gt_0. split; [lra|].
  apply Rle_trans with (runit * bpow radix2 (-400)); [|apply Rmult_le_compat_l; [pose proof runit_pos; lra|auto]].
  assert (A : 16 * tiny <= bpow radix2 (-534)) by (unfold tiny; change 16 with (bpow radix2 4); rewrite <- bpow_plus; apply bpow_le; lia).
  assert (B : 4 * small_root <= bpow radix2 (-534)) by (unfold small_root; change 4 with (bpow radix2 2); rewrite <- bpow_plus; apply bpow_le; lia).
  assert (C : 2 * bpow radix2 (-534) <= runit * bpow radix2 (-400)).
  { unfold runit. change 2 with (bpow radix2 1). rewrite <- !bpow_plus. apply bpow_le. lia. }
  lra.
Qed.
Lemma norm_near v w d : 0 <= d -> Rabs (vx w - vx v) <= d -> Rabs (vy w - vy v) <= d -> Rabs (norm w - norm v) <= 2 * d.
Proof.
  assert (G : forall v w, 0 <= d -> Rabs (vx w - vx v) <= d -> Rabs (vy w - vy v) <= d -> norm w <= norm v + 2 * d).
  { intros v0 w0 Hd A B. pose proof (norm_pos v0) as P. destruct (coord_norm v0) as [C1 C2].
    apply Rsqr_incr_0; [|apply norm_pos|lra]. unfold Rsqr. rewrite norm_sq. pose proof (norm_sq v0) as Q.
    assert (X : vx w0 * vx w0 <= (Rabs (vx v0) + d) * (Rabs (vx v0) + d)).
    { rewrite <- (Rabs_pos_eq (vx w0 * vx w0)) by nra. rewrite Rabs_mult.
      assert (Rabs (vx w0) <= Rabs (vx v0) + d) by (replace (vx w0) with (vx v0 + (vx w0 - vx v0)) by ring; eapply Rle_trans; [apply Rabs_triang|]; lra).
      apply Rmult_le_compat; auto; apply Rabs_pos. }
    assert (Y : vy w0 * vy w0 <= (Rabs (vy v0) + d) * (Rabs (vy v0) + d)).
    { rewrite <- (Rabs_pos_eq (vy w0 * vy w0)) by nra. rewrite Rabs_mult.
      assert (Rabs (vy w0) <= Rabs (vy v0) + d) by (replace (vy w0) with (vy v0 + (vy w0 - vy v0)) by ring; eapply Rle_trans; [apply Rabs_triang|]; lra).
      apply Rmult_le_compat; auto; apply Rabs_pos. }
    assert (SX : Rabs (vx v0) * Rabs (vx v0) = vx v0 * vx v0) by (rewrite <- Rabs_mult; apply Rabs_pos_eq; nra).
    assert (SY : Rabs (vy v0) * Rabs (vy v0) = vy v0 * vy v0) by (rewrite <- Rabs_mult; apply Rabs_pos_eq; nra).
    assert (d * Rabs (vx v0) <= d * norm v0) by (apply Rmult_le_compat_l; auto).
    assert (d * Rabs (vy v0) <= d * norm v0) by (apply Rmult_le_compat_l; auto).
    assert (0 <= d * d) by nra. nra. }
  intros Hd A B. apply Rabs_le. pose proof (G v w Hd A B). rewrite Rabs_minus_sym in A, B. pose proof (G w v Hd A B). lra.
Qed.
Lemma norm_sum v : norm v <= Rabs (vx v) + Rabs (vy v).
Proof.
  pose proof (Rabs_pos (vx v)). pose proof (Rabs_pos (vy v)). apply Rsqr_incr_0; [|apply norm_pos|lra]. unfold Rsqr. rewrite norm_sq.
  assert (SX : Rabs (vx v) * Rabs (vx v) = vx v * vx v) by (rewrite <- Rabs_mult; apply Rabs_pos_eq; nra).
  assert (SY : Rabs (vy v) * Rabs (vy v) = vy v * vy v) by (rewrite <- Rabs_mult; apply Rabs_pos_eq; nra). nra.
Qed.
(** Hypotenuse against one leg. *)
Lemma leg_near n pos_al pos_ac : 0 <= n -> n * n = pos_al * pos_al + pos_ac * pos_ac -> Rabs pos_ac <= n <= Rabs pos_ac + Rabs pos_al.
Proof.
  intros P Q. pose proof (Rabs_pos pos_al). pose proof (Rabs_pos pos_ac).
  assert (SX : Rabs pos_al * Rabs pos_al = pos_al * pos_al) by (rewrite <- Rabs_mult; apply Rabs_pos_eq; nra).
  assert (SY : Rabs pos_ac * Rabs pos_ac = pos_ac * pos_ac) by (rewrite <- Rabs_mult; apply Rabs_pos_eq; nra).
  split; apply Rsqr_incr_0; unfold Rsqr; try lra; nra.
Qed.
Lemma frame_legs d (p a : pt) : frame d ->
  norm (psub p a) * norm (psub p a) = pdot (ddir d) (psub p a) * pdot (ddir d) (psub p a) + pdot (dnormal d) (psub p a) * pdot (dnormal d) (psub p a).
Proof.
  intro Hf. pose proof (frame_sq d Hf) as Q. apply frame_iff in Hf. destruct Hf as [_ ->]. rewrite norm_sq. unfold pdot, psub, cw. cbn [vx vy].
  set (x := vx p - vx a). set (y := vy p - vy a). clearbody x y. set (c := vx (ddir d)) in *. set (s := vy (ddir d)) in *. clearbody c s.
  transitivity ((x * x + y * y) * (c * c + s * s)); [rewrite Q; ring|ring].
Qed.

Section Shapes.
  Variable L : FloatLib.
  Hypothesis HS : sqrt_ok L.
  Let NL : Num PrimFloat.float := FNum L.
  Local Existing Instance NL.
  Variable M : R.
  Hypothesis HM : room M.
  Let m := runit * M.
  Lemma m_pos : 0 < m. Proof using HM. unfold m. destruct (room_small M HM). pose proof runit_pos. apply Rmult_lt_0_compat; lra. Qed.
  Lemma vid (p : vec PrimFloat.float) : vec2_of p = p. Proof using. exact (vec2_of_id L p). Qed.
  Lemma within_room : 0 <= M <= bpow radix2 400. Proof using HM. destruct (room_small M HM) as [P _]. destruct HM as [_ H]. assert (bpow radix2 395 <= bpow radix2 400) by (apply bpow_le; lia). lra. Qed.
  Lemma m_small : m <= / 1048576 * M.
  Proof using HM. unfold m. destruct (room_small M HM). pose proof runit_small. apply Rmult_le_compat_r; lra. Qed.

  (** Length of the difference of two vectors, the second known within [k] margins. *)
  Lemma diff_length p a (A : pt) k : within M p -> finite_vec a -> 0 <= k <= 1000 -> near_vec a A (k * m) -> Rabs (vx A) <= 5 * M -> Rabs (vy A) <= 5 * M ->
    apx (vlength (vsub p a)) (norm (psub (vecR p) A)) ((2 * k + 90) * m).
  Proof using HS HM.
    intros (Fp & P1 & P2) Fa Hk [Ax Ay] A1 A2. pose proof m_pos as MP. pose proof m_small as MS. destruct (room_small M HM) as [M0 SM].
    pose proof (big_room M (proj2 within_room)) as BR. pose proof huge_pos. pose proof runit_pos as U0. pose proof runit_small as U1. fold m in SM.
    assert (KM : k * m <= 1000 * m) by (apply Rmult_le_compat_r; lra). assert (KP : 0 <= k * m) by (apply Rmult_le_pos; lra).
    destruct Fp as [Fx Fy].
    assert (SB : forall x y (z : R), finite x -> Rabs (toR x) <= M -> apx y z (k * m) -> Rabs z <= 5 * M -> apx (x - y) (toR x - z) ((k + 7) * m)).
    { intros x y z F1 H1 H2 H3. eapply apx_weak; [apply (apx_sub _ _ _ _ _ _ (7 * M) (apx_exact _ F1) H2)|].
      - assert (Rabs (toR x - z) <= 6 * M) by (eapply Rle_trans; [apply Rabs_triang|]; rewrite Rabs_Ropp; lra). lra.
      - lra.
      - unfold m in *. lra. }
    pose proof (SB _ _ _ Fx P1 Ax A1) as DX. pose proof (SB _ _ _ Fy P2 Ay A2) as DY. clear SB.
    set (v := psub (vecR p) A). assert (NV : norm v <= 12 * M).
    { eapply Rle_trans; [apply norm_sum|]. unfold v, psub. cbn [vecR vx vy].
      assert (Rabs (toR (vx p) - vx A) <= 6 * M) by (eapply Rle_trans; [apply Rabs_triang|]; rewrite Rabs_Ropp; lra).
      assert (Rabs (toR (vy p) - vy A) <= 6 * M) by (eapply Rle_trans; [apply Rabs_triang|]; rewrite Rabs_Ropp; lra). lra. }
    assert (NN : Rabs (norm (vecR (vsub p a)) - norm v) <= 2 * ((k + 7) * m)).
    { apply norm_near; [nra|exact (proj2 DX)|exact (proj2 DY)]. }
    apply abs_le2 in NN. set (w := vsub p a) in *. assert (Fw : finite_vec w) by (split; [exact (proj1 DX)|exact (proj1 DY)]).
    assert (NW : norm (vecR w) <= 12.2 * M) by nra.
    assert (LE : apx (vlength w) (norm (vecR w)) (6 * runit * norm (vecR w) + 2 * small_root)).
    { apply (length_err L HS w Fw). eapply Rle_trans; [exact NW|]. destruct HM as [_ H2].
      apply Rle_trans with (16 * bpow radix2 395); [lra|]. change 16 with (bpow radix2 4). rewrite <- bpow_plus. apply bpow_le. lia. }
    destruct LE as [F K]. split; [exact F|]. apply abs_le2 in K. pose proof tiny_pos.
    assert (runit * norm (vecR w) <= runit * (12.2 * M)) by (apply Rmult_le_compat_l; lra). fold v. unfold m in *. apply Rabs_le. lra.
  Qed.
  Lemma within_near p : within M p -> near_vec p (vecR p) (0 * m).
  Proof using. intros ([F1 F2] & _). rewrite Rmult_0_l. split; apply apx_exact; auto. Qed.
  Lemma point_length p a : within M p -> within M a -> apx (vlength (vsub p a)) (norm (psub (vecR p) (vecR a))) (90 * m).
  Proof using HS HM.
    intros Hp Ha. pose proof m_pos. destruct (room_small M HM) as [M0 _]. eapply apx_weak; [apply (diff_length p a (vecR a) 0); auto|lra].
    - apply Ha. - lra. - apply within_near; auto. - destruct Ha as (_ & A & _). cbn [vecR vx]. lra. - destruct Ha as (_ & _ & A). cbn [vecR vy]. lra.
  Qed.

  Variable u : pt.
  Hypothesis Hu : 0 < norm u.
  Definition pos_al (a p : vec PrimFloat.float) : R := pdot (punit u) (psub (vecR p) (vecR a)).
  Definition pos_ac (a p : vec PrimFloat.float) : R := pdot (right_normal u) (psub (vecR p) (vecR a)).
  Lemma al_near d a p : near_dirn d u -> within M a -> within M p -> apx (dot (ddir d) (vsub p a)) (pos_al a p) (106 * m).
  Proof using HM Hu.
    intros [H1 H2] Ha Hp. destruct (punit_coords u Hu) as [C1 C2]. destruct (room_small M HM) as [M0 SM]. pose proof runit_pos. pose proof tiny_pos.
    assert (0 < small_root) by apply bpow_gt_0.
    eapply apx_weak; [apply (along_near L M (ddir d) p a (punit u) (20 * runit) within_room); auto; lra|]. unfold m. lra.
  Qed.
  Lemma ac_near d a p : near_dirn d u -> within M a -> within M p ->
    apx (dot (dnormal d) (vsub p a)) (pos_ac a p) (106 * m) /\ apx (dot (vsub p a) (dnormal d)) (pos_ac a p) (106 * m).
  Proof using HM Hu.
    intros [H1 H2] Ha Hp. destruct (right_normal_coords u Hu) as [C1 C2]. destruct (room_small M HM) as [M0 SM]. pose proof runit_pos. pose proof tiny_pos.
    assert (0 < small_root) by apply bpow_gt_0.
    destruct (along_near L M (dnormal d) p a (right_normal u) (20 * runit) within_room) as [K1 K2]; auto; try lra. split; (eapply apx_weak; [eassumption|unfold m; lra]).
  Qed.
  Lemma legs a p : norm (psub (vecR p) (vecR a)) * norm (psub (vecR p) (vecR a)) = pos_al a p * pos_al a p + pos_ac a p * pos_ac a p.
  Proof using Hu. exact (frame_legs (ideal_dirn u) _ _ (ideal_frame u Hu)). Qed.

  (** Line.distance_to. *)
  Lemma line_dist_near l a p : near_dirn (ldn l) u -> within M a -> within M p -> loffset l = dot a (dnormal (ldn l)) ->
    apx (line_distance_to l p) (pos_ac a p) (111 * m).
  Proof using HM Hu.
    intros [H1 H2] Ha Hp Ho. destruct (right_normal_coords u Hu) as [C1 C2]. destruct (room_small M HM) as [M0 SM]. pose proof runit_pos. pose proof tiny_pos.
    assert (0 < small_root) by apply bpow_gt_0. destruct l as [d o]. cbn [ldn loffset] in *. subst o.
    eapply apx_weak; [eapply apx_eq; [apply (distance_near L M a p d (right_normal u) (20 * runit) within_room); auto; lra|]|].
    - unfold pos_ac. apply pdot_sym.
    - unfold m. lra.
  Qed.

  (** Ray.distance_to. *)
  Definition ideal_ray (a : vec PrimFloat.float) : ray R := mkRay (ideal_dirn u) (vecR a).
  Lemma ray_dist_near r p : near_dirn (rdn r) u -> within M (ranchor r) -> within M p ->
    apx (ray_distance_to r p) (ray_distance_to (ideal_ray (ranchor r)) (vecR p)) (256 * m).
  Proof using HS HM Hu.
    intros Hd Ha Hp. pose proof m_pos as MP. pose proof (al_near _ _ _ Hd Ha Hp) as KA. destruct (ac_near _ _ _ Hd Ha Hp) as [_ KC].
    pose proof (point_length _ _ Hp Ha) as KL. pose proof (apx_abs _ _ _ KC) as KB. pose proof (leg_near _ _ _ (norm_pos _) (legs (ranchor r) p)) as LG.
    rewrite ray_distance_R. unfold ideal_ray. cbn [rdn ranchor ideal_dirn ddir dnormal]. fold (pos_al (ranchor r) p). rewrite (pdot_sym _ (right_normal u)). fold (pos_ac (ranchor r) p).
    set (x := pos_al (ranchor r) p) in *. set (y := pos_ac (ranchor r) p) in *. set (n := norm (psub (vecR p) (vecR (ranchor r)))) in *. clearbody x y n.
    unfold ray_distance_to. rewrite vid. cbn [nleb nabs NL FNum]. fold NL. change n0 with 0%float.
    destruct (apx_le _ _ _ _ _ _ (apx_exact 0 eq_refl) KA) as [T1 T2]. rewrite toR_0 in T1, T2.
    assert (AX : Rabs x = x \/ Rabs x = - x) by (unfold Rabs; destruct (Rcase_abs x); auto).
    destruct (PrimFloat.leb 0 (dot (ddir (rdn r)) (vsub p (ranchor r)))) eqn:B.
    - specialize (T2 eq_refl). destruct (Rleb_spec 0 x).
      + eapply apx_weak; [exact KB|lra].
      + destruct KB as [F K]. split; [exact F|]. apply abs_le2 in K. apply Rabs_le. lra.
    - assert (x < 106 * m) by (apply Rnot_le_lt; intro; discriminate T1; lra). destruct (Rleb_spec 0 x).
      + destruct KL as [F K]. split; [exact F|]. apply abs_le2 in K. apply Rabs_le. lra.
      + eapply apx_weak; [exact KL|lra].
  Qed.

  (** LineSegment.distance_to. *)
  Definition ideal_seg (a : vec PrimFloat.float) (len : R) : segment R := mkSeg (ideal_dirn u) (vecR a) len.
  Lemma seg_end_near s len : near_dirn (sdn s) u -> within M (sanchor s) -> 0 <= len <= 4 * M -> apx (slength s) len (40 * m) ->
    near_vec (seg_end s) (seg_end (ideal_seg (sanchor s) len)) (132 * m) /\
    Rabs (vx (seg_end (ideal_seg (sanchor s) len))) <= 5 * M /\ Rabs (vy (seg_end (ideal_seg (sanchor s) len))) <= 5 * M.
  Proof using HM Hu.
    intros [[Dx Dy] _] ([Fx Fy] & A1 & A2) Hl KL. pose proof m_pos as MP. pose proof m_small as MS. destruct (room_small M HM) as [M0 SM]. fold m in SM.
    pose proof (big_room M (proj2 within_room)) as BR. pose proof huge_pos. pose proof runit_pos as U0. pose proof runit_small as U1. pose proof tiny_pos.
    assert (0 < small_root) by apply bpow_gt_0. destruct (punit_coords u Hu) as [C1 C2].
    assert (G : forall x dx (X : R), finite x -> Rabs (toR x) <= M -> apx dx X (20 * runit) -> Rabs X <= 1 ->
      apx (x + dx * slength s) (toR x + len * X) (132 * m) /\ Rabs (toR x + len * X) <= 5 * M).
    { intros x dx X F1 J1 J2 J3. assert (LX : Rabs (len * X) <= 4 * M).
      { rewrite Rabs_mult, (Rabs_pos_eq len) by lra. replace (4 * M) with ((4 * M) * 1) by ring. apply Rmult_le_compat; try lra. apply Rabs_pos. }
      assert (S5 : Rabs (toR x + len * X) <= 5 * M) by (eapply Rle_trans; [apply Rabs_triang|]; lra).
      split; [|exact S5].
      assert (PR : apx (dx * slength s) (len * X) (125.2 * m)).
      { eapply apx_weak; [eapply apx_eq; [apply (apx_mul _ _ _ _ _ _ (1.001) (4.001 * M) J2 KL)|ring]|].
        - lra. - rewrite Rabs_pos_eq by lra. lra. - nra. - unfold m in *. nra. }
      eapply apx_weak; [apply (apx_add _ _ _ _ _ _ (5.1 * M) (apx_exact _ F1) PR); lra|]. unfold m in *. lra. }
    destruct (G _ _ _ Fx A1 Dx C1) as [X1 X2]. destruct (G _ _ _ Fy A2 Dy C2) as [Y1 Y2]. rewrite seg_end_R. unfold ideal_seg, seg_end.
    cbn [sanchor slength sdn ideal_dirn ddir]. unfold padd, pscale. cbn [vx vy vecR]. split; [split; assumption|auto].
  Qed.
  Lemma end_legs a len p : norm (psub (vecR p) (seg_end (ideal_seg a len))) * norm (psub (vecR p) (seg_end (ideal_seg a len))) =
    (pos_al a p - len) * (pos_al a p - len) + pos_ac a p * pos_ac a p.
  Proof using Hu.
    pose proof (ideal_frame u Hu) as Hf. rewrite (frame_legs (ideal_dirn u) _ _ Hf). rewrite seg_end_R. unfold ideal_seg. cbn [sanchor slength sdn].
    destruct (dot_frame _ Hf) as (D1 & _ & _ & D2). unfold pos_al, pos_ac. cbn [ideal_dirn ddir dnormal] in *.
    assert (E1 : forall w, pdot w (psub (vecR p) (padd (vecR a) (pscale len (punit u)))) = pdot w (psub (vecR p) (vecR a)) - len * pdot w (punit u)).
    { intro w. unfold pdot, psub, padd, pscale. cbn [vx vy]. ring. }
    rewrite !E1. rewrite D1. rewrite D2. ring.
  Qed.
  Lemma seg_dist_near s len p : near_dirn (sdn s) u -> within M (sanchor s) -> within M p -> 0 <= len <= 4 * M -> apx (slength s) len (40 * m) ->
    apx (seg_distance_to s p) (seg_distance_to (ideal_seg (sanchor s) len) (vecR p)) (640 * m).
  Proof using HS HM Hu.
    intros Hd Ha Hp Hl KS. pose proof m_pos as MP. pose proof (al_near _ _ _ Hd Ha Hp) as KA. destruct (ac_near _ _ _ Hd Ha Hp) as [_ KC].
    pose proof (point_length _ _ Hp Ha) as KL. pose proof (apx_abs _ _ _ KC) as KB. pose proof (leg_near _ _ _ (norm_pos _) (legs (sanchor s) p)) as LG.
    destruct (seg_end_near s len Hd Ha Hl KS) as (NE & E1 & E2).
    assert (KE : apx (vlength (vsub p (seg_end s))) (norm (psub (vecR p) (seg_end (ideal_seg (sanchor s) len)))) ((2 * 132 + 90) * m)).
    { apply diff_length; auto; try lra. destruct NE as [[F1 _] [F2 _]]. split; auto. }
    pose proof (leg_near _ _ _ (norm_pos _) (end_legs (sanchor s) len p)) as LE.
    rewrite seg_distance_R. unfold dist, sx. change (sanchor (ideal_seg (sanchor s) len)) with (vecR (sanchor s)).
    change (ddir (sdn (ideal_seg (sanchor s) len))) with (punit u). change (dnormal (sdn (ideal_seg (sanchor s) len))) with (right_normal u).
    change (slength (ideal_seg (sanchor s) len)) with len. fold (pos_al (sanchor s) p). rewrite (pdot_sym _ (right_normal u)). fold (pos_ac (sanchor s) p).
    set (x := pos_al (sanchor s) p) in *. set (y := pos_ac (sanchor s) p) in *. set (n := norm (psub (vecR p) (vecR (sanchor s)))) in *.
    set (ne := norm (psub (vecR p) (seg_end (ideal_seg (sanchor s) len)))) in *. clearbody x y n ne.
    unfold seg_distance_to. rewrite vid. cbn [nltb nabs NL FNum]. fold NL. change n0 with 0%float.
    destruct (apx_lt _ _ _ _ _ _ KA (apx_exact 0 eq_refl)) as [T1 T2]. rewrite toR_0 in T1, T2.
    destruct (apx_lt _ _ _ _ _ _ KS KA) as [T3 T4].
    assert (AX : Rabs x = x \/ Rabs x = - x) by (unfold Rabs; destruct (Rcase_abs x); auto).
    assert (AL : (Rabs (x - len) = x - len /\ len <= x) \/ (Rabs (x - len) = len - x /\ x < len)) by (unfold Rabs; destruct (Rcase_abs (x - len)); [right|left]; lra).
    assert (AX' : (Rabs x = x /\ 0 <= x) \/ (Rabs x = - x /\ x < 0)) by (unfold Rabs; destruct (Rcase_abs x); [right|left]; lra). clear AX.
    destruct (PrimFloat.ltb (dot (ddir (sdn s)) (vsub p (sanchor s))) 0) eqn:B1; [|destruct (PrimFloat.ltb (slength s) (dot (ddir (sdn s)) (vsub p (sanchor s)))) eqn:B2].
    - specialize (T2 eq_refl). destruct KL as [F K]. split; [exact F|]. apply abs_le2 in K. apply Rabs_le. clear - K T2 LG LE AL AX' MP Hl.
      destruct (Rltb_spec x 0); [|destruct (Rltb_spec len x)]; destruct AL, AX'; lra.
    - specialize (T4 eq_refl). assert (- (106 * m) <= x) by (apply Rnot_lt_le; intro; discriminate T1; lra).
      destruct KE as [F K]. split; [exact F|]. apply abs_le2 in K. apply Rabs_le. clear - K T4 LG LE AL AX' MP Hl H.
      destruct (Rltb_spec x 0); [|destruct (Rltb_spec len x)]; destruct AL, AX'; lra.
    - assert (- (106 * m) <= x) by (apply Rnot_lt_le; intro; discriminate T1; lra).
      assert (x <= len + 146 * m) by (apply Rnot_lt_le; intro; discriminate T3; lra).
      destruct KB as [F K]. split; [exact F|]. apply abs_le2 in K. apply Rabs_le. clear - K LG LE AL AX' MP Hl H H0.
      destruct (Rltb_spec x 0); [|destruct (Rltb_spec len x)]; destruct AL, AX'; lra.
  Qed.
End Shapes.
