(** * Determinants of doubles have the right sign for points clear of each other *)
From Coq Require Import ZArith List Bool Reals Lra Lia Psatz Floats.
From Flocq Require Import Core IEEE754.PrimFloat IEEE754.BinarySingleNaN.
From Verif Require Import Num NumFloat Vec Affine Box Seq Polygon Tangent PolyOps OrdLaws SpecGeom SpecErr SpecClear RBase FloatFacts FloatFacts2 FloatFacts3 FloatVec
  SpecExact FloatExact FloatErr FloatErr2 FloatErr4 FloatErr5 FloatErr6 RelPoly RelClear.
Import ListNotations.
Local Open Scope R_scope.

Lemma frnd_opp x : frnd (- x) = - frnd x.
Proof. unfold frnd. apply round_NE_opp. Qed.
Lemma frnd_0 : frnd 0 = 0.
Proof. unfold frnd. apply round_0. apply valid_rnd_round_mode. Qed.

Section Clear.
  Context (L : FloatLib) (M : R) (HM : room M).
  Local Instance NL : Num PrimFloat.float := FNum L.
  Local Open Scope float_scope.

  (** A double with the sign of a real. *)
  Definition same_sign (f : PrimFloat.float) (x : R) : Prop :=
    finite f /\ ((0 < toR f <-> 0 < x) /\ (toR f < 0 <-> x < 0))%R.
  Lemma sign_ksg f x : same_sign f x -> ksg f x.
  Proof using.
    intros (F & P & Q). assert (F0 : finite 0) by reflexivity. unfold ksg. change (@n0 _ NL) with 0. change (@n0 _ RNum) with 0%R. cbn [nltb nleb neqb NL FNum RNum].
    rewrite !toR_lt, !toR_le, toR_eq by auto. rewrite toR_0. unfold Rltb, Rleb, Reqb.
    repeat split; repeat match goal with |- context [if ?d then _ else _] => destruct d end; auto; lra.
  Qed.
  Lemma sign_far f x d : apx f x d -> (d < Rabs x)%R -> same_sign f x.
  Proof using.
    intros [F H] K. split; auto. apply abs_le2 in H. revert K. unfold Rabs. destruct (Rcase_abs x); intro; split; split; intro; lra.
  Qed.
  Lemma sign_zero f : finite f -> toR f = 0%R -> same_sign f 0.
  Proof using. intros F H. split; auto. rewrite H. split; split; intro; lra. Qed.

  Lemma M_pos : (0 < M)%R. Proof using HM. apply (room_small M HM). Qed.
  Lemma M_tiny : (tiny <= runit * (M * M))%R.
  Proof using HM.
    destruct HM as [H _]. apply Rle_trans with (runit * (bpow radix2 (-400) * bpow radix2 (-400)))%R.
    - unfold tiny, runit. rewrite <- !bpow_plus. apply bpow_le. lia.
    - apply Rmult_le_compat_l; [apply Rlt_le, runit_pos|]. pose proof (bpow_gt_0 radix2 (-400)). apply Rmult_le_compat; lra.
  Qed.
  Lemma M_huge : (100 * (M * M) <= huge)%R.
  Proof using HM.
    destruct HM as [H0 H]. pose proof M_pos. apply Rle_trans with (bpow radix2 7 * (bpow radix2 395 * bpow radix2 395))%R.
    - assert (0 <= M * M <= bpow radix2 395 * bpow radix2 395)%R by (split; [apply Rmult_le_pos|apply Rmult_le_compat]; lra).
      apply Rmult_le_compat; try lra. cbn. lra.
    - rewrite <- !bpow_plus. apply bpow_le. lia.
  Qed.
  Lemma M_huge1 : (2 * M <= huge)%R.
  Proof using HM.
    destruct HM as [H0 H]. apply Rle_trans with (bpow radix2 1 * bpow radix2 395)%R; [change (bpow radix2 1) with 2%R; lra|].
    rewrite <- bpow_plus. apply bpow_le. lia.
  Qed.

  (** Coordinates. *)
  Definition coord (x : PrimFloat.float) : Prop := finite x /\ (Rabs (toR x) <= M)%R.
  Lemma d_mag a b : coord a -> coord b -> (Rabs (toR a - toR b) <= 2 * M)%R.
  Proof using. intros [_ A] [_ B]. apply abs_le2 in A, B. apply Rabs_le. lra. Qed.
  Lemma d_toR a b : coord a -> coord b -> finite (a - b) /\ toR (a - b) = frnd (toR a - toR b).
  Proof using HM. intros A B. pose proof (d_mag a b A B). pose proof M_huge1. apply fsub_toR; try apply A; try apply B. lra. Qed.
  Lemma d_apx a b : coord a -> coord b -> apx (a - b) (toR a - toR b) (runit * Rabs (toR a - toR b)).
  Proof using HM. intros A B. pose proof (d_mag a b A B). pose proof M_huge1. apply apx_diff; try apply A; try apply B. lra. Qed.
  Lemma d_sign a b : coord a -> coord b -> same_sign (a - b) (toR a - toR b).
  Proof using HM.
    intros A B. destruct (Req_dec (toR a - toR b) 0) as [E|E].
    - rewrite E. destruct (d_toR a b A B) as [F V]. apply sign_zero; auto. rewrite V, E. apply frnd_0.
    - eapply sign_far; [apply d_apx; auto|]. pose proof (Rabs_pos_lt _ E). pose proof runit_small. nra.
  Qed.

  (** Determinants of differences. *)
  Lemma det_err a1 b1 a2 b2 a3 b3 a4 b4 : coord a1 -> coord b1 -> coord a2 -> coord b2 -> coord a3 -> coord b3 -> coord a4 -> coord b4 ->
    apx ((a1 - b1) * (a2 - b2) - (a3 - b3) * (a4 - b4))
        ((toR a1 - toR b1) * (toR a2 - toR b2) - (toR a3 - toR b3) * (toR a4 - toR b4)) (margin (-47) (M * M)).
  Proof using HM.
    intros A1 B1 A2 B2 A3 B3 A4 B4. pose proof M_pos as P. pose proof M_tiny as T. pose proof M_huge as HH.
    pose proof runit_small as U1. pose proof runit_pos as U0. set (u := runit) in *.
    replace (margin (-47) (M * M)) with (64 * (u * (M * M)))%R by (rewrite (margin_unit 6) by lia; reflexivity).
    set (Q := (M * M)%R) in *. assert (PQ : (0 < Q)%R) by (unfold Q; nra).
    assert (UQ : (0 < u * Q <= / 1048576 * Q)%R) by (split; [apply Rmult_lt_0_compat; lra|apply Rmult_le_compat_r; lra]).
    assert (UUQ : (0 < u * (u * Q) <= / 1048576 * (u * Q))%R) by (split; [apply Rmult_lt_0_compat; lra|apply Rmult_le_compat_r; lra]).
    assert (PR : forall a b c d, coord a -> coord b -> coord c -> coord d ->
      apx ((a - b) * (c - d)) ((toR a - toR b) * (toR c - toR d)) (14 * (u * Q)) /\ (Rabs ((toR a - toR b) * (toR c - toR d)) <= 4 * Q)%R).
    { intros a b c d A B C D. pose proof (d_mag _ _ A B) as X. pose proof (d_mag _ _ C D) as Y.
      assert (D1 : apx (a - b) (toR a - toR b) (u * (2 * M))) by (eapply apx_weak; [apply d_apx; auto|]; apply Rmult_le_compat_l; lra).
      assert (D2 : apx (c - d) (toR c - toR d) (u * (2 * M))) by (eapply apx_weak; [apply d_apx; auto|]; apply Rmult_le_compat_l; lra).
      assert (UM : (0 < u * M <= / 1048576 * M)%R) by (split; [apply Rmult_lt_0_compat; lra|apply Rmult_le_compat_r; lra]).
      split.
      - eapply apx_weak; [apply (apx_mul _ _ _ _ _ _ (2 * M + u * (2 * M))%R (2 * M + u * (2 * M))%R D1 D2)|]; fold u; try lra.
        + assert (E : ((2 * M + u * (2 * M)) * (2 * M + u * (2 * M)) = 4 * Q + 8 * (u * Q) + 4 * (u * (u * Q)))%R) by (unfold Q; ring). lra.
        + assert (E : (u * (2 * M) * (2 * M + u * (2 * M)) + (2 * M + u * (2 * M)) * (u * (2 * M)) + u * ((2 * M + u * (2 * M)) * (2 * M + u * (2 * M)))
            = 12 * (u * Q) + 16 * (u * (u * Q)) + 4 * (u * (u * (u * Q))))%R) by (unfold Q; ring).
          assert (u * (u * (u * Q)) <= / 1048576 * (u * (u * Q)))%R by (apply Rmult_le_compat_r; lra). lra.
      - rewrite Rabs_mult. replace (4 * Q)%R with ((2 * M) * (2 * M))%R by (unfold Q; ring). apply Rmult_le_compat; auto; apply Rabs_pos. }
    destruct (PR _ _ _ _ A1 B1 A2 B2) as [X1 X2]. destruct (PR _ _ _ _ A3 B3 A4 B4) as [Y1 Y2].
    eapply apx_weak; [apply (apx_sub _ _ _ _ _ _ (8 * Q + 28 * (u * Q))%R X1 Y1)|]; fold u; try lra.
    - pose proof (Rabs_triang ((toR a1 - toR b1) * (toR a2 - toR b2)) (- ((toR a3 - toR b3) * (toR a4 - toR b4)))) as K. rewrite Rabs_Ropp in K. unfold Rminus in *. lra.
  Qed.
  (** If the computed products agree, the determinant is exactly zero. *)
  Lemma det_zero a1 b1 a2 b2 a3 b3 a4 b4 : coord a1 -> coord b1 -> coord a2 -> coord b2 -> coord a3 -> coord b3 -> coord a4 -> coord b4 ->
    (frnd (toR a1 - toR b1) * frnd (toR a2 - toR b2) = frnd (toR a3 - toR b3) * frnd (toR a4 - toR b4))%R ->
    same_sign ((a1 - b1) * (a2 - b2) - (a3 - b3) * (a4 - b4)) 0.
  Proof using HM.
    intros A1 B1 A2 B2 A3 B3 A4 B4 E. pose proof M_huge as HH. pose proof M_pos as P.
    assert (PR : forall a b c d, coord a -> coord b -> coord c -> coord d ->
      finite ((a - b) * (c - d)) /\ toR ((a - b) * (c - d)) = frnd (frnd (toR a - toR b) * frnd (toR c - toR d))).
    { intros a b c d A B C D. destruct (d_toR _ _ A B) as [F1 V1]. destruct (d_toR _ _ C D) as [F2 V2]. rewrite <- V1, <- V2. apply fmul_toR; auto.
      assert (K : forall a b, coord a -> coord b -> (Rabs (toR (a - b)) <= 3 * M)%R).
      { intros a' b' A' B'. pose proof (apx_mag _ _ _ (d_apx _ _ A' B')). pose proof (d_mag _ _ A' B'). pose proof runit_small. pose proof runit_pos.
        pose proof (Rabs_pos (toR a' - toR b')). nra. }
      rewrite Rabs_mult. apply Rle_trans with ((3 * M) * (3 * M))%R; [|nra]. apply Rmult_le_compat; auto; apply Rabs_pos. }
    destruct (PR _ _ _ _ A1 B1 A2 B2) as [F1 V1]. destruct (PR _ _ _ _ A3 B3 A4 B4) as [F2 V2].
    destruct (fsub_toR _ _ F1 F2) as [F V]; [rewrite V1, V2, E, Rminus_diag_eq, Rabs_R0 by reflexivity; apply Rlt_le, huge_pos|].
    apply sign_zero; auto. rewrite V, V1, V2, E, Rminus_diag_eq by reflexivity. apply frnd_0.
  Qed.

  Lemma within_coord v : within M v -> coord (vx v) /\ coord (vy v).
  Proof using. intros ([F1 F2] & X & Y). repeat split; auto. Qed.
  Lemma pt_dec (a b : pt) : a = b \/ a <> b.
  Proof using. destruct a as [x y], b as [x' y']. destruct (Req_dec x x'), (Req_dec y y'); subst; auto; right; congruence. Qed.
  Lemma side_sign a b p : within M a -> within M b -> within M p -> clear_of (margin (-47) (M * M)) (vecR a) (vecR b) (vecR p) ->
    same_sign (side a b p) (side (vecR a) (vecR b) (vecR p)).
  Proof using HM.
    intros A B P C. destruct (within_coord _ A) as [Ax Ay], (within_coord _ B) as [Bx By], (within_coord _ P) as [Px Py].
    unfold side. cbn [nsub nmul NL FNum RNum vecR vx vy].
    destruct (pt_dec (vecR a) (vecR b)) as [E|N1].
    { injection E as E1 E2. replace (_ - _)%R with 0%R by (rewrite E1, E2; ring). apply det_zero; auto. rewrite E1, E2, !(Rminus_diag_eq _ _ eq_refl), frnd_0. ring. }
    destruct (pt_dec (vecR b) (vecR p)) as [E|N2].
    { injection E as E1 E2. replace (_ - _)%R with 0%R by (rewrite E1, E2; ring). apply det_zero; auto. rewrite E1, E2. ring. }
    destruct (pt_dec (vecR a) (vecR p)) as [E|N3].
    { injection E as E1 E2. replace (_ - _)%R with 0%R by (rewrite E1, E2; ring). apply det_zero; auto. rewrite E1, E2, !(Rminus_diag_eq _ _ eq_refl), frnd_0. ring. }
    eapply sign_far; [apply det_err; auto|]. specialize (C N1 N2 N3). unfold orient, pcross, psub in C. cbn [vecR vx vy] in C.
    replace ((toR (vx b) - toR (vx a)) * (toR (vy p) - toR (vy a)) - (toR (vx p) - toR (vx a)) * (toR (vy b) - toR (vy a)))%R
      with ((toR (vx b) - toR (vx a)) * (toR (vy p) - toR (vy a)) - (toR (vy b) - toR (vy a)) * (toR (vx p) - toR (vx a)))%R by ring. exact C.
  Qed.
  Lemma cross_sign a b c d : within M a -> within M b -> within M c -> within M d -> vecR d = vecR b ->
    clear_of (margin (-47) (M * M)) (vecR a) (vecR b) (vecR c) ->
    same_sign (cross (vsub b a) (vsub c d)) (cross (vsub (vecR b) (vecR a)) (vsub (vecR c) (vecR b))).
  Proof using HM.
    intros A B P D ED C. destruct (within_coord _ A) as [Ax Ay], (within_coord _ B) as [Bx By], (within_coord _ P) as [Px Py], (within_coord _ D) as [Dx Dy].
    unfold cross, vsub. cbn [nsub nmul NL FNum RNum vecR vx vy]. injection ED as D1 D2.
    destruct (pt_dec (vecR a) (vecR b)) as [E|N1].
    { injection E as E1 E2. replace (_ - _)%R with 0%R by (rewrite E1, E2; ring). apply det_zero; auto. rewrite E1, E2, !(Rminus_diag_eq _ _ eq_refl), frnd_0. ring. }
    destruct (pt_dec (vecR b) (vecR c)) as [E|N2].
    { injection E as E1 E2. replace (_ - _)%R with 0%R by (rewrite E1, E2; ring). apply det_zero; auto. rewrite D1, D2, E1, E2, !(Rminus_diag_eq _ _ eq_refl), frnd_0. ring. }
    destruct (pt_dec (vecR a) (vecR c)) as [E|N3].
    { injection E as E1 E2. replace (_ - _)%R with 0%R by (rewrite E1, E2; ring). apply det_zero; auto. rewrite D1, D2, E1, E2.
      replace (toR (vy c) - toR (vy b))%R with (- (toR (vy b) - toR (vy c)))%R by ring. replace (toR (vx c) - toR (vx b))%R with (- (toR (vx b) - toR (vx c)))%R by ring.
      rewrite !frnd_opp. ring. }
    eapply sign_far; [eapply apx_eq; [apply det_err; auto|rewrite D1, D2; reflexivity]|]. specialize (C N1 N2 N3). unfold orient, pcross, psub in C. cbn [vecR vx vy] in C.
    match goal with |- (_ < Rabs ?x)%R => match type of C with (_ < Rabs ?y)%R => replace x with y by ring end end. exact C.
  Qed.

  Context (pts : list (vec PrimFloat.float)).
  Definition fkc (x : PrimFloat.float) (y : R) : Prop := coord x /\ toR x = y.
  Definition fkv (v : vec PrimFloat.float) (w : vec R) : Prop := within M v /\ In (vecR v) (map vecR pts) /\ vecR v = w.
  Lemma clear_laws : general_position (margin (-47) (M * M)) (map vecR pts) -> ClearLaws (FNum L) fkc fkv.
  Proof using HM.
    intro GP. constructor.
    - intros v w (W & _ & <-). split; [apply within_coord; auto|reflexivity].
    - intros v w (W & _ & <-). split; [apply within_coord; auto|reflexivity].
    - intros a a' [A <-]. cbn [nmul FNum RNum]. change (@n1 _ (FNum L)) with 1. change (@n1 _ RNum) with 1%R. rewrite fmul1, Rmult_1_r. split; auto.
    - intros v w (W & I & <-). change (fkv (vec2_of v) (vec2_of (vecR v))). rewrite (vec2_of_id L). 
      replace (vec2_of (vecR v)) with (vecR v); [split; auto|]. unfold vec2_of, vec2. cbn [vecR vx vy nmul RNum]. change (@n1 _ RNum) with 1%R. rewrite !Rmult_1_r. reflexivity.
    - intros a a' b b' [[A _] <-] [[B _] <-]. apply toR_lt; auto.
    - intros a a' b b' [[A _] <-] [[B _] <-]. apply toR_le; auto.
    - intros a a' b b' [[A _] <-] [[B _] <-]. apply toR_eq; auto.
    - intros a a' b b' [A <-] [B <-]. apply sign_ksg, d_sign; auto.
    - intros a a' b b' p p' (A & IA & <-) (B & IB & <-) (P & IP & <-). apply sign_ksg, side_sign; auto.
    - intros a a' b b' c c' d (A & IA & <-) (B & IB & <-) (D & ID & ED) (C & IC & <-). apply sign_ksg, cross_sign; auto.
  Qed.
End Clear.
