(** * Normalizing an already normalized direction on doubles *)
From Coq Require Import ZArith List Bool Reals Lra Lia Psatz Floats.
From Flocq Require Import Core IEEE754.PrimFloat IEEE754.BinarySingleNaN.
From Verif Require Import Num NumFloat Vec Affine Line OrdLaws SpecGeom RBase FloatFacts FloatFacts2 FloatFacts3 FloatVec SpecExact FloatExact FloatErr FloatErr2 FloatErr3 FloatErr4.
Local Open Scope R_scope.

Section Again.
  Variable L : FloatLib.
  Hypothesis HS : sqrt_ok L.
  Let NL : Num PrimFloat.float := FNum L.
  Existing Instance NL.
  Variable E : PrimFloat.float.
  Hypothesis HE : eps_ok L E.
  Hypothesis HE2 : bpow radix2 (-80) <= toR (fl_pow2 L E).

  Lemma norm_near_one (w u : pt) (e : R) : norm u = 1 -> 0 <= e <= / 1000 -> Rabs (vx w - vx u) <= e -> Rabs (vy w - vy u) <= e ->
    Rabs (norm w - 1) <= 5 * e /\ Rabs (vx (punit w) - vx w) <= 5 * e /\ Rabs (vy (punit w) - vy w) <= 5 * e.
  Proof using.
    intros Hu He Hx Hy. pose proof (norm_sq u) as Qu. pose proof (norm_sq w) as Qw. pose proof (norm_pos w) as Pw. rewrite Hu in Qu.
    destruct (coord_norm u) as [C1 C2]. rewrite Hu in C1, C2. apply abs_le2 in C1. apply abs_le2 in C2.
    assert (N1 : Rabs (norm w - 1) <= 5 * e).
    { apply abs_le2 in Hx. apply abs_le2 in Hy.
      assert (Q : - (5 * e) <= norm w * norm w - 1 <= 5 * e).
      { set (a := vx w - vx u) in *. set (b := vy w - vy u) in *. replace (vx w) with (vx u + a) in Qw by (unfold a; ring). replace (vy w) with (vy u + b) in Qw by (unfold b; ring).
        assert (X1 : - e <= vx u * a <= e) by (split; nra). assert (X2 : - e <= vy u * b <= e) by (split; nra).
        assert (X3 : 0 <= a * a <= e * e) by (split; nra). assert (X4 : 0 <= b * b <= e * e) by (split; nra). assert (e * e <= / 1000 * e) by nra. lra. }
      apply Rabs_le. split; nra. }
    split; [exact N1|]. assert (PW : 0 < norm w) by (apply abs_le2 in N1; lra).
    assert (G : forall a, Rabs a <= norm w -> Rabs (/ norm w * a - a) <= 5 * e).
    { intros a Ha. replace (/ norm w * a - a) with ((1 - norm w) * (a * / norm w)) by (field; lra). rewrite Rabs_mult, (Rabs_mult a), (Rabs_pos_eq (/ norm w)) by (apply Rlt_le, Rinv_0_lt_compat; auto).
      rewrite Rabs_minus_sym in N1. rewrite <- (Rmult_1_r (5 * e)). apply Rmult_le_compat; auto using Rabs_pos.
      - apply Rmult_le_pos; [apply Rabs_pos|]. apply Rlt_le, Rinv_0_lt_compat; auto.
      - apply Rmult_le_reg_r with (norm w); auto. rewrite Rmult_assoc, Rinv_l by lra. lra. }
    destruct (coord_norm w). split; apply G; auto.
  Qed.

  Lemma almost_near (v w : vec PrimFloat.float) (e : R) : finite_vec v -> finite_vec w -> 0 <= e <= bpow radix2 (-45) ->
    Rabs (toR (vx v) - toR (vx w)) <= e -> Rabs (toR (vy v) - toR (vy w)) <= e -> vec_almost_equals E v w = true.
  Proof using HE HE2.
    intros [Fvx Fvy] [Fwx Fwy] He Hx Hy. pose proof runit_small as U1. pose proof runit_pos as U0. pose proof tiny_pos as T0.
    assert (HB : bpow radix2 (-45) <= / 1048576) by (replace (/ 1048576) with (bpow radix2 (-20)) by (cbn; lra); apply bpow_le; lia).
    assert (HH : 4 <= huge) by (unfold huge; change 4 with (bpow radix2 2); apply bpow_le; lia).
    assert (S1 : forall a b, finite a -> finite b -> Rabs (toR a - toR b) <= e -> finite (a - b) /\ Rabs (toR (a - b)) <= 2 * e).
    { intros a b Fa Fb H. destruct (apx_sub a b (toR a) (toR b) 0 0 e (apx_exact a Fa) (apx_exact b Fb)) as [F K]; try lra. split; auto.
      replace (toR (a - b)) with ((toR (a - b) - (toR a - toR b)) + (toR a - toR b)) by ring. eapply Rle_trans; [apply Rabs_triang|]. nra. }
    destruct (S1 _ _ Fvx Fwx Hx) as [F1 A1]. destruct (S1 _ _ Fvy Fwy Hy) as [F2 A2].
    assert (S2 : forall a, finite a -> Rabs (toR a) <= 2 * e -> finite (a * a) /\ Rabs (toR (a * a)) <= 5 * (e * e) + tiny).
    { intros a Fa H. assert (Q : Rabs (toR a * toR a) <= 4 * (e * e)).
      { rewrite Rabs_mult. replace (4 * (e * e)) with ((2 * e) * (2 * e)) by ring. apply Rmult_le_compat; auto using Rabs_pos. }
      destruct (apx_prod a a Fa Fa) as [F K]; [nra|]. split; auto.
      replace (toR (a * a)) with ((toR (a * a) - toR a * toR a) + toR a * toR a) by ring. eapply Rle_trans; [apply Rabs_triang|].
      assert (runit * Rabs (toR a * toR a) <= runit * (4 * (e * e))) by (apply Rmult_le_compat_l; lra). nra. }
    destruct (S2 _ F1 A1) as [F3 A3]. destruct (S2 _ F2 A2) as [F4 A4]. 
    set (s := 10 * (e * e) + 2 * tiny).
    assert (TS : tiny <= bpow radix2 (-100)) by (unfold tiny; apply bpow_le; lia).
    assert (EE : e * e <= bpow radix2 (-90)). { change (-90)%Z with (-45 + -45)%Z. rewrite bpow_plus. apply Rmult_le_compat; lra. }
    assert (B90 : bpow radix2 (-90) * 1024 = bpow radix2 (-80)) by (change 1024 with (bpow radix2 10); rewrite <- bpow_plus; reflexivity).
    assert (B100 : bpow radix2 (-100) <= bpow radix2 (-90)) by (apply bpow_le; lia). pose proof (bpow_gt_0 radix2 (-90)) as B0.
    assert (B1 : bpow radix2 (-80) <= 1) by (change 1 with (bpow radix2 0); apply bpow_le; lia).
    destruct (apx_add _ _ _ _ 0 0 s (apx_exact _ F3) (apx_exact _ F4)) as [F5 A5].
    { eapply Rle_trans; [apply Rplus_le_compat_r, Rplus_le_compat_r, Rabs_triang|]. unfold s. lra. }
    { unfold s. lra. }
    unfold vec_almost_equals. cbn [nltb nadd nsub nmul npow2 NL FNum]. destruct HE as (FE & PE & F2' & P2). rewrite toR_lt by auto. apply Rltb_true.
    apply abs_le2 in A3. apply abs_le2 in A4. apply abs_le2 in A5. assert (runit * s <= s) by (unfold s; nra). unfold s in *. lra.
  Qed.

  Lemma redirect (w : vec PrimFloat.float) (u : pt) : norm u = 1 -> near_vec w u (10 * runit) ->
    exists d, set_direction E w = Ok d /\ vec_almost_equals E w (ddir d) = true.
  Proof using HS HE HE2.
    intros Hu [[Fx Hx] [Fy Hy]]. pose proof runit_pos as U0.
    assert (U1 : runit * 256 = bpow radix2 (-45)) by (unfold runit; change 256 with (bpow radix2 8); rewrite <- bpow_plus; reflexivity).
    assert (HB : bpow radix2 (-45) <= / 1048576) by (replace (/ 1048576) with (bpow radix2 (-20)) by (cbn; lra); apply bpow_le; lia).
    destruct (norm_near_one (vecR w) u (10 * runit)) as (N1 & N2 & N3); auto; [lra|]. apply abs_le2 in N1.
    assert (FV : finite_vec w) by (split; auto).
    destruct (set_direction_err L HS E HE w FV) as (d & Hd & [[Gx Dx] [Gy Dy]] & _).
    - split.
      + apply Rle_trans with (bpow radix2 (-1)); [apply bpow_le; lia|]. change (bpow radix2 (-1)) with (/ 2). lra.
      + apply Rle_trans with (bpow radix2 1); [|apply bpow_le; lia]. change (bpow radix2 1) with 2. lra.
    - destruct HE as (_ & PE & _). nra.
    - exists d. split; [exact Hd|]. apply (almost_near w (ddir d) (60 * runit)); auto.
      + split; auto. + lra.
      + cbn [vecR vx vy] in N2. rewrite Rabs_minus_sym. replace (toR (vx (ddir d)) - toR (vx w)) with ((toR (vx (ddir d)) - vx (punit (vecR w))) + (vx (punit (vecR w)) - toR (vx w))) by ring.
        eapply Rle_trans; [apply Rabs_triang|]. lra.
      + cbn [vecR vx vy] in N3. rewrite Rabs_minus_sym. replace (toR (vy (ddir d)) - toR (vy w)) with ((toR (vy (ddir d)) - vy (punit (vecR w))) + (vy (punit (vecR w)) - toR (vy w))) by ring.
        eapply Rle_trans; [apply Rabs_triang|]. lra.
  Qed.
End Again.
