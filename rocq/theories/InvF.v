(** * Forward error of inversion on doubles *)
From Coq Require Import ZArith List Bool Reals Lra Lia Floats SpecFloat.
From Flocq Require Import Core IEEE754.PrimFloat IEEE754.BinarySingleNaN.
From Verif Require Import Num NumFloat Vec Affine OrdLaws SpecGeom RBase VecFacts2 AffineFacts FloatFacts FloatFacts2 FloatVec SpecExact FloatExact FloatErr FloatErr2 RotFacts SpecInv.
Local Open Scope R_scope.

Lemma mul_gen a p x d : finite a -> apx p x d -> Rabs (toR a) * (Rabs x + d) <= huge ->
  apx (a * p) (toR a * x) (Rabs (toR a) * d + runit * (Rabs (toR a) * (Rabs x + d)) + tiny).
Proof.
  intros Fa Hp H. eapply apx_weak; [apply (apx_mul _ _ _ _ _ _ (Rabs (toR a)) (Rabs x + d) (apx_exact a Fa) Hp)|]; lra.
Qed.
Lemma dot2 a b p q x y dx dy : finite a -> finite b -> apx p x dx -> apx q y dy ->
  Rabs (toR a) * (Rabs x + dx) <= huge / 4 -> Rabs (toR b) * (Rabs y + dy) <= huge / 4 ->
  let s := Rabs (toR a) * Rabs x + Rabs (toR b) * Rabs y in let t := Rabs (toR a) * dx + Rabs (toR b) * dy in
  apx (a * p + b * q) (toR a * x + toR b * y) (17 / 16 * t + 3 * runit * s + 3 * tiny) /\
  apx (a * p - b * q) (toR a * x - toR b * y) (17 / 16 * t + 3 * runit * s + 3 * tiny).
Proof.
  intros Fa Fb Hp Hq B1 B2 s t. pose proof huge_pos. pose proof (mul_gen a p x dx Fa Hp ltac:(lra)) as K1. pose proof (mul_gen b q y dy Fb Hq ltac:(lra)) as K2.
  pose proof runit_pos as U0. pose proof runit_small as U1. pose proof tiny_pos as T0. pose proof tiny_small as T1.
  pose proof (apx_pos _ _ _ Hp) as P1. pose proof (apx_pos _ _ _ Hq) as P2.
  assert (S0 : 0 <= s) by (unfold s; pose proof (Rmult_le_pos _ _ (Rabs_pos (toR a)) (Rabs_pos x)); pose proof (Rmult_le_pos _ _ (Rabs_pos (toR b)) (Rabs_pos y)); lra).
  assert (T2 : 0 <= t) by (unfold t; pose proof (Rmult_le_pos _ _ (Rabs_pos (toR a)) P1); pose proof (Rmult_le_pos _ _ (Rabs_pos (toR b)) P2); lra).
  set (e1 := Rabs (toR a) * dx + runit * (Rabs (toR a) * (Rabs x + dx)) + tiny) in *. set (e2 := Rabs (toR b) * dy + runit * (Rabs (toR b) * (Rabs y + dy)) + tiny) in *.
  assert (E : e1 + e2 = t + runit * (s + t) + 2 * tiny) by (unfold e1, e2, s, t; ring).
  assert (ST : s + t <= huge / 2) by (unfold s, t; lra).
  assert (H8 : 4 <= huge) by (unfold huge; change 4 with (bpow radix2 2); apply bpow_le; lia).
  assert (R1 : runit * (s + t) <= / 1048576 * (s + t)) by (apply Rmult_le_compat_r; lra).
  assert (R0 : 0 <= runit * s) by (apply Rmult_le_pos; lra). assert (R2 : 0 <= runit * t <= / 1048576 * t) by (split; [apply Rmult_le_pos; lra|apply Rmult_le_compat_r; lra]).
  assert (R3 : 0 <= runit * tiny <= / 1048576 * tiny) by (split; [apply Rmult_le_pos; lra|apply Rmult_le_compat_r; lra]).
  assert (R4 : runit * (runit * (s + t)) <= / 1048576 * (runit * (s + t))) by (apply Rmult_le_compat_r; lra).
  set (z := s + (e1 + e2)).
  assert (Z1 : z <= huge) by (unfold z; rewrite E; lra).
  assert (G : e1 + e2 + runit * z <= 17 / 16 * t + 3 * runit * s + 3 * tiny).
  { unfold z. rewrite E. replace (runit * (s + (t + runit * (s + t) + 2 * tiny))) with (runit * s + runit * t + runit * (runit * (s + t)) + 2 * (runit * tiny)) by ring. lra. }
  split.
  - eapply apx_weak; [apply (apx_add _ _ _ _ _ _ z K1 K2); [|exact Z1]|lra]. pose proof (Rabs_triang (toR a * x) (toR b * y)) as Q. rewrite !Rabs_mult in Q. unfold z, s. lra.
  - eapply apx_weak; [apply (apx_sub _ _ _ _ _ _ z K1 K2); [|exact Z1]|lra]. pose proof (Rabs_triang (toR a * x) (- (toR b * y))) as Q. rewrite Rabs_Ropp, !Rabs_mult in Q. unfold z, s, Rminus in *. lra.
Qed.

Definition inv_size : R := bpow radix2 200.
Lemma inv_size_sq : inv_size * inv_size <= huge / 64.
Proof. unfold inv_size, huge. rewrite <- bpow_plus. replace (bpow radix2 1000 / 64) with (bpow radix2 994); [apply bpow_le; lia|]. replace 1000%Z with (994 + 6)%Z by lia. rewrite bpow_plus. change (bpow radix2 6) with 64. field. Qed.
Lemma inv_size_ge : 1 <= inv_size. Proof. unfold inv_size. change 1 with (bpow radix2 0). apply bpow_le. lia. Qed.

Section Inv.
  Variables (L : FloatLib) (m : affine PrimFloat.float).
  Hypothesis Fm : finite_aff m.
  Hypothesis Bm : entries_within inv_size (affR m).
  Variables D W k : R.
  Hypothesis eD : D = exact_det (affR m).
  Hypothesis eW : W = det_size (affR m).
  Hypothesis ek : k = W / Rabs D.
  Hypothesis HD : / inv_size <= Rabs D.
  Hypothesis HW : W <= bpow radix2 47 * Rabs D.

  Lemma D_pos : 0 < Rabs D. Proof using All. pose proof inv_size_ge. assert (0 < / inv_size) by (apply Rinv_0_lt_compat; lra). lra. Qed.
  Lemma W_D : Rabs D <= W.
  Proof using All. rewrite eD, eW. unfold exact_det, det_size, Rminus. eapply Rle_trans; [apply Rabs_triang|]. rewrite Rabs_Ropp. lra. Qed.
  Lemma W_k : W = k * Rabs D. Proof using All. pose proof D_pos. rewrite ek. field. lra. Qed.
  Lemma k_ge : 1 <= k.
  Proof using All. pose proof D_pos. pose proof W_D as Q. rewrite W_k in Q. apply (Rmult_le_reg_r (Rabs D)); lra. Qed.
  Lemma k_le : runit * k <= / 64.
  Proof using All.
    pose proof D_pos. pose proof HW as Q. rewrite W_k in Q. assert (K : k <= bpow radix2 47) by (apply (Rmult_le_reg_r (Rabs D)); lra).
    unfold runit. replace (/ 64) with (bpow radix2 (-53) * bpow radix2 47); [apply Rmult_le_compat_l; [apply bpow_ge_0|exact K]|]. rewrite <- bpow_plus. cbn. lra.
  Qed.
  Lemma W_le : W <= 2 * (inv_size * inv_size).
  Proof using All.
    destruct Bm as (A & B & _ & D0 & E0 & _). rewrite eW. unfold det_size. rewrite !Rabs_mult.
    assert (Rabs (aa (affR m)) * Rabs (ae (affR m)) <= inv_size * inv_size) by (apply Rmult_le_compat; try apply Rabs_pos; assumption).
    assert (Rabs (ab (affR m)) * Rabs (ad (affR m)) <= inv_size * inv_size) by (apply Rmult_le_compat; try apply Rabs_pos; assumption). lra.
  Qed.
  Lemma tiny_D : tiny <= / 64 * (runit * Rabs D).
  Proof using All.
    assert (T : tiny <= / 64 * (runit * / inv_size)).
    { unfold tiny, runit, inv_size. rewrite <- bpow_opp, <- bpow_plus. replace (/ 64) with (bpow radix2 (-6)) by (cbn; lra). rewrite <- bpow_plus. apply bpow_le. lia. }
    pose proof runit_pos. assert (runit * / inv_size <= runit * Rabs D) by (apply Rmult_le_compat_l; lra). lra.
  Qed.
  (** the determinant *)
  Lemma det_apx : apx (determinant (N := FNum L) m) D (4 * runit * W).
  Proof using All.
    destruct Fm as (Fa & Fb & Fc & Fd & Fe & Ff). pose proof inv_size_sq as IS. pose proof inv_size_ge as IG. pose proof huge_pos.
    pose proof Bm as (A & B & _ & D0 & E0 & _). unfold affR in A, B, D0, E0. cbn [aa ab ad ae] in A, B, D0, E0.
    assert (M1 : Rabs (toR (aa m)) * Rabs (toR (ae m)) <= inv_size * inv_size) by (apply Rmult_le_compat; try apply Rabs_pos; assumption).
    assert (M2 : Rabs (toR (ab m)) * Rabs (toR (ad m)) <= inv_size * inv_size) by (apply Rmult_le_compat; try apply Rabs_pos; assumption).
    destruct (dot2 (aa m) (ab m) (ae m) (ad m) _ _ 0 0 Fa Fb (apx_exact _ Fe) (apx_exact _ Fd)) as [_ K]; [lra|lra|]. cbv zeta in K.
    change (apx (aa m * ae m - ab m * ad m)%float D (4 * runit * W)). rewrite eD. eapply apx_weak; [exact K|].
    replace (Rabs (toR (aa m)) * Rabs (toR (ae m)) + Rabs (toR (ab m)) * Rabs (toR (ad m))) with W by (rewrite eW; unfold det_size, affR; cbn [aa ab ad ae]; rewrite !Rabs_mult; reflexivity).
    pose proof tiny_D as TD. pose proof W_D as WD.
    pose proof runit_pos. assert (runit * Rabs D <= runit * W) by (apply Rmult_le_compat_l; [lra|exact WD]).
    pose proof tiny_pos. lra.
  Qed.
  (** its reciprocal *)
  Lemma idet_apx : apx (1 / determinant (N := FNum L) m) (/ D) (6 * (runit * k) * Rabs (/ D)) /\ PrimFloat.eqb (determinant (N := FNum L) m) 0 = false.
  Proof using All.
    pose proof det_apx as K. set (x := determinant m) in *. clearbody x. destruct K as [Fx Vx]. pose proof D_pos as DP. pose proof k_ge as K1. pose proof k_le as K2. pose proof runit_pos as U0. pose proof runit_small as U1.
    rewrite W_k in Vx. replace (4 * runit * (k * Rabs D)) with (4 * (runit * k) * Rabs D) in Vx by ring. set (u := runit * k) in *.
    assert (UK : runit <= u) by (unfold u; rewrite <- (Rmult_1_r runit) at 1; apply Rmult_le_compat_l; lra).
    assert (LB : 15 / 16 * Rabs D <= Rabs (toR x)).
    { replace D with (toR x - (toR x - D)) at 1 by ring. pose proof (Rabs_triang (toR x) (- (toR x - D))) as Q. rewrite Rabs_Ropp in Q. fold (toR x - (toR x - D)) in Q.
      replace (toR x - (toR x - D)) with D in * by ring. assert (u * Rabs D <= / 64 * Rabs D) by (apply Rmult_le_compat_r; lra). lra. }
    assert (X0 : toR x <> 0) by (intro Z; rewrite Z, Rabs_R0 in LB; lra). assert (D0 : D <> 0) by (intro Z; rewrite Z, Rabs_R0 in DP; lra).
    destruct (float_of_Z_exact 1 ltac:(lia)) as [F1 V1]. change (float_of_Z 1) with 1%float in *. destruct (float_of_Z_exact 0 ltac:(lia)) as [F0 V0]. change (float_of_Z 0) with 0%float in *.
    assert (ID : Rabs (/ D) <= inv_size). { rewrite Rabs_inv. pose proof inv_size_ge. replace inv_size with (/ / inv_size) by (field; lra). apply Rinv_le_contravar; [apply Rinv_0_lt_compat; lra|exact HD]. }
    assert (IX : Rabs (1 / toR x) <= 16 / 15 * Rabs (/ D)).
    { unfold Rdiv at 1. rewrite Rmult_1_l, !Rabs_inv. replace (16 / 15 * / Rabs D) with (/ (15 / 16 * Rabs D)) by (field; lra). apply Rinv_le_contravar; lra. }
    pose proof inv_size_sq as IS. pose proof inv_size_ge as IG. pose proof huge_pos as HP.
    assert (IS2 : inv_size <= inv_size * inv_size) by (rewrite <- (Rmult_1_r inv_size) at 1; apply Rmult_le_compat_l; lra).
    destruct (fdiv_toR 1 x F1 X0) as [F V]; [rewrite V1; lra|]. split.
    - split; [exact F|]. rewrite V, V1. pose proof (frnd_err (1 / toR x)) as R1.
      replace (frnd (1 / toR x) - / D) with ((frnd (1 / toR x) - 1 / toR x) + (D - toR x) * (1 / toR x) * / D) by (field; auto).
      eapply Rle_trans; [apply Rabs_triang|]. rewrite !Rabs_mult, (Rabs_minus_sym D).
      assert (Q1 : Rabs (toR x - D) * Rabs (1 / toR x) <= 4 * u * Rabs D * (16 / 15 * Rabs (/ D))) by (apply Rmult_le_compat; try apply Rabs_pos; assumption).
      assert (Q2 : 4 * u * Rabs D * (16 / 15 * Rabs (/ D)) = 64 / 15 * u). { rewrite Rabs_inv. field. lra. }
      rewrite Q2 in Q1. assert (Q3 : Rabs (toR x - D) * Rabs (1 / toR x) * Rabs (/ D) <= 64 / 15 * u * Rabs (/ D)) by (apply Rmult_le_compat_r; [apply Rabs_pos|exact Q1]).
      assert (Q4 : runit * Rabs (1 / toR x) <= u * (16 / 15 * Rabs (/ D))) by (apply Rmult_le_compat; try apply Rabs_pos; lra).
      assert (Q5 : tiny <= / 64 * (u * Rabs (/ D))).
      { assert (DB : Rabs D <= 2 * (inv_size * inv_size)) by (pose proof W_D; pose proof W_le; lra).
        assert (DI : / (2 * (inv_size * inv_size)) <= Rabs (/ D)) by (rewrite Rabs_inv; apply Rinv_le_contravar; lra).
        assert (T : tiny <= / 64 * (runit * / (2 * (inv_size * inv_size)))).
        { unfold tiny, runit, inv_size. rewrite <- bpow_plus. change 2 with (bpow radix2 1) at 1. rewrite <- bpow_plus, <- bpow_opp, <- bpow_plus. replace (/ 64) with (bpow radix2 (-6)) by (cbn; lra). rewrite <- bpow_plus. apply bpow_le. lia. }
        assert (runit * / (2 * (inv_size * inv_size)) <= u * Rabs (/ D)). { apply Rmult_le_compat; try lra. left. apply Rinv_0_lt_compat. pose proof (Rmult_le_pos inv_size inv_size). lra. } lra. }
      assert (Q6 : 0 <= u * Rabs (/ D)) by (apply Rmult_le_pos; [lra|apply Rabs_pos]). lra.
    - rewrite toR_eq, V0 by auto. unfold Reqb. destruct (Req_EM_T (toR x) 0); [contradiction|reflexivity].
  Qed.

  Definition idet : PrimFloat.float := (1 / determinant (N := FNum L) m)%float.
  Definition qinv : affine R := mkA (toR (ae m) * / D) (- toR (ab m) * / D) (- toR (ac m) * (toR (ae m) * / D) - toR (af m) * (- toR (ab m) * / D))
    (- toR (ad m) * / D) (toR (aa m) * / D) (- toR (ac m) * (- toR (ad m) * / D) - toR (af m) * (toR (aa m) * / D)).
  Definition winv : affine PrimFloat.float := (let i := idet in mkA (ae m * i) (- ab m * i) (- ac m * (ae m * i) - af m * (- ab m * i)) (- ad m * i) (aa m * i) (- ac m * (- ad m * i) - af m * (aa m * i)))%float.
  Lemma D_ne : D <> 0. Proof using All. pose proof D_pos as P. intro Z. rewrite Z, Rabs_R0 in P. lra. Qed.
  Lemma qinv_ok : inverse_of (affR m) qinv.
  Proof using All. pose proof D_ne as DN. unfold inverse_of, qinv, affR. cbn [aa ab ac ad ae af]. rewrite eD in DN |- *. unfold exact_det, affR in DN |- *. cbn [aa ab ac ad ae af] in *. repeat split; field; auto. Qed.
  Lemma iD_le : Rabs (/ D) <= inv_size.
  Proof using All. rewrite Rabs_inv. pose proof inv_size_ge. replace inv_size with (/ / inv_size) by (field; lra). apply Rinv_le_contravar; [apply Rinv_0_lt_compat; lra|exact HD]. Qed.
  Lemma entry_apx x : finite x -> Rabs (toR x) <= inv_size -> apx (x * idet) (toR x * / D) (8 * (runit * k) * Rabs (toR x * / D) + tiny).
  Proof using All.
    intros Fx Bx. destruct idet_apx as [K _]. fold idet in K. pose proof k_ge as K1. pose proof k_le as K2. pose proof runit_pos as U0. pose proof iD_le as ID. pose proof inv_size_sq as IS. pose proof inv_size_ge as IG. pose proof huge_pos as HP.
    assert (UK : runit <= runit * k) by (rewrite <- (Rmult_1_r runit) at 1; apply Rmult_le_compat_l; lra).
    set (u := runit * k) in *. assert (P : 0 <= Rabs (toR x) * Rabs (/ D) <= inv_size * inv_size) by (split; [apply Rmult_le_pos; apply Rabs_pos|apply Rmult_le_compat; try apply Rabs_pos; assumption]).
    set (z := Rabs (toR x) * Rabs (/ D)) in *. assert (U1 : 0 <= u * z <= / 64 * z) by (split; [apply Rmult_le_pos; lra|apply Rmult_le_compat_r; lra]).
    assert (E1 : Rabs (toR x) * (Rabs (/ D) + 6 * u * Rabs (/ D)) = z + 6 * (u * z)) by (unfold z; ring).
    eapply apx_weak; [apply (mul_gen x idet (/ D) _ Fx K); rewrite E1; lra|].
    rewrite E1, Rabs_mult. fold z. replace (Rabs (toR x) * (6 * u * Rabs (/ D))) with (6 * (u * z)) by (unfold z; ring).
    assert (runit * (z + 6 * (u * z)) <= u * (z + 6 * (/ 64 * z))) by (apply Rmult_le_compat; lra). lra.
  Qed.
  Lemma opp_entry x : finite x -> Rabs (toR x) <= inv_size -> apx (- x * idet) (- toR x * / D) (8 * (runit * k) * Rabs (- toR x * / D) + tiny).
  Proof using All. intros Fx Bx. destruct (fopp_toR x Fx) as [F V]. rewrite <- V. apply entry_apx; [exact F|rewrite V, Rabs_Ropp; exact Bx]. Qed.
  Lemma prod_le x y : Rabs x <= inv_size -> Rabs y <= inv_size -> Rabs (x * / y) = Rabs x * Rabs (/ y) /\ (y = D -> Rabs (x * / y) <= inv_size * inv_size).
  Proof using All. intros A B. split; [apply Rabs_mult|]. intros ->. rewrite Rabs_mult. apply Rmult_le_compat; try apply Rabs_pos; [exact A|apply iD_le]. Qed.
  Lemma trans_apx c f p q x y : finite c -> finite f -> Rabs (toR c) <= inv_size -> Rabs (toR f) <= inv_size -> Rabs x <= inv_size * inv_size -> Rabs y <= inv_size * inv_size ->
    apx p x (8 * (runit * k) * Rabs x + tiny) -> apx q y (8 * (runit * k) * Rabs y + tiny) ->
    apx (- c * p - f * q) (- toR c * x - toR f * y) (12 * (runit * k) * (Rabs (toR c) * Rabs x + Rabs (toR f) * Rabs y) + (2 * (Rabs (toR c) + Rabs (toR f)) + 3) * tiny).
  Proof using All.
    intros Fc Ff Bc Bf Bx By Hp Hq. destruct (fopp_toR c Fc) as [Fo Vo]. pose proof k_ge as K1. pose proof k_le as K2. pose proof runit_pos as U0. pose proof tiny_pos as T0. pose proof tiny_small as T1. pose proof runit_small as U1.
    assert (UK : runit <= runit * k) by (rewrite <- (Rmult_1_r runit) at 1; apply Rmult_le_compat_l; lra). set (u := runit * k) in *.
    pose proof inv_size_ge as IG.
    assert (I3 : 2 * (inv_size * (inv_size * inv_size)) <= huge / 64).
    { unfold inv_size, huge. rewrite <- !bpow_plus. change 2 with (bpow radix2 1) at 1. rewrite <- bpow_plus. replace (bpow radix2 1000 / 64) with (bpow radix2 994); [apply bpow_le; lia|]. replace 1000%Z with (994 + 6)%Z by lia. rewrite bpow_plus. change (bpow radix2 6) with 64. field. }
    assert (G : forall a z, Rabs a <= inv_size -> Rabs z <= inv_size * inv_size -> Rabs a * (Rabs z + (8 * u * Rabs z + tiny)) <= huge / 4).
    { intros a z Ha Hz. pose proof (Rabs_pos a). pose proof (Rabs_pos z). assert (u * Rabs z <= / 64 * Rabs z) by (apply Rmult_le_compat_r; lra).
      assert (I1 : 1 <= inv_size * inv_size) by (rewrite <- (Rmult_1_r 1); apply Rmult_le_compat; lra).
      assert (Rabs a * (Rabs z + (8 * u * Rabs z + tiny)) <= inv_size * (2 * (inv_size * inv_size) + 1 * (inv_size * inv_size))). { apply Rmult_le_compat; try lra. assert (0 <= u * Rabs z) by (apply Rmult_le_pos; lra). lra. } pose proof huge_pos. lra. }
    destruct (dot2 (- c)%float f p q x y _ _ Fo Ff Hp Hq) as [_ K]; [rewrite Vo, Rabs_Ropp; apply G; assumption|apply G; assumption|]. cbv zeta in K. rewrite Vo, Rabs_Ropp in K.
    eapply apx_weak; [exact K|]. set (s := Rabs (toR c) * Rabs x + Rabs (toR f) * Rabs y).
    replace (Rabs (toR c) * (8 * u * Rabs x + tiny) + Rabs (toR f) * (8 * u * Rabs y + tiny)) with (8 * (u * s) + (Rabs (toR c) + Rabs (toR f)) * tiny) by (unfold s; ring).
    assert (S0 : 0 <= s) by (unfold s; pose proof (Rmult_le_pos _ _ (Rabs_pos (toR c)) (Rabs_pos x)); pose proof (Rmult_le_pos _ _ (Rabs_pos (toR f)) (Rabs_pos y)); lra).
    assert (runit * s <= u * s) by (apply Rmult_le_compat_r; lra). assert (0 <= u * s) by (apply Rmult_le_pos; lra).
    assert (0 <= (Rabs (toR c) + Rabs (toR f)) * tiny) by (apply Rmult_le_pos; [pose proof (Rabs_pos (toR c)); pose proof (Rabs_pos (toR f)); lra|lra]). lra.
  Qed.
  (** the six entries of the inverse *)
  Lemma winv_apx : finite_aff winv /\
    (let d x := 8 * (runit * k) * Rabs x + tiny in
     apx (aa winv) (aa qinv) (d (aa qinv)) /\ apx (ab winv) (ab qinv) (d (ab qinv)) /\ apx (ad winv) (ad qinv) (d (ad qinv)) /\ apx (ae winv) (ae qinv) (d (ae qinv))) /\
    (let d x y := 12 * (runit * k) * (Rabs (toR (ac m)) * Rabs x + Rabs (toR (af m)) * Rabs y) + (2 * (Rabs (toR (ac m)) + Rabs (toR (af m))) + 3) * tiny in
     apx (ac winv) (ac qinv) (d (aa qinv) (ab qinv)) /\ apx (af winv) (af qinv) (d (ad qinv) (ae qinv))).
  Proof using All.
    pose proof Fm as (Fa & Fb & Fc & Fd & Fe & Ff). pose proof Bm as (Ba & Bb & Bc & Bd & Be & Bf). unfold affR in Ba, Bb, Bc, Bd, Be, Bf. cbn [aa ab ac ad ae af] in Ba, Bb, Bc, Bd, Be, Bf.
    pose proof (entry_apx _ Fe Be) as K1. pose proof (opp_entry _ Fb Bb) as K2. pose proof (opp_entry _ Fd Bd) as K3. pose proof (entry_apx _ Fa Ba) as K4.
    assert (P : forall x, Rabs x <= inv_size -> Rabs (x * / D) <= inv_size * inv_size) by (intros x Hx; rewrite Rabs_mult; apply Rmult_le_compat; try apply Rabs_pos; [exact Hx|apply iD_le]).
    assert (On : forall x, Rabs x <= inv_size -> Rabs (- x) <= inv_size) by (intros x Hx; rewrite Rabs_Ropp; exact Hx).
    pose proof (trans_apx _ _ _ _ _ _ Fc Ff Bc Bf (P _ Be) (P _ (On _ Bb)) K1 K2) as K5. pose proof (trans_apx _ _ _ _ _ _ Fc Ff Bc Bf (P _ (On _ Bd)) (P _ Ba) K3 K4) as K6.
    cbv zeta. unfold winv, qinv. cbn [aa ab ac ad ae af]. split; [|split].
    - unfold finite_aff. cbn [aa ab ac ad ae af]. repeat split; [apply K1|apply K2|apply K5|apply K3|apply K4|apply K6].
    - repeat split; try apply K1; try apply K2; try apply K3; try apply K4.
    - split; [exact K5|exact K6].
  Qed.
  Lemma ainvert_eq E : PrimFloat.ltb (abs (determinant (N := FNum L) m)) E = false -> ainvert (N := FNum L) E m = Ok winv.
  Proof using All.
    intro H. destruct idet_apx as [_ K]. unfold ainvert, is_degenerate. cbn [nltb nabs FNum]. rewrite H. unfold pydiv. change (neqb (determinant m) n0) with (PrimFloat.eqb (determinant (N := FNum L) m) 0). rewrite K. reflexivity.
  Qed.
End Inv.
