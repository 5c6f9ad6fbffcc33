(** * Forward error of scaled_to, project and reflect on doubles *)
From Coq Require Import ZArith List Bool Reals Lra Lia Floats SpecFloat.
From Flocq Require Import Core IEEE754.PrimFloat IEEE754.BinarySingleNaN.
From Verif Require Import Num NumFloat Vec OrdLaws SpecGeom RBase VecFacts2 FloatFacts FloatFacts2 FloatVec SpecExact FloatExact FloatErr FloatErr2 FloatErr3 SpecRot RotFacts InvF.
Local Open Scope R_scope.

Definition lo : R := bpow radix2 (-400).
Definition hi : R := bpow radix2 400.
Definition sm : R := bpow radix2 (-660).
Lemma lo_hi : 0 < lo /\ lo * hi = 1 /\ 1 <= hi.
Proof. unfold lo, hi. split; [apply bpow_gt_0|]. split; [rewrite <- bpow_plus; reflexivity|]. change 1 with (bpow radix2 0). apply bpow_le. lia. Qed.
Lemma tiny_hi : 1024 * (hi * tiny) <= sm.
Proof. unfold hi, tiny, sm. change 1024 with (bpow radix2 10). rewrite <- !bpow_plus. apply bpow_le. lia. Qed.
Lemma tiny_hi2 : 1024 * (hi * hi * tiny) <= runit.
Proof. unfold hi, tiny, runit. change 1024 with (bpow radix2 10). rewrite <- !bpow_plus. apply bpow_le. lia. Qed.
Lemma hi_huge : 64 * (hi * hi) <= huge.
Proof. unfold hi, huge. change 64 with (bpow radix2 6). rewrite <- !bpow_plus. apply bpow_le. lia. Qed.
Lemma sm_pos : 0 < sm. Proof. apply bpow_gt_0. Qed.
Lemma inv_range n : lo <= n <= hi -> 0 < / n <= hi /\ n * / n = 1.
Proof.
  intros H. destruct lo_hi as (L0 & LH & H1). assert (N0 : 0 < n) by lra. assert (NI : n * / n = 1) by (field; lra). split; [|exact NI]. split; [apply Rinv_0_lt_compat; lra|].
  apply (Rmult_le_reg_l n); [lra|]. rewrite NI, <- LH. apply Rmult_le_compat_r; lra.
Qed.
Lemma cs_mag v w : dot_mag v w <= norm v * norm w.
Proof.
  unfold dot_mag. pose proof (VecFacts2.norm_sq v) as Q1. pose proof (VecFacts2.norm_sq w) as Q2. pose proof (norm_nonneg v) as P1. pose proof (norm_nonneg w) as P2. rewrite !Rabs_mult.
  assert (S1 : vx v * vx v = Rabs (vx v) * Rabs (vx v)) by (rewrite <- Rabs_mult, Rabs_pos_eq; [reflexivity|nra]). assert (S2 : vy v * vy v = Rabs (vy v) * Rabs (vy v)) by (rewrite <- Rabs_mult, Rabs_pos_eq; [reflexivity|nra]).
  assert (S3 : vx w * vx w = Rabs (vx w) * Rabs (vx w)) by (rewrite <- Rabs_mult, Rabs_pos_eq; [reflexivity|nra]). assert (S4 : vy w * vy w = Rabs (vy w) * Rabs (vy w)) by (rewrite <- Rabs_mult, Rabs_pos_eq; [reflexivity|nra]).
  pose proof (Rabs_pos (vx v)). pose proof (Rabs_pos (vy v)). pose proof (Rabs_pos (vx w)). pose proof (Rabs_pos (vy w)).
  set (a := Rabs (vx v)) in *. set (b := Rabs (vy v)) in *. set (c := Rabs (vx w)) in *. set (d := Rabs (vy w)) in *. clearbody a b c d.
  apply Rsqr_incr_0_var; [|apply Rmult_le_pos; lra]. unfold Rsqr. replace (norm v * norm w * (norm v * norm w)) with ((norm v * norm v) * (norm w * norm w)) by ring.
  assert (E1 : norm v * norm v = a * a + b * b) by lra. assert (E2 : norm w * norm w = c * c + d * d) by lra.
  rewrite E1, E2. pose proof (Rle_0_sqr (a * d - b * c)) as Q. unfold Rsqr in Q. lra.
Qed.
(** quotient by an approximation with relative error [e] *)
Lemma quot_rel a b x y da e : apx a x da -> apx b y (e * Rabs y) -> y <> 0 -> 0 <= e <= / 1024 -> Rabs x * / Rabs y <= huge / 4 -> da * / Rabs y <= huge / 4 ->
  apx (a / b) (x / y) (9 / 8 * ((da + e * Rabs x) * / Rabs y) + runit * (Rabs x * / Rabs y) + tiny).
Proof.
  intros Ha [Fb Hb] Hy He B1 B2. pose proof (apx_pos _ _ _ Ha) as D0. destruct Ha as [Fa Ha]. pose proof (Rabs_pos_lt y Hy) as YP. pose proof runit_pos as U0. pose proof runit_small as U1. pose proof huge_pos as HP.
  assert (LB : 1023 / 1024 * Rabs y <= Rabs (toR b)). { pose proof (Rabs_triang (toR b) (- (toR b - y))) as Q. rewrite Rabs_Ropp in Q. replace (toR b + - (toR b - y)) with y in Q by ring. assert (e * Rabs y <= / 1024 * Rabs y) by (apply Rmult_le_compat_r; lra). lra. }
  assert (B0 : toR b <> 0) by (intro Z; rewrite Z, Rabs_R0 in LB; lra).
  assert (IB : / Rabs (toR b) <= 17 / 16 * / Rabs y). { replace (17 / 16 * / Rabs y) with (/ (16 / 17 * Rabs y)) by (field; lra). apply Rinv_le_contravar; lra. }
  assert (YI : 0 < / Rabs y) by (apply Rinv_0_lt_compat; lra).
  assert (DF : Rabs (toR a / toR b - x / y) <= 17 / 16 * ((da + e * Rabs x) * / Rabs y)).
  { replace (toR a / toR b - x / y) with (((toR a - x) * y - x * (toR b - y)) * (/ toR b * / y)) by (field; auto). rewrite Rabs_mult, (Rabs_mult (/ toR b)), !Rabs_inv.
    assert (N1 : Rabs ((toR a - x) * y - x * (toR b - y)) <= (da + e * Rabs x) * Rabs y).
    { unfold Rminus at 1. eapply Rle_trans; [apply Rabs_triang|]. rewrite Rabs_Ropp, !Rabs_mult. assert (Rabs (toR a - x) * Rabs y <= da * Rabs y) by (apply Rmult_le_compat_r; lra). assert (Rabs x * Rabs (toR b - y) <= Rabs x * (e * Rabs y)) by (apply Rmult_le_compat_l; [apply Rabs_pos|lra]). lra. }
    assert (N2 : 0 <= / Rabs (toR b) * / Rabs y) by (apply Rmult_le_pos; left; [apply Rinv_0_lt_compat, Rabs_pos_lt, B0|exact YI]).
    assert (N3 : / Rabs (toR b) * / Rabs y <= 17 / 16 * / Rabs y * / Rabs y) by (apply Rmult_le_compat_r; lra).
    eapply Rle_trans; [apply Rmult_le_compat; [apply Rabs_pos|exact N2|exact N1|exact N3]|]. right. field. lra. }
  assert (XE : x / y = x * / y) by reflexivity. assert (XA : Rabs (x / y) = Rabs x * / Rabs y) by (rewrite XE, Rabs_mult, Rabs_inv; reflexivity).
  set (p := Rabs x * / Rabs y) in *. set (t := (da + e * Rabs x) * / Rabs y) in *.
  assert (TE : t = da * / Rabs y + e * p) by (unfold t, p; ring). assert (P0 : 0 <= p) by (unfold p; apply Rmult_le_pos; [apply Rabs_pos|lra]). assert (EP : 0 <= e * p <= / 1024 * p) by (split; [apply Rmult_le_pos; lra|apply Rmult_le_compat_r; lra]). assert (DY : 0 <= da * / Rabs y) by (apply Rmult_le_pos; lra).
  assert (MQ : Rabs (toR a / toR b) <= p + 17 / 16 * t). { replace (toR a / toR b) with (x / y + (toR a / toR b - x / y)) by ring. eapply Rle_trans; [apply Rabs_triang|]. lra. }
  destruct (fdiv_toR a b Fa B0) as [F V]; [lra|]. split; [exact F|]. rewrite V. pose proof (frnd_err (toR a / toR b)) as R.
  replace (frnd (toR a / toR b) - x / y) with ((frnd (toR a / toR b) - toR a / toR b) + (toR a / toR b - x / y)) by ring. eapply Rle_trans; [apply Rabs_triang|].
  assert (runit * Rabs (toR a / toR b) <= runit * (p + 17 / 16 * t)) by (apply Rmult_le_compat_l; lra). assert (runit * t <= / 1048576 * t) by (apply Rmult_le_compat_r; lra). lra.
Qed.
Lemma coord_scale x s Sx c j n p : finite x -> Rabs (toR x) <= n -> apx s Sx (c * runit * p + j) -> Rabs Sx <= p -> 0 <= c <= 100 -> 0 <= j -> n * p <= huge / 8 -> n * j <= huge / 8 ->
  apx (x * s) (toR x * Sx) ((c + 2) * runit * (n * p) + 2 * (n * j) + tiny).
Proof.
  intros Fx Bx Hs HS Hc Hj B1 B2. pose proof (Rabs_pos (toR x)) as X0. pose proof (Rabs_pos Sx) as P0. pose proof runit_pos as U0. pose proof runit_small as U1. pose proof huge_pos as HP. pose proof (apx_pos _ _ _ Hs) as D0.
  assert (CU : 0 <= c * runit <= 100 * runit) by (split; [apply Rmult_le_pos; lra|apply Rmult_le_compat_r; lra]). set (d := c * runit * p + j) in *.
  assert (NP : 0 <= n * p) by (apply Rmult_le_pos; lra). assert (NJ : 0 <= n * j) by (apply Rmult_le_pos; lra).
  assert (ND : n * d = c * runit * (n * p) + n * j) by (unfold d; ring). assert (CN : 0 <= c * runit * (n * p) <= / 4 * (n * p)) by (split; [apply Rmult_le_pos; lra|apply Rmult_le_compat_r; lra]).
  assert (XD : Rabs (toR x) * d <= n * d) by (apply Rmult_le_compat_r; lra). assert (XS : Rabs (toR x) * (Rabs Sx + d) <= n * p + n * d). { rewrite Rmult_plus_distr_l. assert (Rabs (toR x) * Rabs Sx <= n * p) by (apply Rmult_le_compat; lra). lra. }
  eapply apx_weak; [apply (mul_gen x s Sx d Fx Hs); lra|].
  assert (UM : runit * (Rabs (toR x) * (Rabs Sx + d)) <= runit * (n * p + n * d)) by (apply Rmult_le_compat_l; lra).
  assert (UJ : runit * (n * j) <= / 1048576 * (n * j)) by (apply Rmult_le_compat_r; lra). assert (UC : runit * (c * runit * (n * p)) <= runit * (/ 4 * (n * p))) by (apply Rmult_le_compat_l; lra). assert (UN : 0 <= runit * (n * p)) by (apply Rmult_le_pos; lra).
  replace (runit * (n * p + n * d)) with (runit * (n * p) + runit * (c * runit * (n * p)) + runit * (n * j)) in UM by (rewrite ND; ring). replace ((c + 2) * runit * (n * p)) with (c * runit * (n * p) + 2 * (runit * (n * p))) by ring. lra.
Qed.
Section Scale.
  Variable L : FloatLib.
  Hypothesis HS : sqrt_ok L.
  Let NL : Num PrimFloat.float := FNum L.
  Existing Instance NL.

  Lemma pydiv_ok a b y d : apx b y d -> d < Rabs y -> pydiv (N := NL) a b = Ok (a / b)%float.
  Proof using.
    intros [Fb Hb] H. unfold pydiv. change (neqb b n0) with (PrimFloat.eqb b 0). destruct (float_of_Z_exact 0 ltac:(lia)) as [F0 V0]. change (float_of_Z 0) with 0%float in *.
    rewrite toR_eq, V0 by auto. unfold Reqb. destruct (Req_EM_T (toR b) 0) as [Z|Z]; [|reflexivity]. rewrite Z, Rminus_0_l, Rabs_Ropp in Hb. lra.
  Qed.
  Lemma scaled_err E v len : finite_vec v -> lo <= norm (vecR v) <= hi -> finite len -> Rabs (toR len) <= hi -> PrimFloat.ltb E (vlength v) = true ->
    exists w, scaled_to E v len = Ok w /\ near_vec w (pscale (toR len / norm (vecR v)) (vecR v)) (11 * runit * Rabs (toR len) + sm).
  Proof using HS.
    intros [Fx Fy] Hn Fl Bl HE. pose proof (length_rel L HS v (conj Fx Fy) Hn) as K. fold NL in K. destruct (coord_norm (vecR v)) as [C1 C2]. unfold vecR in C1, C2. cbn [vx vy] in C1, C2. set (n := norm (vecR v)) in *.
    destruct lo_hi as (L0 & LH & H1). pose proof (inv_range n Hn) as [[I0 I1] NI]. pose proof runit_pos as U0. pose proof runit_small as U1. pose proof tiny_pos as T0. pose proof tiny_hi as TH. pose proof tiny_small as T1. pose proof hi_huge as HH. pose proof huge_pos as HP.
    assert (AN : Rabs n = n) by (apply Rabs_pos_eq; lra). pose proof (Rabs_pos (toR len)) as LP.
    assert (PB : 0 <= Rabs (toR len) * / n <= hi * hi) by (split; [apply Rmult_le_pos; lra|apply Rmult_le_compat; lra]).
    assert (UN : runit * n < / 1024 * n) by (apply Rmult_lt_compat_r; lra).
    assert (Q : apx (len / vlength v) (toR len / n) (9 * runit * (Rabs (toR len) * / n) + tiny)).
    { eapply apx_weak; [apply (quot_rel len (vlength v) (toR len) n 0 (7 * runit) (apx_exact _ Fl))|]; rewrite ?AN; try lra; [exact K|].
      assert (0 <= runit * (Rabs (toR len) * / n)) by (apply Rmult_le_pos; lra). lra. }
    exists (mkV (vx v * (len / vlength v)) (vy v * (len / vlength v)))%float. split.
    - unfold scaled_to. change (vlength v >? E)%num with (PrimFloat.ltb E (vlength v)). rewrite HE. rewrite (pydiv_ok len (vlength v) n _ K) by (rewrite AN; lra). reflexivity.
    - assert (SE : Rabs (toR len / n) <= Rabs (toR len) * / n) by (unfold Rdiv; rewrite Rabs_mult, Rabs_inv, AN; lra).
      assert (NP : n * (Rabs (toR len) * / n) = Rabs (toR len)) by (field; lra). assert (NT : n * tiny <= hi * tiny) by (apply Rmult_le_compat_r; lra). assert (HT : hi * tiny <= hi * 1) by (apply Rmult_le_compat_l; lra).
      assert (HI2 : hi <= hi * hi) by (rewrite <- (Rmult_1_r hi) at 1; apply Rmult_le_compat_l; lra). assert (TT : tiny <= hi * tiny) by (rewrite <- (Rmult_1_l tiny) at 1; apply Rmult_le_compat_r; lra).
      assert (G : forall x, finite x -> Rabs (toR x) <= n -> apx (x * (len / vlength v)) (toR len / n * toR x) (11 * runit * Rabs (toR len) + sm)).
      { intros x F B. rewrite (Rmult_comm _ (toR x)). eapply apx_weak; [apply (coord_scale x _ _ _ _ n _ F B Q SE); try lra|]. rewrite NP. lra. }
      split; apply G; assumption.
  Qed.
  Lemma length2_rel v : finite_vec v -> lo <= norm (vecR v) <= hi -> apx (length2 v) (norm (vecR v) * norm (vecR v)) (4 * runit * (norm (vecR v) * norm (vecR v))).
  Proof using.
    intros Fv Hn. destruct (length2_err L v Fv ltac:(unfold hi in Hn; lra)) as [K _]. eapply apx_weak; [exact K|]. set (n := norm (vecR v)) in *. pose proof (inv_range n Hn) as [[I0 I1] NI]. destruct lo_hi as (L0 & LH & H1).
    assert (LL : lo * lo <= n * n) by (apply Rmult_le_compat; lra). pose proof tiny_hi2 as T2. pose proof runit_pos.
    assert (T3 : tiny <= / 1024 * (runit * (lo * lo))). { replace tiny with (hi * hi * tiny * (lo * lo)). { replace (/ 1024 * (runit * (lo * lo))) with (/ 1024 * runit * (lo * lo)) by ring. apply Rmult_le_compat_r; [apply Rmult_le_pos; lra|lra]. } replace (hi * hi * tiny * (lo * lo)) with ((lo * hi) * (lo * hi) * tiny) by ring. rewrite LH. ring. }
    assert (runit * (lo * lo) <= runit * (n * n)) by (apply Rmult_le_compat_l; lra). pose proof tiny_pos. lra.
  Qed.
  Lemma cs_bound v o : norm (vecR v) <= hi -> norm (vecR o) <= hi -> dot_mag (vecR v) (vecR o) <= norm (vecR v) * norm (vecR o) /\ norm (vecR v) * norm (vecR o) <= hi * hi.
  Proof using. intros A B. split; [apply cs_mag|]. apply Rmult_le_compat; try apply norm_nonneg; assumption. Qed.
  (** projection of [o] on [v] *)
  Lemma project_err E v o : finite_vec v -> finite_vec o -> lo <= norm (vecR v) <= hi -> norm (vecR o) <= hi -> PrimFloat.ltb (fl_pow2 L E) (length2 v) = true ->
    exists w, vec_project E v o = Ok w /\ near_vec w (pscale (pdot (vecR v) (vecR o) / (norm (vecR v) * norm (vecR v))) (vecR v)) (11 * runit * norm (vecR o) + sm).
  Proof using.
    intros Fv Fo Hn Ho HE. pose proof (length2_rel v Fv Hn) as K. destruct (coord_norm (vecR v)) as [C1 C2]. unfold vecR in C1, C2. cbn [vx vy] in C1, C2. pose proof (norm_nonneg (vecR o)) as O0.
    destruct (cs_bound v o ltac:(lra) Ho) as [CS CB]. pose proof hi_huge as HH. pose proof huge_pos as HP. assert (DH : dot_mag (vecR v) (vecR o) <= huge / 2) by lra. pose proof (dot_err L v o Fv Fo DH) as KD. fold NL in KD. pose proof (pdot_mag (vecR v) (vecR o)) as PM.
    set (n := norm (vecR v)) in *. set (m := norm (vecR o)) in *. set (x := pdot (vecR v) (vecR o)) in *. destruct Fv as [Fx Fy].
    destruct lo_hi as (L0 & LH & H1). pose proof (inv_range n Hn) as [[I0 I1] NI]. pose proof runit_pos as U0. pose proof runit_small as U1. pose proof tiny_pos as T0. pose proof tiny_hi as TH. pose proof tiny_small as T1.
    assert (N2 : 0 < n * n) by (apply Rmult_lt_0_compat; lra). assert (AN : Rabs (n * n) = n * n) by (apply Rabs_pos_eq; lra).
    assert (IN : / (n * n) = / n * / n) by (field; lra). assert (HI2 : hi <= hi * hi) by (rewrite <- (Rmult_1_r hi) at 1; apply Rmult_le_compat_l; lra).
    assert (MI : 0 <= m * / n <= hi * hi) by (split; [apply Rmult_le_pos; lra|apply Rmult_le_compat; lra]).
    assert (NMI : n * m * (/ n * / n) = m * / n) by (field; lra). assert (II : 0 < / n * / n <= hi * hi) by (split; [apply Rmult_lt_0_compat; lra|apply Rmult_le_compat; lra]).
    assert (DD : apx (dot v o) x (3 * runit * (n * m) + 3 * tiny)) by (eapply apx_weak; [exact KD|]; assert (runit * dot_mag (vecR v) (vecR o) <= runit * (n * m)) by (apply Rmult_le_compat_l; lra); lra).
    assert (XN : Rabs x * (/ n * / n) <= m * / n) by (rewrite <- NMI; apply Rmult_le_compat_r; lra).
    assert (UMI : 0 <= runit * (m * / n) <= / 1048576 * (m * / n)) by (split; [apply Rmult_le_pos; lra|apply Rmult_le_compat_r; lra]).
    assert (TII : 0 <= tiny * (/ n * / n) <= 1 * (/ n * / n)) by (split; [apply Rmult_le_pos; lra|apply Rmult_le_compat_r; lra]).
    assert (DDN : (3 * runit * (n * m) + 3 * tiny) * (/ n * / n) = 3 * (runit * (m * / n)) + 3 * (tiny * (/ n * / n))) by (field; lra).
    assert (Q : apx (dot v o / length2 v) (x / (n * n)) (9 * runit * (m * / n) + (4 * (tiny * (/ n * / n)) + tiny))).
    { eapply apx_weak; [apply (quot_rel (dot v o) (length2 v) x (n * n) _ (4 * runit) DD)|]; rewrite ?AN, ?IN; try lra; [exact K|].
      rewrite Rmult_plus_distr_r, DDN. assert (runit * (Rabs x * (/ n * / n)) <= runit * (m * / n)) by (apply Rmult_le_compat_l; lra). lra. }
    exists (mkV (vx v * (dot v o / length2 v)) (vy v * (dot v o / length2 v)))%float. split.
    - unfold vec_project. change (length2 v >? npow2 E)%num with (PrimFloat.ltb (fl_pow2 L E) (length2 v)). rewrite HE. rewrite (pydiv_ok _ _ _ _ K); [reflexivity|]. rewrite AN. assert (runit * (n * n) <= / 1048576 * (n * n)) by (apply Rmult_le_compat_r; lra). lra.
    - assert (SE : Rabs (x / (n * n)) <= m * / n) by (unfold Rdiv; rewrite Rabs_mult, Rabs_inv, AN, IN; exact XN).
      assert (NP : n * (m * / n) = m) by (field; lra). set (j := 4 * (tiny * (/ n * / n)) + tiny) in *.
      assert (NJ : n * j = 4 * (tiny * / n) + n * tiny) by (unfold j; field; lra). assert (NT : 0 <= n * tiny <= hi * tiny) by (split; [apply Rmult_le_pos; lra|apply Rmult_le_compat_r; lra]). assert (NT2 : 0 <= tiny * / n <= hi * tiny) by (split; [apply Rmult_le_pos; lra|rewrite Rmult_comm; apply Rmult_le_compat_r; lra]).
      assert (HT : hi * tiny <= hi * 1) by (apply Rmult_le_compat_l; lra). assert (TT : tiny <= hi * tiny) by (rewrite <- (Rmult_1_l tiny) at 1; apply Rmult_le_compat_r; lra).
      assert (G : forall c, finite c -> Rabs (toR c) <= n -> apx (c * (dot v o / length2 v)) (x / (n * n) * toR c) (11 * runit * m + sm)).
      { intros c F B. rewrite (Rmult_comm _ (toR c)). eapply apx_weak; [apply (coord_scale c _ _ _ _ n _ F B Q SE); rewrite ?NP; try lra; unfold j; lra|]. rewrite NP. lra. }
      split; apply G; assumption.
  Qed.
  (** reflection of [v] against [o] *)
  Lemma reflect_err E v o : finite_vec v -> finite_vec o -> norm (vecR v) <= hi -> lo <= norm (vecR o) <= hi -> PrimFloat.ltb (fl_pow2 L E) (length2 o) = true ->
    exists w, vec_reflect E v o = Ok w /\ near_vec w (psub (pscale (2 * pdot (vecR v) (vecR o) / (norm (vecR o) * norm (vecR o))) (vecR o)) (vecR v)) (32 * runit * norm (vecR v) + sm).
  Proof using.
    intros Fv Fo Hv Hn HE. pose proof (length2_rel o Fo Hn) as K. destruct (coord_norm (vecR o)) as [C1 C2]. unfold vecR in C1, C2. cbn [vx vy] in C1, C2. destruct (coord_norm (vecR v)) as [W1 W2]. unfold vecR in W1, W2. cbn [vx vy] in W1, W2. pose proof (norm_nonneg (vecR v)) as O0.
    destruct (cs_bound v o Hv ltac:(lra)) as [CS CB]. pose proof hi_huge as HH. pose proof huge_pos as HP. assert (DH : dot_mag (vecR v) (vecR o) <= huge / 2) by lra. pose proof (dot_err L v o Fv Fo DH) as KD. fold NL in KD. pose proof (pdot_mag (vecR v) (vecR o)) as PM.
    set (n := norm (vecR o)) in *. set (m := norm (vecR v)) in *. set (x := pdot (vecR v) (vecR o)) in *. destruct Fv as [Fx Fy]. destruct Fo as [Gx Gy].
    destruct lo_hi as (L0 & LH & H1). pose proof (inv_range n Hn) as [[I0 I1] NI]. pose proof runit_pos as U0. pose proof runit_small as U1. pose proof tiny_pos as T0. pose proof tiny_hi as TH. pose proof tiny_small as T1.
    assert (N2 : 0 < n * n) by (apply Rmult_lt_0_compat; lra). assert (AN : Rabs (n * n) = n * n) by (apply Rabs_pos_eq; lra).
    assert (IN : / (n * n) = / n * / n) by (field; lra). assert (HI2 : hi <= hi * hi) by (rewrite <- (Rmult_1_r hi) at 1; apply Rmult_le_compat_l; lra).
    assert (MI : 0 <= m * / n <= hi * hi) by (split; [apply Rmult_le_pos; lra|apply Rmult_le_compat; lra]).
    assert (NMI : m * n * (/ n * / n) = m * / n) by (field; lra). assert (II : 0 < / n * / n <= hi * hi) by (split; [apply Rmult_lt_0_compat; lra|apply Rmult_le_compat; lra]).
    assert (MN0 : 0 <= m * n) by (apply Rmult_le_pos; lra). assert (UMN : 0 <= runit * (m * n) <= / 1048576 * (m * n)) by (split; [apply Rmult_le_pos; lra|apply Rmult_le_compat_r; lra]).
    assert (DD : apx (dot v o) x (3 * runit * (m * n) + 3 * tiny)) by (eapply apx_weak; [exact KD|]; assert (runit * dot_mag (vecR v) (vecR o) <= runit * (m * n)) by (apply Rmult_le_compat_l; lra); lra).
    destruct (float_of_Z_exact 2 ltac:(lia)) as [F2 V2]. change (float_of_Z 2) with 2%float in *.
    assert (D2 : apx (2 * dot v o) (2 * x) (9 * runit * (m * n) + 8 * tiny)).
    { pose proof (mul_gen 2 (dot v o) x _ F2 DD) as G. rewrite V2, (Rabs_pos_eq 2) in G by lra. eapply apx_weak; [apply G; lra|]. assert (runit * (Rabs x + (3 * runit * (m * n) + 3 * tiny)) <= runit * (5 / 4 * (m * n) + 3 * tiny)) by (apply Rmult_le_compat_l; lra). assert (runit * tiny <= / 1048576 * tiny) by (apply Rmult_le_compat_r; lra). lra. }
    assert (XN : Rabs (2 * x) * (/ n * / n) <= 2 * (m * / n)). { rewrite Rabs_mult, (Rabs_pos_eq 2) by lra. rewrite <- NMI. assert (Rabs x * (/ n * / n) <= m * n * (/ n * / n)) by (apply Rmult_le_compat_r; lra). lra. }
    assert (UMI : 0 <= runit * (m * / n) <= / 1048576 * (m * / n)) by (split; [apply Rmult_le_pos; lra|apply Rmult_le_compat_r; lra]).
    assert (TII : 0 <= tiny * (/ n * / n) <= 1 * (/ n * / n)) by (split; [apply Rmult_le_pos; lra|apply Rmult_le_compat_r; lra]).
    assert (DDN : (9 * runit * (m * n) + 8 * tiny) * (/ n * / n) = 9 * (runit * (m * / n)) + 8 * (tiny * (/ n * / n))) by (field; lra).
    set (t := (2 * dot v o / length2 o)%float).
    assert (Q : apx t (2 * x / (n * n)) (11 * runit * (2 * (m * / n)) + (9 * (tiny * (/ n * / n)) + tiny))).
    { eapply apx_weak; [apply (quot_rel (2 * dot v o) (length2 o) (2 * x) (n * n) _ (4 * runit) D2)|]; rewrite ?AN, ?IN; try lra; [exact K|].
      rewrite Rmult_plus_distr_r, DDN. assert (runit * (Rabs (2 * x) * (/ n * / n)) <= runit * (2 * (m * / n))) by (apply Rmult_le_compat_l; lra). lra. }
    exists (mkV (vx o * t - vx v) (vy o * t - vy v))%float. split.
    - unfold vec_reflect. change (vx o * vx o + vy o * vy o >? npow2 E)%num with (PrimFloat.ltb (fl_pow2 L E) (length2 o)). rewrite HE. change (vx o * vx o + vy o * vy o)%num with (length2 o). rewrite (pydiv_ok _ _ _ _ K); [reflexivity|]. rewrite AN. assert (runit * (n * n) <= / 1048576 * (n * n)) by (apply Rmult_le_compat_r; lra). lra.
    - assert (SE : Rabs (2 * x / (n * n)) <= 2 * (m * / n)) by (unfold Rdiv; rewrite Rabs_mult, Rabs_inv, AN, IN; exact XN).
      assert (NP : n * (2 * (m * / n)) = 2 * m) by (field; lra). set (j := 9 * (tiny * (/ n * / n)) + tiny) in *.
      assert (NJ : n * j = 9 * (tiny * / n) + n * tiny) by (unfold j; field; lra). assert (NT : 0 <= n * tiny <= hi * tiny) by (split; [apply Rmult_le_pos; lra|apply Rmult_le_compat_r; lra]). assert (NT2 : 0 <= tiny * / n <= hi * tiny) by (split; [apply Rmult_le_pos; lra|rewrite Rmult_comm; apply Rmult_le_compat_r; lra]).
      assert (HT : hi * tiny <= hi * 1) by (apply Rmult_le_compat_l; lra). assert (TT : tiny <= hi * tiny) by (rewrite <- (Rmult_1_l tiny) at 1; apply Rmult_le_compat_r; lra). pose proof sm_pos as SP.
      assert (UM : 0 <= runit * m <= / 1048576 * m) by (split; [apply Rmult_le_pos; lra|apply Rmult_le_compat_r; lra]). assert (SMB : sm <= 1) by (unfold sm; change 1 with (bpow radix2 0); apply bpow_le; lia).
      assert (G : forall c a, finite c -> Rabs (toR c) <= n -> finite a -> Rabs (toR a) <= m -> apx (c * t - a) (2 * x / (n * n) * toR c - toR a) (32 * runit * m + sm)).
      { intros c a F B Fa Ba. rewrite (Rmult_comm _ (toR c)). assert (K1 : apx (c * t) (toR c * (2 * x / (n * n))) (26 * runit * m + / 2 * sm)).
        { eapply apx_weak; [apply (coord_scale c _ _ _ _ n _ F B Q SE); rewrite ?NP; try lra; unfold j; lra|]. rewrite NP. lra. }
        assert (M1 : Rabs (toR c * (2 * x / (n * n))) <= 2 * m) by (rewrite Rabs_mult, <- NP; apply Rmult_le_compat; try apply Rabs_pos; assumption).
        pose proof (apx_sub _ _ _ _ _ _ (4 * m + sm) K1 (apx_exact a Fa)) as K2. eapply apx_weak; [apply K2|].
        - unfold Rminus. pose proof (Rabs_triang (toR c * (2 * x / (n * n))) (- toR a)) as QQ. rewrite Rabs_Ropp in QQ. lra.
        - lra.
        - assert (runit * sm <= / 1048576 * sm) by (apply Rmult_le_compat_r; lra). lra. }
      split; apply G; assumption.
  Qed.
End Scale.
