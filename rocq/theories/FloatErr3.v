(** * Lengths, normalization and lines on doubles against the ideal shapes *)
From Coq Require Import ZArith List Bool Reals Lra Lia Psatz Floats.
From Flocq Require Import Core Relative Div_sqrt_error IEEE754.PrimFloat IEEE754.BinarySingleNaN.
From Verif Require Import Num NumFloat Vec Affine Line OrdLaws SpecGeom RBase FloatFacts FloatFacts2 FloatFacts3 FloatVec SpecExact FloatExact FloatErr FloatErr2.
Local Open Scope R_scope.
Notation rsqrt := R_sqrt.sqrt.

(** Accuracy assumed of [x ** 0.5]: within two roundings of the root. *)
Definition sqrt_ok (L : FloatLib) : Prop := forall x, finite x -> 0 <= toR x ->
  finite (fl_sqrt L x) /\ Rabs (toR (fl_sqrt L x) - rsqrt (toR x)) <= 2 * runit * rsqrt (toR x).

Local Instance prec53 : Prec_gt_0 53. Proof. reflexivity. Qed.
(** The IEEE square root qualifies. *)
Lemma ieee_sqrt_ok x : finite x -> 0 <= toR x ->
  finite (PrimFloat.sqrt x) /\ Rabs (toR (PrimFloat.sqrt x) - rsqrt (toR x)) <= 2 * runit * rsqrt (toR x).
Proof.
  intros F P. rewrite finite_B in *. unfold toR in *. rewrite sqrt_equiv.
  destruct (Bsqrt_correct fprec femax Hprec Hmax mode_NE (Prim2B x)) as (HR & HF & _). split.
  - rewrite HF. destruct (Prim2B x) as [s|s| |s m e H]; try discriminate; auto. destruct s; auto. exfalso.
    assert (K : B2R (B754_finite true m e H) < 0) by (cbn; unfold F2R; cbn [Fnum Fexp]; pose proof (bpow_gt_0 radix2 e); assert (IZR (Z.neg m) <= -1) by (apply IZR_le; lia); cbn [cond_Zopp Z.opp]; nra). lra.
  - rewrite HR. change (SpecFloat.fexp fprec femax) with (FLT_exp (-1074) 53). cbn [round_mode].
    destruct (sqrt_error_N_FLT_ex radix2 53 (fun x => negb (Z.even x)) ltac:(lia) (-1074)%Z ltac:(lia) (B2R (Prim2B x)) (generic_format_B2R _ _ _)) as (e & He & Hr).
    change (Rabs (round radix2 (FLT_exp (-1074) 53) (Znearest (fun x => negb (Z.even x))) (rsqrt (B2R (Prim2B x))) - rsqrt (B2R (Prim2B x))) <= 2 * runit * rsqrt (B2R (Prim2B x))).
    rewrite Hr. replace (rsqrt (B2R (Prim2B x)) * (1 + e) - rsqrt (B2R (Prim2B x))) with (e * rsqrt (B2R (Prim2B x))) by ring.
    rewrite Rabs_mult, (Rabs_pos_eq (rsqrt _)) by apply sqrt_pos. apply Rmult_le_compat_r; [apply sqrt_pos|].
    eapply Rle_trans; [exact He|]. unfold u_ro. change (- (53) + 1)%Z with (-53 + 1)%Z. rewrite runit_half.
    pose proof runit_pos. pose proof runit_small. set (u := runit) in *. clearbody u. clear - H H0.
    assert (K : rsqrt (1 + 2 * u) <= 1 + u). { rewrite <- (sqrt_square (1 + u)) by lra. apply sqrt_le_1_alt. nra. }
    assert (K0 : 1 <= rsqrt (1 + 2 * u)). { rewrite <- sqrt_1 at 1. apply sqrt_le_1_alt. lra. }
    set (q := rsqrt (1 + 2 * u)) in *. clearbody q. assert (K1 : 1 - u <= 1 / q).
    { apply Rmult_le_reg_r with q; [lra|]. unfold Rdiv. rewrite Rmult_assoc, Rinv_l by lra. nra. } lra.
Qed.

Definition small_root : R := bpow radix2 (-536).
Lemma small_root_sq : 4 * tiny <= small_root * small_root.
Proof.
  unfold small_root, tiny. rewrite <- bpow_plus. change 4 with (bpow radix2 2). rewrite <- bpow_plus. apply bpow_le. lia.
Qed.
Lemma sqrt_near a b d t : 0 <= a -> 0 <= b -> 0 <= d -> 0 <= t -> Rabs (a - b * b) <= d * (b * b) + t * t ->
  Rabs (rsqrt a - b) <= d * b + t.
Proof.
  intros Ha Hb Hd Ht H. apply abs_le2 in H. apply Rabs_le. pose proof (sqrt_pos a) as P. pose proof (sqrt_sqrt a Ha) as Q.
  set (r := rsqrt a) in *. clearbody r. assert (0 <= d * b) by (apply Rmult_le_pos; lra). split.
  - destruct (Rle_lt_dec (b - (d * b + t)) r) as [K|K]; [lra|]. exfalso.
    assert (r * r < (b - (d * b + t)) * (b - (d * b + t))) by (apply Rmult_le_0_lt_compat; lra). nra.
  - destruct (Rle_lt_dec r (b + (d * b + t))) as [K|K]; [lra|]. exfalso.
    assert ((b + (d * b + t)) * (b + (d * b + t)) < r * r) by (apply Rmult_le_0_lt_compat; lra). nra.
Qed.

Section Lines.
  Variable L : FloatLib.
  Hypothesis HS : sqrt_ok L.
  Let NL : Num PrimFloat.float := FNum L.
  Existing Instance NL.

  Lemma norm_sq v : norm v * norm v = vx v * vx v + vy v * vy v.
  Proof. unfold norm. apply sqrt_sqrt. nra. Qed.
  Lemma norm_pos v : 0 <= norm v. Proof. apply sqrt_pos. Qed.

  Lemma length2_err v : finite_vec v -> norm (vecR v) <= bpow radix2 400 ->
    apx (length2 v) (norm (vecR v) * norm (vecR v)) (3 * runit * (norm (vecR v) * norm (vecR v)) + 3 * tiny) /\ 0 <= toR (length2 v).
  Proof using.
    intros Fv H. pose proof (norm_sq (vecR v)) as Q.
    assert (D : dot_mag (vecR v) (vecR v) = norm (vecR v) * norm (vecR v)).
    { rewrite Q. unfold dot_mag. rewrite !Rabs_pos_eq by nra. reflexivity. }
    assert (B : dot_mag (vecR v) (vecR v) <= huge / 2).
    { rewrite D. pose proof (norm_pos (vecR v)). apply Rle_trans with (bpow radix2 400 * bpow radix2 400); [apply Rmult_le_compat; lra|].
      rewrite <- bpow_plus. unfold huge. replace (bpow radix2 1000 / 2) with (bpow radix2 999); [apply bpow_le; lia|].
      change 1000%Z with (999 + 1)%Z. rewrite bpow_plus. change (bpow radix2 1) with 2. field. }
    pose proof (dot_err L v v Fv Fv B) as K. rewrite D in K. change (pdot (vecR v) (vecR v)) with (vx (vecR v) * vx (vecR v) + vy (vecR v) * vy (vecR v)) in K. rewrite <- Q in K.
    split; [exact K|]. destruct Fv as [Fx Fy]. destruct (sq_pos _ (finite_nn _ Fx)) as [N1 S1]. destruct (sq_pos _ (finite_nn _ Fy)) as [N2 S2].
    destruct K as [F _]. unfold length2 in *. change (dot v v) with (vx v * vx v + vy v * vy v)%float in F. cbn [nadd nmul NL FNum].
    assert (P : forall z, finite z -> Bsign (Prim2B z) = false -> 0 <= toR z).
    { intros z Fz Sz. unfold toR. destruct (Prim2B z) as [s|s| |s m e Hme]; cbn in *; try lra. subst s. apply F2R_ge_0. cbn. lia. }
    assert (H1 : Rabs (toR (vx v) * toR (vx v)) <= huge /\ Rabs (toR (vy v) * toR (vy v)) <= huge).
    { unfold dot_mag in B. cbn [vecR vx vy] in B. pose proof (Rabs_pos (toR (vx v) * toR (vx v))). pose proof (Rabs_pos (toR (vy v) * toR (vy v))). pose proof huge_pos. lra. }
    destruct (fmul_toR _ _ Fx Fx (proj1 H1)) as [FX _], (fmul_toR _ _ Fy Fy (proj2 H1)) as [FY _].
    pose proof (P _ FX S1) as PX. pose proof (P _ FY S2) as PY.
    assert (M : Rabs (toR (vx v * vx v) + toR (vy v * vy v)) <= huge).
    { pose proof (apx_prod _ _ Fx Fx (proj1 H1)) as A1. pose proof (apx_prod _ _ Fy Fy (proj2 H1)) as A2. apply apx_mag in A1. apply apx_mag in A2.
      eapply Rle_trans; [apply Rabs_triang|]. unfold dot_mag in B. cbn [vecR vx vy] in B.
      pose proof (Rabs_pos (toR (vx v) * toR (vx v))). pose proof (Rabs_pos (toR (vy v) * toR (vy v))).
      pose proof (half_huge (Rabs (toR (vx v) * toR (vx v)) + Rabs (toR (vy v) * toR (vy v))) B ltac:(lra)). lra. }
    destruct (fadd_toR _ _ FX FY M) as [_ ->]. unfold frnd. apply round_ge_generic; try lra; try apply valid_rnd_round_mode; try apply (fexp_correct fprec femax Hprec). apply generic_format_0.
  Qed.
  Lemma length_err v : finite_vec v -> norm (vecR v) <= bpow radix2 400 ->
    apx (vlength v) (norm (vecR v)) (6 * runit * norm (vecR v) + 2 * small_root).
  Proof using HS.
    intros Fv H. destruct (length2_err v Fv H) as [[F K] P]. pose proof (norm_pos (vecR v)) as NP. set (n := norm (vecR v)) in *.
    destruct (HS _ F P) as [F2 K2]. unfold vlength. cbn [nsqrt NL FNum]. split; [exact F2|].
    pose proof runit_small as U1. pose proof runit_pos as U0. pose proof small_root_sq as T1. pose proof tiny_pos as T0.
    assert (SR : 0 < small_root) by apply bpow_gt_0.
    assert (K3 : Rabs (rsqrt (toR (length2 v)) - n) <= 3 * runit * n + small_root).
    { apply sqrt_near; auto; try lra. }
    assert (K4 : rsqrt (toR (length2 v)) <= 2 * n + small_root).
    { apply abs_le2 in K3. assert (runit * n <= / 1048576 * n) by (apply Rmult_le_compat_r; lra). lra. }
    set (r := rsqrt (toR (length2 v))) in *. clearbody r. set (g := toR (fl_sqrt L (length2 v))) in *. clearbody g.
    replace (g - n) with ((g - r) + (r - n)) by ring. eapply Rle_trans; [apply Rabs_triang|].
    assert (K5 : r <= (1 + 3 * runit) * n + small_root) by (apply abs_le2 in K3; lra).
    assert (2 * runit * r <= 2 * runit * ((1 + 3 * runit) * n + small_root)) by (apply Rmult_le_compat_l; lra).
    assert (runit * (runit * n) <= / 1048576 * (runit * n)) by (apply Rmult_le_compat_r; [apply Rmult_le_pos|]; lra).
    assert (runit * small_root <= / 4 * small_root) by (apply Rmult_le_compat_r; lra).
    assert (0 <= runit * n) by (apply Rmult_le_pos; lra). lra.
  Qed.
  (** The relative form for vectors that are not extremely short. *)
  Lemma length_rel v : finite_vec v -> bpow radix2 (-400) <= norm (vecR v) <= bpow radix2 400 ->
    apx (vlength v) (norm (vecR v)) (7 * runit * norm (vecR v)).
  Proof using HS.
    intros Fv [H1 H2]. eapply apx_weak; [apply length_err; auto|].
    assert (2 * small_root <= runit * norm (vecR v)); [|lra].
    apply Rle_trans with (runit * bpow radix2 (-400)); [|apply Rmult_le_compat_l; [pose proof runit_pos; lra|auto]].
    unfold small_root, runit. change 2 with (bpow radix2 1). rewrite <- !bpow_plus. apply bpow_le. lia.
  Qed.

  Lemma coord_norm v : Rabs (vx v) <= norm v /\ Rabs (vy v) <= norm v.
  Proof.
    unfold norm. split; rewrite <- sqrt_Rsqr_abs; apply sqrt_le_1_alt; unfold Rsqr; nra.
  Qed.
  Lemma div_err a b y n : finite a -> Rabs y <= n -> toR a = y -> apx b n (7 * runit * n) -> bpow radix2 (-400) <= n ->
    apx (a / b) (y / n) (10 * runit).
  Proof using.
    intros Fa Hy Va [Fb Hb] Hn. pose proof runit_small as U1. pose proof runit_pos as U0. pose proof tiny_small as T1. pose proof tiny_pos as T0.
    assert (P : 0 < bpow radix2 (-400)) by apply bpow_gt_0. assert (Pn : 0 < n) by lra.
    set (b' := toR b) in *. assert (Hb' := abs_le2 _ _ Hb).
    assert (RB : 7 * runit * n <= / 100000 * n) by (apply Rmult_le_compat_r; lra).
    assert (PB : 0 < b') by lra.
    assert (Q : Rabs (y / b' - y / n) <= 8 * runit).
    { replace (y / b' - y / n) with ((y / n) * ((n - b') / b')) by (field; lra). rewrite Rabs_mult.
      assert (A1 : Rabs (y / n) <= 1).
      { unfold Rdiv. rewrite Rabs_mult, (Rabs_pos_eq (/ n)) by (apply Rlt_le, Rinv_0_lt_compat; auto).
        apply Rmult_le_reg_r with n; auto. rewrite Rmult_assoc, Rinv_l by lra. lra. }
      assert (A2 : Rabs ((n - b') / b') <= 8 * runit).
      { unfold Rdiv. rewrite Rabs_mult, (Rabs_pos_eq (/ b')) by (apply Rlt_le, Rinv_0_lt_compat; auto).
        apply Rmult_le_reg_r with b'; auto. rewrite Rmult_assoc, Rinv_l by lra. rewrite Rmult_1_r, Rabs_minus_sym.
        eapply Rle_trans; [exact Hb|]. assert (7 * n <= 8 * b') by lra. replace (7 * runit * n) with (runit * (7 * n)) by ring.
        replace (8 * runit * b') with (runit * (8 * b')) by ring. apply Rmult_le_compat_l; lra. }
      apply Rle_trans with (1 * (8 * runit)); [|lra]. apply Rmult_le_compat; auto; apply Rabs_pos. }
    assert (A : Rabs (y / n) <= 1).
    { unfold Rdiv. rewrite Rabs_mult, (Rabs_pos_eq (/ n)) by (apply Rlt_le, Rinv_0_lt_compat; auto).
      apply Rmult_le_reg_r with n; auto. rewrite Rmult_assoc, Rinv_l by lra. lra. }
    assert (A' : Rabs (y / b') <= 1 + 8 * runit).
    { replace (y / b') with (y / n + (y / b' - y / n)) by ring. eapply Rle_trans; [apply Rabs_triang|]. lra. }
    destruct (fdiv_toR a b Fa) as [F V]; [fold b'; lra| |].
    { rewrite Va. fold b'. assert (2 <= huge) by (unfold huge; change 2 with (bpow radix2 1); apply bpow_le; lia). lra. }
    split; auto. rewrite V, Va. fold b'. pose proof (frnd_err (y / b')) as R.
    replace (frnd (y / b') - y / n) with ((frnd (y / b') - y / b') + (y / b' - y / n)) by ring. eapply Rle_trans; [apply Rabs_triang|].
    assert (runit * Rabs (y / b') <= runit * (1 + 8 * runit)) by (apply Rmult_le_compat_l; lra).
    assert (tiny <= / 4 * runit). { unfold tiny, runit. replace (/ 4) with (bpow radix2 (-2)) by (cbn; lra). rewrite <- bpow_plus. apply bpow_le. lia. }
    nra.
  Qed.
  (** The unit vector of the ideal direction. *)
  Definition punit (v : pt) : pt := pscale (/ norm v) v.
  Definition near_vec (w : vec PrimFloat.float) (p : pt) (d : R) : Prop := apx (vx w) (vx p) d /\ apx (vy w) (vy p) d.
  Lemma normalized_err (E : PrimFloat.float) v : finite_vec v -> bpow radix2 (-400) <= norm (vecR v) <= bpow radix2 400 ->
    PrimFloat.ltb E (vlength v) = true -> exists w, normalized E v = Ok w /\ near_vec w (punit (vecR v)) (10 * runit).
  Proof using HS.
    intros Fv Hn HE. pose proof (length_rel v Fv Hn) as K. destruct (coord_norm (vecR v)) as [C1 C2]. destruct Fv as [Fx Fy].
    assert (P : 0 < bpow radix2 (-400)) by apply bpow_gt_0.
    assert (NZ : PrimFloat.eqb (vlength v) 0 = false).
    { destruct K as [F K]. rewrite toR_eq by (auto; reflexivity). rewrite toR_0. unfold Reqb. destruct (Req_EM_T (toR (vlength v)) 0) as [e|]; auto.
      exfalso. rewrite e in K. rewrite Rminus_0_l, Rabs_Ropp, Rabs_pos_eq in K by lra. pose proof runit_small. nra. }
    exists (mkV (vx v / vlength v) (vy v / vlength v))%float. unfold normalized, pydiv. cbn [nltb neqb ndiv NL FNum]. rewrite HE.
    change (@n0 _ NL) with 0%float. rewrite NZ. cbn [bind]. split; [reflexivity|].
    unfold near_vec, punit, pscale. cbn [vx vy]. split.
    - eapply apx_eq; [apply (div_err _ _ _ _ Fx C1 eq_refl K); lra|]. unfold Rdiv. apply Rmult_comm.
    - eapply apx_eq; [apply (div_err _ _ _ _ Fy C2 eq_refl K); lra|]. unfold Rdiv. apply Rmult_comm.
  Qed.
End Lines.
