(** * Bounding boxes on doubles: lemmas *)
From Coq Require Import ZArith List Bool Reals Lra Lia Psatz Floats.
From Flocq Require Import Core Relative Plus_error IEEE754.PrimFloat IEEE754.BinarySingleNaN.
From Verif Require Import Num NumFloat Vec Affine Box BoxPoly OrdLaws SpecGeom SpecBox RBase BoxFacts FloatFacts FloatFacts2 FloatVec SpecExact FloatExact FloatErr FloatErr2 FloatErr4 FloatErr5 SpecBoxF.
Import ListNotations.
Local Open Scope R_scope.

Lemma frnd_le x y : x <= y -> frnd x <= frnd y.
Proof. apply round_le; [apply (fexp_correct fprec femax Hprec)|apply valid_rnd_round_mode]. Qed.
Lemma frnd_id x : ffmt x -> frnd x = x.
Proof. apply round_generic. apply valid_rnd_round_mode. Qed.
Lemma frnd_0 : frnd 0 = 0.
Proof. apply frnd_id. apply generic_format_0. Qed.
Lemma ffmt_double x : ffmt x -> ffmt (2 * x).
Proof.
  intro H. change (SpecFloat.fexp fprec femax) with (FLT_exp (-1074) 53) in *. apply FLT_format_generic in H; [|reflexivity].
  destruct H as [[m e] Hx Hm He]. apply generic_format_FLT. exists (Float radix2 m (e + 1)); cbn [Fnum Fexp] in *; [|exact Hm|lia].
  rewrite Hx. unfold F2R. cbn [Fnum Fexp]. rewrite bpow_plus. change (bpow radix2 1) with 2. ring.
Qed.
Lemma frnd_diff_0 x y : ffmt x -> ffmt y -> frnd (x - y) = 0 -> x = y.
Proof.
  intros Fx Fy H. pose proof (frnd_add_err x (- y) Fx ltac:(apply generic_format_opp; auto)) as K. change (x + - y) with (x - y) in K. rewrite H in K.
  rewrite Rminus_0_l, Rabs_Ropp in K. pose proof (Rabs_pos (x - y)). pose proof runit_small. pose proof runit_pos.
  assert (Rabs (x - y) = 0) by nra. destruct (Req_dec (x - y) 0); [lra|]. pose proof (Rabs_pos_lt _ H4). lra.
Qed.
Lemma frnd_lo x y : ffmt x -> x <= y -> x <= frnd y.
Proof. intros F H. rewrite <- (frnd_id x F). apply frnd_le; auto. Qed.
Lemma frnd_hi x y : ffmt x -> y <= x -> frnd y <= x.
Proof. intros F H. rewrite <- (frnd_id x F). apply frnd_le; auto. Qed.
Lemma frnd_pos x : 0 <= x -> 0 <= frnd x.
Proof. intro H. apply frnd_lo; auto. apply generic_format_0. Qed.

Lemma toR_2 : toR 2 = 2.
Proof. destruct (float_of_Z_exact 2 ltac:(cbn; lia)) as [_ H]. exact H. Qed.
Lemma toR_half : toR 0.5 = / 2.
Proof.
  vm_compute. lra.
Qed.

Lemma within_coords M v : within M v <-> coord M (vx v) /\ coord M (vy v).
Proof. unfold within, coord, finite_vec. tauto. Qed.

(** The coordinates that the methods compute, one at a time. *)
Lemma mid_coord a b M : M <= huge / 2 -> coord M a -> coord M b -> toR a <= toR b ->
  finite ((a + b) / 2) /\ toR a <= toR ((a + b) / 2) <= toR b /\
  Rabs (toR ((a + b) / 2) - (toR a + toR b) / 2) <= 3 * runit * Rabs ((toR a + toR b) / 2) + tiny.
Proof.
  intros HM [Fa Ma] [Fb Mb] Hab. pose proof huge_pos as HP. pose proof (toR_format a) as Ga. pose proof (toR_format b) as Gb.
  assert (S0 : Rabs (toR a + toR b) <= huge) by (eapply Rle_trans; [apply Rabs_triang|lra]).
  destruct (fadd_toR a b Fa Fb S0) as [Fs Es].
  assert (L1 : 2 * toR a <= toR (a + b)) by (rewrite Es; apply frnd_lo; [apply ffmt_double; auto|lra]).
  assert (L2 : toR (a + b) <= 2 * toR b) by (rewrite Es; apply frnd_hi; [apply ffmt_double; auto|lra]).
  assert (N2 : toR 2 <> 0) by (rewrite toR_2; lra).
  assert (Q : Rabs (toR (a + b)%float / toR 2) <= huge).
  { rewrite toR_2. apply Rabs_le. apply abs_le2 in Ma. apply abs_le2 in Mb. lra. }
  destruct (fdiv_toR (a + b) 2 Fs N2 Q) as [Fc Ec]. rewrite toR_2 in Ec. split; [exact Fc|]. rewrite Ec. split.
  - split; [apply frnd_lo|apply frnd_hi]; auto; lra.
  - pose proof (frnd_err (toR (a + b) / 2)) as E1. pose proof (frnd_add_err _ _ Ga Gb) as E2. rewrite <- Es in E2.
    set (s := toR (a + b)) in *. set (t := toR a + toR b) in *. pose proof runit_pos. pose proof runit_small. pose proof tiny_pos.
    replace (frnd (s / 2) - t / 2) with ((frnd (s / 2) - s / 2) + (s - t) / 2) by field.
    assert (B1 : Rabs ((s - t) / 2) <= runit * Rabs (t / 2)).
    { unfold Rdiv. rewrite (Rabs_mult (s - t)), (Rabs_mult t). rewrite <- Rmult_assoc. apply Rmult_le_compat_r; [apply Rabs_pos|auto]. }
    assert (B2 : Rabs (s / 2) <= (1 + runit) * Rabs (t / 2)).
    { replace (s / 2) with ((s - t) / 2 + t / 2) by field. eapply Rle_trans; [apply Rabs_triang|]. lra. }
    eapply Rle_trans; [apply Rabs_triang|]. pose proof (Rabs_pos (t / 2)) as P1.
    assert (runit * Rabs (s / 2) <= runit * ((1 + runit) * Rabs (t / 2))) by (apply Rmult_le_compat_l; lra).
    assert (runit * Rabs (t / 2) * runit <= runit * Rabs (t / 2) * 1) by (apply Rmult_le_compat_l; [apply Rmult_le_pos|]; lra).
    lra.
Qed.

Lemma add_coord a h M : M <= huge / 2 -> coord M a -> coord M h ->
  finite (a + h) /\ toR (a + h) = frnd (toR a + toR h) /\ Rabs (toR (a + h) - (toR a + toR h)) <= runit * Rabs (toR a + toR h).
Proof.
  intros HM [Fa Ma] [Fh Mh].
  assert (S0 : Rabs (toR a + toR h) <= huge) by (eapply Rle_trans; [apply Rabs_triang|lra]).
  destruct (fadd_toR a h Fa Fh S0) as [Fs Es]. split; [|split]; auto. rewrite Es. apply frnd_add_err; apply toR_format.
Qed.
Lemma sub_coord a h M : M <= huge / 2 -> coord M a -> coord M h ->
  finite (a - h) /\ toR (a - h) = frnd (toR a - toR h) /\ Rabs (toR (a - h) - (toR a - toR h)) <= runit * Rabs (toR a - toR h).
Proof.
  intros HM [Fa Ma] [Fh Mh].
  assert (S0 : Rabs (toR a - toR h) <= huge) by (unfold Rminus; eapply Rle_trans; [apply Rabs_triang|rewrite Rabs_Ropp; lra]).
  destruct (fsub_toR a h Fa Fh S0) as [Fs Es]. split; [|split]; auto. rewrite Es. unfold Rminus. apply frnd_add_err; [apply toR_format|apply generic_format_opp, toR_format].
Qed.
Lemma half_coord w M : M <= huge / 2 -> coord M w -> coord M (w / 2) /\ toR (w / 2) = frnd (toR w / 2).
Proof.
  intros HM [Fw Mw]. pose proof huge_pos. assert (N2 : toR 2 <> 0) by (rewrite toR_2; lra).
  assert (A : Rabs (toR w / 2) <= Rabs (toR w)).
  { unfold Rdiv. rewrite Rabs_mult, (Rabs_pos_eq (/ 2)) by lra. pose proof (Rabs_pos (toR w)). lra. }
  destruct (fdiv_toR w 2 Fw N2) as [Fc Ec]; [rewrite toR_2; lra|]. rewrite toR_2 in Ec. split; auto. split; auto. rewrite Ec.
  apply Rle_trans with (Rabs (toR w)); auto. apply abs_round_le_generic; [apply (fexp_correct fprec femax Hprec)|apply valid_rnd_round_mode| |exact A].
  apply generic_format_abs, toR_format.
Qed.
Lemma half_coord' w M : M <= huge / 2 -> coord M w -> coord M (w * 0.5) /\ toR (w * 0.5) = frnd (toR w / 2).
Proof.
  intros HM [Fw Mw]. pose proof huge_pos.
  assert (A : Rabs (toR w / 2) <= Rabs (toR w)).
  { unfold Rdiv. rewrite Rabs_mult, (Rabs_pos_eq (/ 2)) by lra. pose proof (Rabs_pos (toR w)). lra. }
  destruct (fmul_toR w 0.5 Fw eq_refl) as [Fc Ec]; [rewrite toR_half; fold (toR w / 2); lra|]. rewrite toR_half in Ec. fold (toR w / 2) in Ec. split; auto. split; auto. rewrite Ec.
  apply Rle_trans with (Rabs (toR w)); auto. apply abs_round_le_generic; [apply (fexp_correct fprec femax Hprec)|apply valid_rnd_round_mode| |exact A].
  apply generic_format_abs, toR_format.
Qed.

(** One coordinate of the image of a point under an axis-parallel transform. *)
Lemma axis_coord x y a d c M K : coord M x -> coord M y -> coord K a -> coord K d -> coord K c -> toR d = 0 -> 2 * (M * K) + K <= huge / 2 ->
  (finite (x * a + y * d + c) /\ toR (x * a + y * d + c) = frnd (frnd (toR x * toR a) + toR c)) /\
  (finite (y * d + x * a + c) /\ toR (y * d + x * a + c) = frnd (frnd (toR x * toR a) + toR c)).
Proof.
  intros [Fx Mx] [Fy My] [Fa Ma] [Fd Md] [Fc Mc] D H. pose proof huge_pos as HP. pose proof runit_small. pose proof runit_pos.
  assert (T0 : tiny <= huge / 4).
  { unfold tiny, huge. change 1000%Z with (2 + 998)%Z. rewrite bpow_plus. change (bpow radix2 2) with 4. pose proof (bpow_le radix2 (-1075) 998 ltac:(lia)). lra. }
  assert (M0 : 0 <= M) by (pose proof (Rabs_pos (toR x)); lra). assert (K0 : 0 <= K) by (pose proof (Rabs_pos (toR a)); lra).
  assert (P1 : Rabs (toR x * toR a) <= M * K) by (rewrite Rabs_mult; apply Rmult_le_compat; auto; apply Rabs_pos).
  assert (MK : 0 <= M * K) by (apply Rmult_le_pos; auto).
  assert (Q1 : Rabs (frnd (toR x * toR a)) <= 2 * (M * K) + tiny).
  { pose proof (frnd_err (toR x * toR a)) as E. replace (frnd (toR x * toR a)) with ((frnd (toR x * toR a) - toR x * toR a) + toR x * toR a) by ring.
    eapply Rle_trans; [apply Rabs_triang|]. pose proof (Rabs_pos (toR x * toR a)). nra. }
  destruct (fmul_toR x a Fx Fa) as [F1 E1]; [lra|].
  destruct (fmul_toR y d Fy Fd) as [F2 E2]; [rewrite D, Rmult_0_r, Rabs_R0; lra|]. rewrite D, Rmult_0_r, frnd_0 in E2.
  assert (G : frnd (toR (x * a)) = toR (x * a)) by apply frnd_id, toR_format. rewrite <- E1 in Q1.
  split.
  - destruct (fadd_toR (x * a) (y * d) F1 F2) as [F3 E3]; [rewrite E2, Rplus_0_r; lra|]. rewrite E2, Rplus_0_r, G in E3.
    destruct (fadd_toR (x * a + y * d) c F3 Fc) as [F4 E4]; [eapply Rle_trans; [apply Rabs_triang|]; rewrite E3; lra|].
    split; auto. rewrite E4, E3, E1. reflexivity.
  - destruct (fadd_toR (y * d) (x * a) F2 F1) as [F3 E3]; [rewrite E2, Rplus_0_l; lra|]. rewrite E2, Rplus_0_l, G in E3.
    destruct (fadd_toR (y * d + x * a) c F3 Fc) as [F4 E4]; [eapply Rle_trans; [apply Rabs_triang|]; rewrite E3; lra|].
    split; auto. rewrite E4, E3, E1. reflexivity.
Qed.
Lemma affine_between a c x0 x x1 : x0 <= x <= x1 ->
  Rmin (frnd (frnd (x0 * a) + c)) (frnd (frnd (x1 * a) + c)) <= frnd (frnd (x * a) + c) <= Rmax (frnd (frnd (x0 * a) + c)) (frnd (frnd (x1 * a) + c)).
Proof.
  intros H. destruct (Rle_or_lt 0 a) as [Ha|Ha].
  - split; [apply Rle_trans with (1 := Rmin_l _ _)|apply Rle_trans with (2 := Rmax_r _ _)]; apply frnd_le, Rplus_le_compat_r, frnd_le; nra.
  - split; [apply Rle_trans with (1 := Rmin_r _ _)|apply Rle_trans with (2 := Rmax_l _ _)]; apply frnd_le, Rplus_le_compat_r, frnd_le; nra.
Qed.
Lemma between_mag lo x hi M : Rabs lo <= M -> Rabs hi <= M -> lo <= x <= hi -> Rabs x <= M.
Proof. intros H1 H2 H3. apply abs_le2 in H1. apply abs_le2 in H2. apply Rabs_le. lra. Qed.

Lemma room_tiny M : room M -> tiny <= runit * M / 16 /\ 0 < M <= huge / 64 /\ 16 * M * bpow radix2 601 <= huge /\ M * tiny <= runit * M / 16.
Proof.
  intros [H1 H2]. pose proof runit_pos. pose proof tiny_pos. pose proof (bpow_gt_0 radix2 (-400)).
  assert (T1 : 16 * tiny <= runit * bpow radix2 (-400)).
  { unfold tiny, runit. change 16 with (bpow radix2 4). rewrite <- !bpow_plus. apply bpow_le. lia. }
  assert (T2 : bpow radix2 395 * 64 <= huge).
  { unfold huge. change 64 with (bpow radix2 6). rewrite <- bpow_plus. apply bpow_le. lia. }
  assert (T3 : bpow radix2 4 * bpow radix2 395 * bpow radix2 601 <= huge).
  { unfold huge. rewrite <- !bpow_plus. apply bpow_le. lia. }
  change (bpow radix2 4) with 16 in T3. pose proof (bpow_gt_0 radix2 601).
  assert (T4 : tiny * 16 <= runit). { unfold tiny, runit. change 16 with (bpow radix2 4). rewrite <- !bpow_plus. apply bpow_le. lia. }
  split; [|split; [|split]]; try nra.
Qed.
(** One coordinate of [fit]. *)
Lemma fit_coord a b sw s M : room M -> coord M a -> coord M b -> toR a <= toR b -> coord (3 * M) sw -> bpow radix2 (-601) <= toR sw ->
  finite s -> 0 <= toR s <= toR ((b - a) / sw) ->
  let c := ((a + b) / 2)%float in let h := (sw * s * 0.5)%float in
  finite (c - h) /\ finite (c + h) /\ toR a - 16 * runit * M <= toR (c - h) /\ toR (c - h) <= toR (c + h) /\ toR (c + h) <= toR b + 16 * runit * M.
Proof.
  intros HR Ca Cb Hab [Fsw Msw] Lsw Fs Hs c h. assert (LM : forall k x y, 0 <= k -> x <= y -> k * x <= k * y) by (intros; apply Rmult_le_compat_l; auto). destruct (room_tiny M HR) as (T1 & T2 & T3 & T4).
  pose proof runit_pos as U0. pose proof runit_small as U1. pose proof tiny_pos as U2. pose proof huge_pos as HP.
  assert (HM : M <= huge / 2) by lra.
  destruct (mid_coord a b M HM Ca Cb Hab) as (Fc & Ic & Ec). fold c in Fc, Ic, Ec.
  destruct (sub_coord b a M HM Cb Ca) as (Fw & Rw & Ew).
  destruct Ca as [Fa Ma], Cb as [Fb Mb]. apply abs_le2 in Ma. apply abs_le2 in Mb.
  set (W := toR b - toR a) in *. assert (W0 : 0 <= W <= 2 * M) by (unfold W; lra).
  assert (W1 : 0 <= toR (b - a) <= W + runit * W).
  { split; [rewrite Rw; apply frnd_pos; lra|]. rewrite (Rabs_pos_eq W) in Ew by lra. apply abs_le2 in Ew. lra. }
  assert (UM0 : 0 <= runit * M) by (apply Rmult_le_pos; lra). assert (UMM : runit * M <= M / 1048576) by (pose proof (Rmult_le_compat_r M _ _ (Rlt_le _ _ (proj1 T2)) U1); lra).
  assert (UW : runit * W <= 2 * (runit * M)) by (pose proof (LM runit W (2 * M) ltac:(lra) ltac:(lra)); lra).
  assert (P601 : 0 < bpow radix2 (-601)) by apply bpow_gt_0.
  assert (S0 : 0 < toR sw) by lra. assert (S3 : toR sw <= 3 * M) by (apply abs_le2 in Msw; lra).
  assert (IV : / toR sw <= bpow radix2 601).
  { change (bpow radix2 601) with (bpow radix2 (- (-601))). rewrite bpow_opp. apply Rinv_le; auto. }
  assert (IP : 0 < / toR sw) by (apply Rinv_0_lt_compat; auto).
  assert (Q0 : 0 <= toR (b - a) / toR sw) by (unfold Rdiv; apply Rmult_le_pos; lra).
  assert (Q1 : Rabs (toR (b - a)%float / toR sw) <= huge).
  { rewrite Rabs_pos_eq by auto. unfold Rdiv. apply Rle_trans with (3 * M * bpow radix2 601); [apply Rmult_le_compat; lra|]. pose proof (bpow_gt_0 radix2 601) as P6. pose proof (Rmult_lt_0_compat _ _ (proj1 T2) P6). lra. }
  assert (NZ : toR sw <> 0) by lra.
  destruct (fdiv_toR (b - a) sw Fw NZ Q1) as [Fq Eq]. pose proof (frnd_err (toR (b - a) / toR sw)) as E1. rewrite <- Eq in E1.
  rewrite (Rabs_pos_eq (toR (b - a) / toR sw)) in E1 by auto. apply abs_le2 in E1.
  set (q := toR ((b - a) / sw)) in *.
  assert (B1 : toR sw * q <= toR (b - a) + runit * toR (b - a) + toR sw * tiny).
  { replace (toR (b - a)) with (toR sw * (toR (b - a) / toR sw)) by (field; auto).
    replace (toR sw * (toR (b - a) / toR sw) + runit * (toR sw * (toR (b - a) / toR sw)) + toR sw * tiny) with (toR sw * (toR (b - a) / toR sw + (runit * (toR (b - a) / toR sw) + tiny))) by ring.
    apply Rmult_le_compat_l; lra. }
  assert (UU : runit * (runit * W) <= runit * M / 16) by (pose proof (LM runit (runit * W) (M / 16) ltac:(lra) ltac:(lra)); lra).
  assert (UB : runit * toR (b - a) <= runit * W + runit * (runit * W)) by (pose proof (LM runit (toR (b - a)) (W + runit * W) ltac:(lra) ltac:(lra)); lra).
  assert (UT : toR sw * tiny <= 3 * (M * tiny)) by (pose proof (Rmult_le_compat_r tiny (toR sw) (3 * M) ltac:(lra) ltac:(lra)); lra).
  assert (B1' : toR sw * q <= W + 2 * runit * W + runit * M / 16 + 3 * (runit * M / 16)) by lra.
  assert (B2 : 0 <= toR sw * toR s <= toR sw * q) by (split; [apply Rmult_le_pos|apply Rmult_le_compat_l]; lra).
  assert (B3 : toR sw * toR s <= W + 2 * runit * W + runit * M / 4) by lra.
  destruct (fmul_toR sw s Fsw Fs) as [Fp Ep]; [rewrite Rabs_pos_eq by lra; lra|].
  pose proof (frnd_err (toR sw * toR s)) as E2. rewrite <- Ep in E2. rewrite (Rabs_pos_eq (toR sw * toR s)) in E2 by lra. apply abs_le2 in E2.
  assert (P0 : 0 <= toR (sw * s)) by (rewrite Ep; apply frnd_pos; lra).
  assert (UP : runit * (toR sw * toR s) <= runit * W + runit * M / 16) by (pose proof (LM runit (toR sw * toR s) (W + M / 16) ltac:(lra) ltac:(lra)); lra).
  assert (B4 : toR (sw * s) <= W + 3 * runit * W + runit * M / 2) by lra.
  assert (CP : coord (huge / 4) (sw * s)) by (split; auto; rewrite Rabs_pos_eq by auto; lra).
  destruct (half_coord' (sw * s) (huge / 4) ltac:(lra) CP) as ([Fh Mh] & Eh). fold h in Fh, Mh, Eh.
  pose proof (frnd_err (toR (sw * s) / 2)) as E3. rewrite <- Eh in E3. rewrite (Rabs_pos_eq (toR (sw * s) / 2)) in E3 by lra. apply abs_le2 in E3.
  assert (H0 : 0 <= toR h) by (rewrite Eh; apply frnd_pos; lra).
  assert (UQ : runit * toR (sw * s) <= runit * W + runit * M / 16) by (pose proof (LM runit (toR (sw * s)) (W + M / 16) ltac:(lra) ltac:(lra)); lra).
  assert (B5 : toR h <= W / 2 + 2 * runit * W + runit * M / 2) by lra.
  assert (CC : coord (huge / 4) c) by (split; auto; apply Rabs_le; lra).
  destruct (add_coord c h (huge / 4) ltac:(lra) CC (conj Fh Mh)) as (F1 & R1 & E4).
  destruct (sub_coord c h (huge / 4) ltac:(lra) CC (conj Fh Mh)) as (F2 & R2 & E5).
  assert (ME : Rabs ((toR a + toR b) / 2) <= M) by (apply Rabs_le; lra).
  assert (UE : runit * Rabs ((toR a + toR b) / 2) <= runit * M) by (apply LM; lra).
  apply abs_le2 in Ec. apply abs_le2 in E4. apply abs_le2 in E5.
  assert (A1 : Rabs (toR c + toR h) <= 3 * M) by (apply Rabs_le; lra). assert (A2 : Rabs (toR c - toR h) <= 3 * M) by (apply Rabs_le; lra).
  assert (V1 : runit * Rabs (toR c + toR h) <= 3 * (runit * M)) by (pose proof (LM runit (Rabs (toR c + toR h)) (3 * M) ltac:(lra) ltac:(lra)); lra). assert (V2 : runit * Rabs (toR c - toR h) <= 3 * (runit * M)) by (pose proof (LM runit (Rabs (toR c - toR h)) (3 * M) ltac:(lra) ltac:(lra)); lra).
  unfold W in *. split; [|split; [|split; [|split]]]; auto; try lra.
  rewrite R1, R2. apply frnd_le. lra.
Qed.

Section B.
  Variable L : FloatLib.
  Let NL : Num PrimFloat.float := FNum L.
  Existing Instance NL.

  Lemma n1_float : @n1 _ NL = 1%float. Proof. reflexivity. Qed.
  Lemma n2_float : @n2 _ NL = 2%float. Proof. reflexivity. Qed.
  Lemma div2_ok (x : PrimFloat.float) : pydiv x n2 = Ok (x / 2)%float.
  Proof. reflexivity. Qed.

  Lemma two_points (p q : vec PrimFloat.float) : finite_vec p -> finite_vec q ->
    exists r, box_from_points [p; q] = Ok r /\ finite_vec (bmin r) /\ finite_vec (bmax r) /\
      toR (vx (bmin r)) = Rmin (toR (vx p)) (toR (vx q)) /\ toR (vx (bmax r)) = Rmax (toR (vx p)) (toR (vx q)) /\
      toR (vy (bmin r)) = Rmin (toR (vy p)) (toR (vy q)) /\ toR (vy (bmax r)) = Rmax (toR (vy p)) (toR (vy q)).
  Proof.
    destruct p as [px py], q as [qx qy]. intros [F1 F2] [F3 F4]. cbn [vx vy] in *. unfold box_from_points. cbn [fold_left]. unfold minmax_step. cbn [vx vy].
    cbn [nltb nmul NL FNum]. rewrite n1_float, !fmul1. rewrite !(toR_lt qx px), !(toR_lt px qx), !(toR_lt qy py), !(toR_lt py qy) by auto.
    unfold Rltb, Rmin, Rmax.
    destruct (Rlt_dec (toR qx) (toR px)), (Rlt_dec (toR px) (toR qx)), (Rlt_dec (toR qy) (toR py)), (Rlt_dec (toR py) (toR qy)); try lra;
      (eexists; split; [reflexivity|]); unfold vec2; cbn [nmul NL FNum bmin bmax vx vy]; rewrite n1_float, !fmul1; unfold finite_vec; cbn [vx vy];
      (split; [auto|split; [auto|]]); repeat match goal with |- context [Rle_dec ?a ?b] => destruct (Rle_dec a b) end; repeat split; lra.
  Qed.
End B.

(** Sign of the determinant that compares a point with a vertical edge. *)
Lemma side_vert x y0 y1 px py M : M <= bpow radix2 395 -> coord M x -> coord M y0 -> coord M y1 -> coord M px -> coord M py -> toR y0 < toR y1 ->
  (toR px = toR x \/ bpow radix2 (-1000) <= Rabs (toR px - toR x) * (toR y1 - toR y0)) ->
  PrimFloat.ltb 0 ((x - x) * (py - y0) - (px - x) * (y1 - y0)) = Rltb (toR px) (toR x).
Proof.
  intros HM Cx C0 C1 Cpx Cpy HY HO. pose proof runit_pos as U0. pose proof runit_small as U1. pose proof huge_pos as HP.
  assert (M0 : 0 <= M) by (destruct Cx as [_ Mx]; pose proof (Rabs_pos (toR x)); lra).
  assert (MM : 16 * (M * M) <= huge).
  { apply Rle_trans with (bpow radix2 4 * (bpow radix2 395 * bpow radix2 395)); [|unfold huge; rewrite <- !bpow_plus; apply bpow_le; lia].
    change (bpow radix2 4) with 16. apply Rmult_le_compat_l; [lra|]. apply Rmult_le_compat; auto. }
  assert (MH : M <= huge / 16).
  { apply Rle_trans with (1 := HM). unfold huge. replace (bpow radix2 1000) with (bpow radix2 4 * bpow radix2 996) by (rewrite <- bpow_plus; reflexivity). change (bpow radix2 4) with 16.
    pose proof (bpow_le radix2 395 996 ltac:(lia)). lra. }
  destruct (sub_coord x x M ltac:(lra) Cx Cx) as (F1 & R1 & _). rewrite Rminus_diag_eq, frnd_0 in R1 by auto.
  destruct (sub_coord py y0 M ltac:(lra) Cpy C0) as (F2 & R2 & _).
  destruct (sub_coord px x M ltac:(lra) Cpx Cx) as (F3 & R3 & E3). destruct (sub_coord y1 y0 M ltac:(lra) C1 C0) as (F4 & R4 & E4).
  destruct Cx as [Fx Mx], C0 as [Fy0 My0], C1 as [Fy1 My1], Cpx as [Fpx Mpx], Cpy as [Fpy Mpy].
  apply abs_le2 in Mx. apply abs_le2 in My0. apply abs_le2 in My1. apply abs_le2 in Mpx. apply abs_le2 in Mpy.
  destruct (fmul_toR (x - x) (py - y0) F1 F2) as [F5 E5]; [rewrite R1, Rmult_0_l, Rabs_R0; lra|]. rewrite R1, Rmult_0_l, frnd_0 in E5.
  rewrite (Rabs_pos_eq (toR y1 - toR y0)) in E4 by lra. apply abs_le2 in E4.
  set (e := toR (y1 - y0)) in *. set (d := toR (px - x)) in *. set (D := toR px - toR x) in *. set (H := toR y1 - toR y0) in *.
  assert (H0 : 0 < H <= 2 * M) by (unfold H; lra).
  assert (K1 : runit * H <= / 4 * H) by (apply Rmult_le_compat_r; lra). assert (B1 : / 2 * H <= e <= 3 * M) by lra.
  assert (D0 : Rabs D <= 2 * M) by (apply Rabs_le; unfold D; lra).
  assert (K2 : runit * Rabs D <= / 4 * Rabs D) by (apply Rmult_le_compat_r; [apply Rabs_pos|lra]).
  assert (K3 : Rabs d <= 3 * M). { replace d with ((d - D) + D) by ring. eapply Rle_trans; [apply Rabs_triang|]. pose proof (Rabs_pos D). lra. }
  destruct (fmul_toR (px - x) (y1 - y0) F3 F4) as [F6 E6].
  { fold d e. rewrite Rabs_mult, (Rabs_pos_eq e) by lra. apply Rle_trans with (3 * M * (3 * M)); [apply Rmult_le_compat; try lra; apply Rabs_pos|]. pose proof (Rmult_le_pos _ _ M0 M0). lra. }
  fold d e in E6.
  assert (FM : ffmt (bpow radix2 (-1002))) by (apply generic_format_bpow; cbv; discriminate).
  assert (PB : 4 * bpow radix2 (-1002) = bpow radix2 (-1000)) by (change (-1000)%Z with (2 + -1002)%Z; rewrite bpow_plus; reflexivity).
  pose proof (bpow_gt_0 radix2 (-1002)) as P2.
  assert (SG : (D < 0 -> toR ((px - x) * (y1 - y0)) < 0) /\ (0 <= D -> 0 <= toR ((px - x) * (y1 - y0)))).
  { rewrite E6. split; intro HD.
    - assert (LO : bpow radix2 (-1000) <= Rabs D * H) by (destruct HO as [HO|HO]; [unfold D in HD; lra|exact HO]).
      rewrite (Rabs_left D) in LO, K2, E3 by lra. apply abs_le2 in E3.
      assert (d * e <= - bpow radix2 (-1002)).
      { assert (/ 2 * - D * (/ 2 * H) <= - d * e) by (apply Rmult_le_compat; lra). lra. }
      apply Rle_lt_trans with (- bpow radix2 (-1002)); [|lra]. apply frnd_hi; auto. apply generic_format_opp; auto.
    - apply frnd_pos. apply Rmult_le_pos; [|lra]. rewrite (Rabs_pos_eq D) in E3, K2 by lra. apply abs_le2 in E3. lra. }
  assert (MP : Rabs (toR ((px - x) * (y1 - y0))) <= huge).
  { rewrite E6. apply abs_round_le_generic; [apply (fexp_correct fprec femax Hprec)|apply valid_rnd_round_mode|apply generic_format_bpow; cbv; discriminate|].
    rewrite Rabs_mult, (Rabs_pos_eq e) by lra. apply Rle_trans with (3 * M * (3 * M)); [apply Rmult_le_compat; try lra; apply Rabs_pos|]. pose proof (Rmult_le_pos _ _ M0 M0). fold huge. lra. }
  destruct (fsub_toR ((x - x) * (py - y0)) ((px - x) * (y1 - y0)) F5 F6) as [F7 E7]; [rewrite E5, Rminus_0_l, Rabs_Ropp; exact MP|].
  rewrite E5, Rminus_0_l, frnd_id in E7 by (apply generic_format_opp, toR_format).
  rewrite toR_lt by (auto; reflexivity). rewrite E7, toR_0. destruct SG as [G1 G2]. unfold Rltb.
  destruct (Rlt_dec (toR px) (toR x)) as [HX|HX]; destruct (Rlt_dec 0 (- toR ((px - x) * (y1 - y0)))) as [HZ|HZ]; auto; unfold D in *.
  - assert (toR px - toR x < 0) as G by lra. apply G1 in G. lra.
  - assert (0 <= toR px - toR x) as G by lra. apply G2 in G. lra.
Qed.
