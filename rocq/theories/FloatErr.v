(** * Rounding errors of arithmetic on doubles

    [apx f x d]: the double [f] is finite and within [d] of the real [x]. *)
From Coq Require Import ZArith List Bool Reals Lra Lia Psatz Floats SpecFloat.
From Flocq Require Import Core Relative Plus_error IEEE754.PrimFloat IEEE754.BinarySingleNaN.
From Verif Require Import Num NumFloat OrdLaws FloatFacts FloatFacts2 SpecExact FloatExact.
Local Open Scope R_scope.

(** Half an ulp of 1, and half the smallest positive double. *)
Definition runit : R := bpow radix2 (-53).
Definition tiny : R := bpow radix2 (-1075).
Definition huge : R := bpow radix2 1000.

Lemma runit_pos : 0 < runit. Proof. apply bpow_gt_0. Qed.
Lemma tiny_pos : 0 < tiny. Proof. apply bpow_gt_0. Qed.
Lemma huge_pos : 0 < huge. Proof. apply bpow_gt_0. Qed.
Lemma runit_small : runit <= / 1048576.
Proof. unfold runit. replace (/ 1048576) with (bpow radix2 (-20)) by (cbn; lra). apply bpow_le. lia. Qed.
Lemma runit_half : / 2 * bpow radix2 (-53 + 1) = runit.
Proof. unfold runit. replace (-53 + 1)%Z with (1 + -53)%Z by lia. rewrite bpow_plus. change (bpow radix2 1) with 2. field. Qed.
Lemma tiny_half : / 2 * bpow radix2 (-1074) = tiny.
Proof. unfold tiny. change (-1074)%Z with (1 + -1075)%Z. rewrite bpow_plus. change (bpow radix2 1) with 2. field. Qed.
Lemma tiny_small : tiny <= runit.
Proof. unfold tiny, runit. apply bpow_le. lia. Qed.

Definition frnd (x : R) : R := round radix2 (SpecFloat.fexp fprec femax) (round_mode mode_NE) x.

Lemma frnd_err x : Rabs (frnd x - x) <= runit * Rabs x + tiny.
Proof.
  unfold frnd. change (SpecFloat.fexp fprec femax) with (FLT_exp (-1074) 53). cbn [round_mode].
  destruct (error_N_FLT radix2 (-1074) 53 ltac:(lia) (fun x => negb (Z.even x)) x) as (e & t & He & Ht & _ & Hr).
  change (Rabs (round radix2 (FLT_exp (-1074) 53) (Znearest (fun x => negb (Z.even x))) x - x) <= runit * Rabs x + tiny). rewrite Hr. change (- (53) + 1)%Z with (-53 + 1)%Z in He. rewrite runit_half in He. rewrite tiny_half in Ht.
  replace (x * (1 + e) + t - x) with (e * x + t) by ring.
  eapply Rle_trans; [apply Rabs_triang|]. rewrite Rabs_mult. apply Rplus_le_compat; auto. apply Rmult_le_compat_r; auto. apply Rabs_pos.
Qed.
Local Instance prec53 : Prec_gt_0 53. Proof. reflexivity. Qed.
Lemma frnd_add_err x y : ffmt x -> ffmt y -> Rabs (frnd (x + y) - (x + y)) <= runit * Rabs (x + y).
Proof.
  intros Fx Fy. unfold frnd. change (SpecFloat.fexp fprec femax) with (FLT_exp (-1074) 53) in *. cbn [round_mode].
  destruct (FLT_plus_error_N_ex radix2 (-1074) 53 (fun x => negb (Z.even x)) x y Fx Fy) as (e & He & Hr).
  change (Rabs (round radix2 (FLT_exp (-1074) 53) (Znearest (fun x => negb (Z.even x))) (x + y) - (x + y)) <= runit * Rabs (x + y)). rewrite Hr. replace ((x + y) * (1 + e) - (x + y)) with (e * (x + y)) by ring. rewrite Rabs_mult.
  apply Rmult_le_compat_r; [apply Rabs_pos|]. eapply Rle_trans; [exact He|]. eapply Rle_trans; [apply u_rod1pu_ro_le_u_ro|].
  unfold u_ro. change (- (53) + 1)%Z with (-53 + 1)%Z. rewrite runit_half. lra.
Qed.
Lemma frnd_huge x : Rabs x <= huge -> Rabs (frnd x) < bpow radix2 femax.
Proof.
  intro H. apply Rle_lt_trans with huge; [|apply bpow_lt; reflexivity]. unfold frnd, huge in *.
  assert (G : ffmt (bpow radix2 1000)) by (apply generic_format_bpow; cbv; discriminate).
  apply abs_round_le_generic; auto; [apply (fexp_correct fprec femax Hprec)|apply valid_rnd_round_mode].
Qed.
Lemma toR_format f : ffmt (toR f).
Proof. apply generic_format_B2R. Qed.

Definition apx (f : PrimFloat.float) (x d : R) : Prop := finite f /\ Rabs (toR f - x) <= d.

Lemma apx_exact f : finite f -> apx f (toR f) 0.
Proof. intro H. split; auto. rewrite Rminus_diag_eq, Rabs_R0 by auto. lra. Qed.
Lemma apx_weak f x d d' : apx f x d -> d <= d' -> apx f x d'.
Proof. intros [H1 H2] H. split; auto. lra. Qed.
Lemma apx_eq f x x' d : apx f x d -> x = x' -> apx f x' d.
Proof. intros H <-. exact H. Qed.
Lemma apx_mag f x d : apx f x d -> Rabs (toR f) <= Rabs x + d.
Proof. intros [_ H]. replace (toR f) with (x + (toR f - x)) by ring. eapply Rle_trans; [apply Rabs_triang|]. lra. Qed.
Lemma apx_pos f x d : apx f x d -> 0 <= d.
Proof. intros [_ H]. pose proof (Rabs_pos (toR f - x)). lra. Qed.

Lemma fadd_toR a b : finite a -> finite b -> Rabs (toR a + toR b) <= huge ->
  finite (a + b) /\ toR (a + b) = frnd (toR a + toR b).
Proof.
  intros Fa Fb H. rewrite finite_B in *. pose proof (Bplus_correct fprec femax Hprec Hmax mode_NE _ _ Fa Fb) as HC.
  rewrite Rlt_bool_true in HC by (apply frnd_huge; exact H). destruct HC as (HR & HF & _).
  unfold toR. rewrite add_equiv. auto.
Qed.
Lemma fsub_toR a b : finite a -> finite b -> Rabs (toR a - toR b) <= huge ->
  finite (a - b) /\ toR (a - b) = frnd (toR a - toR b).
Proof.
  intros Fa Fb H. rewrite finite_B in *. pose proof (Bminus_correct fprec femax Hprec Hmax mode_NE _ _ Fa Fb) as HC.
  rewrite Rlt_bool_true in HC by (apply frnd_huge; exact H). destruct HC as (HR & HF & _).
  unfold toR. rewrite sub_equiv. auto.
Qed.
Lemma fmul_toR a b : finite a -> finite b -> Rabs (toR a * toR b) <= huge ->
  finite (a * b) /\ toR (a * b) = frnd (toR a * toR b).
Proof.
  intros Fa Fb H. rewrite finite_B in *. pose proof (Bmult_correct fprec femax Hprec Hmax mode_NE (Prim2B a) (Prim2B b)) as HC.
  rewrite Rlt_bool_true in HC by (apply frnd_huge; exact H). destruct HC as (HR & HF & _).
  unfold toR. rewrite mul_equiv, HF, Fa, Fb. auto.
Qed.
Lemma fdiv_toR a b : finite a -> toR b <> 0 -> Rabs (toR a / toR b) <= huge ->
  finite (a / b) /\ toR (a / b) = frnd (toR a / toR b).
Proof.
  intros Fa Nb H. rewrite finite_B in *. pose proof (Bdiv_correct fprec femax Hprec Hmax mode_NE (Prim2B a) (Prim2B b) Nb) as HC.
  rewrite Rlt_bool_true in HC by (apply frnd_huge; exact H). destruct HC as (HR & HF & _).
  unfold toR. rewrite div_equiv, HF, Fa. auto.
Qed.
Lemma fopp_toR a : finite a -> finite (- a) /\ toR (- a) = - toR a.
Proof. rewrite !finite_B. unfold toR. rewrite opp_equiv, is_finite_Bopp, B2R_Bopp. auto. Qed.
Lemma fabs_toR a : finite a -> finite (abs a) /\ toR (abs a) = Rabs (toR a).
Proof. rewrite !finite_B. unfold toR. rewrite abs_equiv, is_finite_Babs, B2R_Babs. auto. Qed.
Lemma toR_0 : toR 0 = 0. Proof. unfold toR. rewrite zero_B2R. reflexivity. Qed.
Lemma toR_1 : toR 1 = 1. Proof. unfold toR. apply one_B2R. Qed.

Lemma apx_add a b x y da db s : apx a x da -> apx b y db -> Rabs (x + y) + da + db <= s -> s <= huge ->
  apx (a + b) (x + y) (da + db + runit * s).
Proof.
  intros [Fa Ha] [Fb Hb] Hs Hh.
  assert (M : Rabs (toR a + toR b) <= s).
  { replace (toR a + toR b) with ((x + y) + ((toR a - x) + (toR b - y))) by ring.
    eapply Rle_trans; [apply Rabs_triang|]. pose proof (Rabs_triang (toR a - x) (toR b - y)). lra. }
  destruct (fadd_toR a b Fa Fb) as [F V]; [lra|]. split; auto. rewrite V.
  replace (frnd (toR a + toR b) - (x + y)) with ((toR a - x) + (toR b - y) + (frnd (toR a + toR b) - (toR a + toR b))) by ring.
  eapply Rle_trans; [apply Rabs_triang|]. pose proof (frnd_add_err _ _ (toR_format a) (toR_format b)).
  pose proof (Rabs_triang (toR a - x) (toR b - y)). pose proof runit_pos. nra.
Qed.
Lemma apx_opp a x d : apx a x d -> apx (- a) (- x) d.
Proof.
  intros [F H]. destruct (fopp_toR a F) as [F' V]. split; auto. rewrite V.
  replace (- toR a - - x) with (- (toR a - x)) by ring. rewrite Rabs_Ropp. exact H.
Qed.
Lemma sub_opp (a b : PrimFloat.float) : finite a -> finite b -> Rabs (toR a - toR b) <= huge ->
  finite (a - b) /\ toR (a - b) = frnd (toR a + toR (- b)).
Proof.
  intros Fa Fb H. destruct (fopp_toR b Fb) as [_ ->]. apply fsub_toR; auto.
Qed.
Lemma apx_sub a b x y da db s : apx a x da -> apx b y db -> Rabs (x - y) + da + db <= s -> s <= huge ->
  apx (a - b) (x - y) (da + db + runit * s).
Proof.
  intros [Fa Ha] [Fb Hb] Hs Hh.
  assert (M : Rabs (toR a - toR b) <= s).
  { replace (toR a - toR b) with ((x - y) + ((toR a - x) - (toR b - y))) by ring.
    eapply Rle_trans; [apply Rabs_triang|]. pose proof (Rabs_triang (toR a - x) (- (toR b - y))) as K. rewrite Rabs_Ropp in K. unfold Rminus in *. lra. }
  destruct (sub_opp a b Fa Fb) as [F V]; [lra|]. split; auto. rewrite V.
  pose proof (frnd_add_err _ _ (toR_format a) (toR_format (- b))) as K. destruct (fopp_toR b Fb) as [_ VB]. rewrite VB in *.
  replace (frnd (toR a + - toR b) - (x - y)) with ((toR a - x) + - (toR b - y) + (frnd (toR a + - toR b) - (toR a + - toR b))) by ring.
  eapply Rle_trans; [apply Rabs_triang|].
  pose proof (Rabs_triang (toR a - x) (- (toR b - y))) as K2. rewrite (Rabs_Ropp (toR b - y)) in K2. pose proof runit_pos. unfold Rminus in M. nra.
Qed.
Lemma apx_mul a b x y da db X Y : apx a x da -> apx b y db -> Rabs x + da <= X -> Rabs y + db <= Y -> X * Y <= huge ->
  apx (a * b) (x * y) (da * Y + X * db + runit * (X * Y) + tiny).
Proof.
  intros Ha Hb HX HY Hh. pose proof (apx_mag _ _ _ Ha) as Ma. pose proof (apx_mag _ _ _ Hb) as Mb.
  pose proof (apx_pos _ _ _ Ha) as Pa. pose proof (apx_pos _ _ _ Hb) as Pb. destruct Ha as [Fa Ha], Hb as [Fb Hb].
  assert (M : Rabs (toR a * toR b) <= X * Y).
  { rewrite Rabs_mult. apply Rmult_le_compat; try apply Rabs_pos; lra. }
  destruct (fmul_toR a b Fa Fb) as [F V]; [lra|]. split; auto. rewrite V.
  replace (frnd (toR a * toR b) - x * y) with ((toR a - x) * toR b + x * (toR b - y) + (frnd (toR a * toR b) - toR a * toR b)) by ring.
  eapply Rle_trans; [apply Rabs_triang|]. pose proof (frnd_err (toR a * toR b)) as K.
  pose proof (Rabs_triang ((toR a - x) * toR b) (x * (toR b - y))) as K2. rewrite !(Rabs_mult (_ - _)), (Rabs_mult x) in K2.
  assert (K3 : Rabs (toR a - x) * Rabs (toR b) <= da * Y) by (apply Rmult_le_compat; try apply Rabs_pos; lra).
  assert (K4 : Rabs x * Rabs (toR b - y) <= X * db) by (apply Rmult_le_compat; try apply Rabs_pos; lra).
  pose proof runit_pos. assert (runit * Rabs (toR a * toR b) <= runit * (X * Y)) by (apply Rmult_le_compat_l; lra). lra.
Qed.
Lemma abs_le2 x d : Rabs x <= d -> - d <= x <= d.
Proof. unfold Rabs. destruct (Rcase_abs x); lra. Qed.
Lemma apx_abs a x d : apx a x d -> apx (abs a) (Rabs x) d.
Proof.
  intros [F H]. destruct (fabs_toR a F) as [F' V]. split; auto. rewrite V. eapply Rle_trans; [apply Rabs_triang_inv2|exact H].
Qed.
(** Comparisons decide correctly outside the margins. *)
Lemma apx_lt a b x y da db : apx a x da -> apx b y db ->
  (x + da < y - db -> PrimFloat.ltb a b = true) /\ (PrimFloat.ltb a b = true -> x - da < y + db).
Proof.
  intros [Fa Ha] [Fb Hb]. rewrite toR_lt by auto. unfold Rltb. apply abs_le2 in Ha. apply abs_le2 in Hb.
  destruct (Rlt_dec (toR a) (toR b)); split; intro; auto; try discriminate; try lra.
Qed.
Lemma apx_le a b x y da db : apx a x da -> apx b y db ->
  (x + da <= y - db -> PrimFloat.leb a b = true) /\ (PrimFloat.leb a b = true -> x - da <= y + db).
Proof.
  intros [Fa Ha] [Fb Hb]. rewrite toR_le by auto. unfold Rleb. apply abs_le2 in Ha. apply abs_le2 in Hb.
  destruct (Rle_dec (toR a) (toR b)); split; intro; auto; try discriminate; try lra.
Qed.
