(** * Integer-valued doubles: exact sums, differences and products; negation *)
From Coq Require Import ZArith List Bool Reals Lra Lia Floats SpecFloat.
From Flocq Require Import Core IEEE754.PrimFloat IEEE754.BinarySingleNaN.
From Verif Require Import Num NumFloat OrdLaws FloatFacts FloatFacts2 FloatFacts3 SpecExact RelPoly FloatExact.
Import ListNotations.

(** The finite double [f] is the integer [z]. *)
Definition isint (f : PrimFloat.float) (z : Z) : Prop := finite f /\ toR f = IZR z.

Lemma int_format (z : Z) : (Z.abs z <= 2 ^ 53)%Z -> ffmt (IZR z).
Proof. intro H. replace (IZR z) with (IZR z * bpow radix2 0)%R by (cbn; ring). apply grid_format; lia. Qed.
Lemma int_small (z : Z) : (Z.abs z <= 2 ^ 53)%Z -> (Rabs (IZR z) < bpow radix2 femax)%R.
Proof. intro H. replace (IZR z) with (IZR z * bpow radix2 0)%R by (cbn; ring). apply grid_small; lia. Qed.
Lemma isint_of_Z z : (Z.abs z <= 2 ^ 53)%Z -> isint (float_of_Z z) z.
Proof. apply float_of_Z_exact. Qed.
Lemma isint_add a b x y : isint a x -> isint b y -> (Z.abs (x + y) <= 2 ^ 53)%Z -> isint (a + b)%float (x + y).
Proof.
  intros [Fa Va] [Fb Vb] H. rewrite finite_B in Fa, Fb. pose proof (Bplus_correct fprec femax Hprec Hmax mode_NE _ _ Fa Fb) as HC.
  fold (toR a) (toR b) in HC. rewrite Va, Vb, <- plus_IZR, round_generic in HC; [| apply valid_rnd_round_mode | apply int_format; lia].
  rewrite Rlt_bool_true in HC by (apply int_small; lia). destruct HC as (HR & HF & _).
  split; [rewrite finite_B, add_equiv; exact HF|unfold toR; rewrite add_equiv; exact HR].
Qed.
Lemma isint_sub a b x y : isint a x -> isint b y -> (Z.abs (x - y) <= 2 ^ 53)%Z -> isint (a - b)%float (x - y).
Proof.
  intros [Fa Va] [Fb Vb] H. rewrite finite_B in Fa, Fb. pose proof (Bminus_correct fprec femax Hprec Hmax mode_NE _ _ Fa Fb) as HC.
  fold (toR a) (toR b) in HC. rewrite Va, Vb, <- minus_IZR, round_generic in HC; [| apply valid_rnd_round_mode | apply int_format; lia].
  rewrite Rlt_bool_true in HC by (apply int_small; lia). destruct HC as (HR & HF & _).
  split; [rewrite finite_B, sub_equiv; exact HF|unfold toR; rewrite sub_equiv; exact HR].
Qed.
Lemma isint_mul a b x y : isint a x -> isint b y -> (Z.abs (x * y) <= 2 ^ 53)%Z -> isint (a * b)%float (x * y).
Proof.
  intros [Fa Va] [Fb Vb] H. rewrite finite_B in Fa, Fb. pose proof (Bmult_correct fprec femax Hprec Hmax mode_NE (Prim2B a) (Prim2B b)) as HC.
  fold (toR a) (toR b) in HC. rewrite Va, Vb, <- mult_IZR, round_generic in HC; [| apply valid_rnd_round_mode | apply int_format; lia].
  rewrite Rlt_bool_true in HC by (apply int_small; lia). destruct HC as (HR & HF & _).
  split; [rewrite finite_B, mul_equiv, HF, Fa, Fb; reflexivity|unfold toR; rewrite mul_equiv; exact HR].
Qed.
Lemma isint_opp a x : isint a x -> isint (- a)%float (- x).
Proof. intros [F V]. unfold isint, toR in *. rewrite finite_B in *. rewrite opp_equiv, is_finite_Bopp, B2R_Bopp, V, opp_IZR. auto. Qed.
Lemma isint_fun a x y : isint a x -> isint a y -> x = y.
Proof. intros [_ H1] [_ H2]. apply eq_IZR. congruence. Qed.
Lemma isint_eqb a b x y : isint a x -> isint b y -> PrimFloat.eqb a b = Z.eqb x y.
Proof.
  intros [Fa Va] [Fb Vb]. rewrite toR_eq, Va, Vb by auto.
  destruct (Reqb_spec (IZR x) (IZR y)) as [H|H]; symmetry; [apply Z.eqb_eq, eq_IZR; auto|apply Z.eqb_neq; intro; subst; auto].
Qed.
Lemma isint_ltb a b x y : isint a x -> isint b y -> PrimFloat.ltb a b = Z.ltb x y.
Proof.
  intros [Fa Va] [Fb Vb]. rewrite toR_lt, Va, Vb by auto.
  destruct (Rltb_spec (IZR x) (IZR y)) as [H|H]; symmetry; [apply Z.ltb_lt, lt_IZR; auto|apply Z.ltb_ge, le_IZR; auto].
Qed.
Lemma isint_same a b x : isint a x -> isint b x -> same_double a b.
Proof.
  intros Ha Hb. pose proof (isint_eqb a b x x Ha Hb) as H. rewrite Z.eqb_refl in H. destruct Ha as [Fa _], Hb as [Fb _].
  apply same_eqb; auto; apply finite_nn; auto.
Qed.

(** ** Multiplication by -1 and sums with zero, for every double *)
Lemma round_aux_neg s m e l : SpecFloat.binary_round_aux fprec femax (negb s) m e l = SFopp (SpecFloat.binary_round_aux fprec femax s m e l).
Proof.
  unfold SpecFloat.binary_round_aux. destruct (SpecFloat.shr_fexp fprec femax m e l) as [mrs' e'].
  destruct (SpecFloat.shr_fexp fprec femax (round_nearest_even (shr_m mrs') (loc_of_shr_record mrs')) e' loc_Exact) as [mrs'' e''].
  destruct (shr_m mrs''); try reflexivity. destruct (e'' <=? femax - fprec)%Z; reflexivity.
Qed.
Lemma fmul_m1 (x : PrimFloat.float) : (x * (-1))%float = (- x)%float.
Proof.
  apply Prim2SF_inj. rewrite FloatAxioms.opp_spec. rewrite <- (fmul1 x) at 2. rewrite !mul_spec.
  change (Prim2SF (-1)) with (S754_finite true 4503599627370496 (-52)). change (Prim2SF 1) with (S754_finite false 4503599627370496 (-52)).
  destruct (Prim2SF x) as [s|s| |s m e]; try reflexivity; try (destruct s; reflexivity).
  unfold SF64mul, SFmul. rewrite xorb_true_r, xorb_false_r. apply round_aux_neg.
Qed.
Lemma fopp_opp (x : PrimFloat.float) : (- - x)%float = x.
Proof. apply Prim2SF_inj. rewrite !FloatAxioms.opp_spec. destruct (Prim2SF x) as [s|s| |s m e]; cbn; rewrite ?negb_involutive; reflexivity. Qed.
Lemma is_zero_opp z : PrimFloat.is_zero z = true -> PrimFloat.is_zero (- z)%float = true.
Proof. rewrite !is_zero_B, opp_equiv. intros [s ->]. cbn. eauto. Qed.
Lemma fsub_zero (x z : PrimFloat.float) : PrimFloat.is_zero z = true -> same_double (x - z) x.
Proof.
  intro Hz. pose proof Hz as Hz'. rewrite is_zero_B in Hz'. destruct Hz' as [s Es].
  destruct (PrimFloat.is_zero x) eqn:Hx.
  - right. split; auto. rewrite is_zero_B in *. destruct Hx as [sx Ex]. rewrite sub_equiv, Ex, Es.
    destruct sx, s; cbn; eauto.
  - left. apply Prim2B_inj. rewrite sub_equiv, Es. destruct (Prim2B x) as [sx|sx| |sx m e H] eqn:Ex; try reflexivity.
    exfalso. assert (PrimFloat.is_zero x = true) by (apply is_zero_B; eauto). congruence.
Qed.
Lemma zero_fsub (x z : PrimFloat.float) : PrimFloat.is_zero z = true -> same_double (z - x) (- x).
Proof.
  intro Hz. pose proof Hz as Hz'. rewrite is_zero_B in Hz'. destruct Hz' as [s Es].
  destruct (PrimFloat.is_zero x) eqn:Hx.
  - right. split; [|apply is_zero_opp; auto]. rewrite is_zero_B in *. destruct Hx as [sx Ex]. rewrite sub_equiv, Ex, Es.
    destruct sx, s; cbn; eauto.
  - left. apply Prim2B_inj. rewrite sub_equiv, opp_equiv, Es. destruct (Prim2B x) as [sx|sx| |sx m e H] eqn:Ex; try reflexivity.
    exfalso. assert (PrimFloat.is_zero x = true) by (apply is_zero_B; eauto). congruence.
Qed.
