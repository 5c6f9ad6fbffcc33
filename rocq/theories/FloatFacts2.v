(** * Double arithmetic: negation, absolute value, and sums that are not NaN *)
From Coq Require Import ZArith List Bool Reals Lra Lia Floats SpecFloat.
From Flocq Require Import Core IEEE754.PrimFloat IEEE754.BinarySingleNaN.
From Verif Require Import Num NumFloat OrdLaws FloatFacts.
Import ListNotations.

Definition kneg (k : Z * Z * Z) : Z * Z * Z := let '(a, b, c) := k in (- a, - b, - c)%Z.
Lemma sf_key_opp (x : spec_float) : sf_key (SFopp x) = kneg (sf_key x).
Proof. destruct x as [s|s| |s m e]; try destruct s; cbn; auto. f_equal. f_equal. lia. Qed.
Lemma sf_key_abs (x : spec_float) :
  (sf_key (SFabs x) = sf_key x /\ ~ key_lt (sf_key x) (0, 0, 0)%Z) \/
  (sf_key (SFabs x) = kneg (sf_key x) /\ key_lt (sf_key x) (0, 0, 0)%Z).
Proof.
  destruct x as [s|s| |s m e]; try destruct s; cbn; try (left; split; [reflexivity|lia]); right; split; try lia; try reflexivity.
  rewrite Z.opp_involutive. reflexivity.
Qed.
Lemma fopp_key (x : PrimFloat.float) : fkey (- x) = kneg (fkey x).
Proof. unfold fkey. rewrite FloatAxioms.opp_spec. apply sf_key_opp. Qed.
Lemma fabs_key (x : PrimFloat.float) :
  (fkey (abs x) = fkey x /\ ~ key_lt (fkey x) (0, 0, 0)%Z) \/ (fkey (abs x) = kneg (fkey x) /\ key_lt (fkey x) (0, 0, 0)%Z).
Proof. unfold fkey. rewrite FloatAxioms.abs_spec. apply sf_key_abs. Qed.
Lemma fopp_nn (x : PrimFloat.float) : not_nan x -> not_nan (- x).
Proof. rewrite !not_nan_sf, FloatAxioms.opp_spec. destruct (Prim2SF x); cbn; congruence. Qed.
Lemma fabs_nn (x : PrimFloat.float) : not_nan x -> not_nan (abs x).
Proof. rewrite !not_nan_sf, FloatAxioms.abs_spec. destruct (Prim2SF x); cbn; congruence. Qed.
Lemma zero_key : fkey 0 = (0, 0, 0)%Z. Proof. reflexivity. Qed.
Lemma zero_nn : not_nan 0. Proof. reflexivity. Qed.

(** The three-way split of [Line.point_left/right/contains_point] on doubles. *)
Lemma float_three (z E : PrimFloat.float) : not_nan z -> not_nan E -> PrimFloat.ltb 0 E = true ->
  length (filter (fun b => b) [PrimFloat.leb z (- E); PrimFloat.leb E z; PrimFloat.ltb (abs z) E]) = 1%nat.
Proof.
  intros Hz HE H. rewrite fltb_key, zero_key in H by (auto using zero_nn).
  assert (H1 : PrimFloat.leb z (- E) = true <-> ~ key_lt (kneg (fkey E)) (fkey z))
    by (rewrite <- fopp_key; apply fleb_key; auto using fopp_nn).
  assert (H2 : PrimFloat.leb E z = true <-> ~ key_lt (fkey z) (fkey E)) by (apply fleb_key; auto).
  assert (H3 : PrimFloat.ltb (abs z) E = true <-> key_lt (fkey (abs z)) (fkey E)) by (apply fltb_key; auto using fabs_nn).
  pose proof (fabs_key z) as Ha.
  destruct (PrimFloat.leb z (- E)), (PrimFloat.leb E z), (PrimFloat.ltb (abs z) E); cbn; try reflexivity; exfalso;
    destruct (fkey z) as [[z1 z2] z3], (fkey E) as [[e1 e2] e3], (fkey (abs z)) as [[a1 a2] a3]; cbn in *;
    destruct H1 as [H1 H1'], H2 as [H2 H2'], H3 as [H3 H3'];
    (destruct Ha as [[Ha Hb]|[Ha Hb]]; injection Ha as -> -> ->);
    try specialize (H1 eq_refl); try specialize (H2 eq_refl); try specialize (H3 eq_refl);
    try (assert (H1'' : ~ ~ key_lt (kneg (e1,e2,e3)) (z1,z2,z3)) by (intro K; apply H1' in K; discriminate); cbn in H1'');
    try (assert (H2'' : ~ ~ key_lt (z1,z2,z3) (e1,e2,e3)) by (intro K; apply H2' in K; discriminate); cbn in H2'');
    try (assert (H3'' : ~ (key_lt (z1,z2,z3) (e1,e2,e3))) by (intro K; apply H3' in K; discriminate); cbn in H3'');
    try (assert (H3'' : ~ (key_lt (kneg (z1,z2,z3)) (e1,e2,e3))) by (intro K; apply H3' in K; discriminate); cbn in H3'');
    clear H1' H2' H3'; lia.
Qed.

(** ** Finite doubles *)
Definition finite (x : PrimFloat.float) : Prop := PrimFloat.is_finite x = true.
Lemma finite_B (x : PrimFloat.float) : finite x <-> is_finite (Prim2B x) = true.
Proof. unfold finite. rewrite is_finite_equiv. reflexivity. Qed.
Lemma not_nan_B (x : PrimFloat.float) : not_nan x <-> is_nan (Prim2B x) = false.
Proof.
  unfold not_nan. rewrite <- is_nan_equiv. unfold PrimFloat.is_nan. rewrite negb_false_iff. reflexivity.
Qed.
Lemma finite_nn (x : PrimFloat.float) : finite x -> not_nan x.
Proof. rewrite finite_B, not_nan_B. destruct (Prim2B x); cbn; auto. Qed.
Lemma sub_nn (x y : PrimFloat.float) : not_nan x -> finite y -> not_nan (x - y).
Proof.
  rewrite !not_nan_B, finite_B, sub_equiv. generalize (Prim2B x) as a, (Prim2B y) as b. intros a b Ha Hb.
  destruct (is_finite a) eqn:Fa.
  - pose proof (Bminus_correct fprec femax Hprec Hmax mode_NE a b Fa Hb) as HC. destruct (Rlt_bool _ _).
    + destruct HC as (_ & HF & _). destruct (@Bminus fprec femax Hprec Hmax mode_NE a b); cbn in *; auto; discriminate.
    + destruct HC as (HO & _). destruct (@Bminus fprec femax Hprec Hmax mode_NE a b); cbn in *; auto; discriminate.
  - destruct a, b; try discriminate; reflexivity.
Qed.
Lemma add_nn (x y : PrimFloat.float) : finite x -> finite y -> not_nan (x + y).
Proof.
  rewrite !not_nan_B, !finite_B, add_equiv. generalize (Prim2B x) as a, (Prim2B y) as b. intros a b Fa Hb.
  pose proof (Bplus_correct fprec femax Hprec Hmax mode_NE a b Fa Hb) as HC. destruct (Rlt_bool _ _).
  - destruct HC as (_ & HF & _). destruct (@Bplus fprec femax Hprec Hmax mode_NE a b); cbn in *; auto; discriminate.
  - destruct HC as (HO & _). destruct (@Bplus fprec femax Hprec Hmax mode_NE a b); cbn in *; auto; discriminate.
Qed.
(** A product with a factor of magnitude at most one does not overflow. *)
Lemma mul_finite (x n : PrimFloat.float) : finite x -> finite n -> PrimFloat.leb (abs n) 1 = true -> finite (x * n).
Proof.
  rewrite !finite_B, leb_equiv, abs_equiv, mul_equiv. pose proof one_B2R as (H1 & H2 & H3). revert H1 H2 H3.
  generalize (Prim2B x) as a, (Prim2B n) as b, (Prim2B 1) as o. intros a b o H1 H2 H3 Fa Fb H.
  rewrite Bleb_correct in H; auto; [|rewrite is_finite_Babs; auto]. rewrite B2R_Babs, H1 in H.
  destruct (Rle_bool_spec (Rabs (B2R b)) 1) as [Hle|]; [|discriminate].
  pose proof (Bmult_correct fprec femax Hprec Hmax mode_NE a b) as HC.
  rewrite Rlt_bool_true in HC.
  - destruct HC as (_ & HF & _). rewrite HF, Fa, Fb. reflexivity.
  - apply Rle_lt_trans with (Rabs (B2R a)); [|apply abs_B2R_lt_emax].
    apply abs_round_le_generic.
    + apply fexp_correct, Hprec.
    + apply valid_rnd_round_mode.
    + apply generic_format_abs, generic_format_B2R.
    + rewrite Rabs_mult. rewrite <- (Rmult_1_r (Rabs (B2R a))) at 2. apply Rmult_le_compat_l; auto. apply Rabs_pos.
Qed.
