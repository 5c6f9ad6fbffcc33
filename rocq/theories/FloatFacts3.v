(** * Double arithmetic with zeros, and squares of differences *)
From Coq Require Import ZArith List Bool Reals Lra Lia Floats SpecFloat.
From Flocq Require Import Core IEEE754.PrimFloat IEEE754.BinarySingleNaN.
From Verif Require Import Num NumFloat OrdLaws FloatFacts FloatFacts2.
Import ListNotations.

(** Equality of doubles up to the sign of zero. *)
Definition same_double (x y : PrimFloat.float) : Prop :=
  x = y \/ (PrimFloat.is_zero x = true /\ PrimFloat.is_zero y = true).

Lemma is_zero_B (x : PrimFloat.float) : PrimFloat.is_zero x = true <-> exists s, Prim2B x = B754_zero s.
Proof.
  unfold PrimFloat.is_zero. rewrite eqb_equiv. change PrimFloat.zero with 0%float. rewrite zero_B2R.
  destruct (Prim2B x) as [s|s| |s m e H]; unfold Beqb, SFeqb, SFcompare; cbn.
  - split; eauto.
  - destruct s; split; try discriminate; intros [? K]; discriminate.
  - split; try discriminate; intros [? K]; discriminate.
  - destruct s; split; try discriminate; intros [? K]; discriminate.
Qed.
Lemma fmul_zero (x z : PrimFloat.float) : finite x -> PrimFloat.is_zero z = true -> PrimFloat.is_zero (x * z) = true.
Proof.
  rewrite finite_B, !is_zero_B, mul_equiv. intros Hx [s ->]. destruct (Prim2B x); try discriminate; cbn; eauto.
Qed.
Lemma fadd_zero (x z : PrimFloat.float) : PrimFloat.is_zero z = true -> same_double (x + z) x.
Proof.
  intro Hz. pose proof Hz as Hz'. rewrite is_zero_B in Hz'. destruct Hz' as [s Es].
  destruct (PrimFloat.is_zero x) eqn:Hx.
  - right. split; auto. rewrite is_zero_B in *. destruct Hx as [sx Ex]. rewrite add_equiv, Ex, Es.
    destruct sx, s; cbn; eauto.
  - left. apply Prim2B_inj. rewrite add_equiv, Es. destruct (Prim2B x) as [sx|sx| |sx m e H] eqn:Ex; try reflexivity.
    exfalso. assert (PrimFloat.is_zero x = true) by (apply is_zero_B; eauto). congruence.
Qed.
Lemma zero_fadd (x z : PrimFloat.float) : PrimFloat.is_zero z = true -> same_double (z + x) x.
Proof.
  intro Hz. pose proof Hz as Hz'. rewrite is_zero_B in Hz'. destruct Hz' as [s Es].
  destruct (PrimFloat.is_zero x) eqn:Hx.
  - right. split; auto. rewrite is_zero_B in *. destruct Hx as [sx Ex]. rewrite add_equiv, Ex, Es.
    destruct sx, s; cbn; eauto.
  - left. apply Prim2B_inj. rewrite add_equiv, Es. destruct (Prim2B x) as [sx|sx| |sx m e H] eqn:Ex; try reflexivity.
    exfalso. assert (PrimFloat.is_zero x = true) by (apply is_zero_B; eauto). congruence.
Qed.
Lemma same_refl x : same_double x x. Proof. left; reflexivity. Qed.
Lemma same_sym x y : same_double x y -> same_double y x.
Proof. unfold same_double. intros [H|[H K]]; [left; symmetry|right]; auto. Qed.
Lemma same_trans x y z : same_double x y -> same_double y z -> same_double x z.
Proof.
  unfold same_double. intros [->|[H K]] [<-|[H' K']]; auto.
Qed.
Lemma same_eqb x y : not_nan x -> not_nan y -> (same_double x y <-> PrimFloat.eqb x y = true).
Proof.
  intros Hx Hy. split.
  - intros [->|[H K]]; auto. rewrite is_zero_B in H, K. destruct H as [s Es], K as [s' Es'].
    rewrite eqb_equiv, Es, Es'. reflexivity.
  - rewrite not_nan_B in Hx, Hy. rewrite eqb_equiv. unfold same_double. rewrite !is_zero_B. intro H.
    destruct (Prim2B x) as [s|s| |s m e Hb] eqn:Ex, (Prim2B y) as [s'|s'| |s' m' e' Hb'] eqn:Ey; try discriminate;
      try (right; split; eexists; reflexivity);
      try (destruct s, s'; discriminate H); try (destruct s; discriminate H); try (destruct s'; discriminate H).
    + left. apply Prim2B_inj. rewrite Ex, Ey. destruct s, s'; try discriminate H; reflexivity.
    + left. apply Prim2B_inj. rewrite Ex, Ey. rewrite Beqb_correct in H by reflexivity.
      destruct (Req_bool_spec (B2R (B754_finite s m e Hb)) (B2R (B754_finite s' m' e' Hb'))) as [E|]; [|discriminate].
      apply B2R_inj; auto.
Qed.

(** The square of a difference does not depend on the order, for all doubles. *)
Lemma fopp_sq (a b : PrimFloat.float) : Prim2B a = Bopp (Prim2B b) -> (a * a = b * b)%float.
Proof.
  intro H. apply (f_equal B2SF) in H. rewrite B2SF_Prim2B in H.
  assert (K : Prim2SF a = SFopp (Prim2SF b)).
  { rewrite H, <- (B2SF_Prim2B b). destruct (Prim2B b); reflexivity. }
  apply Prim2SF_inj. rewrite !mul_spec, K. destruct (Prim2SF b) as [s|s| |s m e]; try reflexivity; destruct s; reflexivity.
Qed.
Lemma fzero_sq (a b : PrimFloat.float) : PrimFloat.is_zero a = true -> PrimFloat.is_zero b = true -> (a * a = b * b)%float.
Proof.
  rewrite !is_zero_B. intros [s H] [s' H']. apply Prim2B_inj. rewrite !mul_equiv, H, H'. cbn. rewrite !xorb_nilpotent. reflexivity.
Qed.
Lemma fsub_anti (x y : PrimFloat.float) :
  Prim2B (x - y)%float = Bopp (Prim2B (y - x)%float) \/
  (PrimFloat.is_zero (x - y) = true /\ PrimFloat.is_zero (y - x) = true).
Proof.
  rewrite !is_zero_B, !sub_equiv. generalize (Prim2B x) as a, (Prim2B y) as b. intros a b.
  destruct (is_finite a) eqn:Fa, (is_finite b) eqn:Fb.
  - pose proof (Bminus_correct fprec femax Hprec Hmax mode_NE a b Fa Fb) as H1.
    pose proof (Bminus_correct fprec femax Hprec Hmax mode_NE b a Fb Fa) as H2.
    replace (B2R b - B2R a)%R with (- (B2R a - B2R b))%R in H2 by ring.
    assert (HO : round radix2 (SpecFloat.fexp fprec femax) (round_mode mode_NE) (- (B2R a - B2R b))
               = (- round radix2 (SpecFloat.fexp fprec femax) (round_mode mode_NE) (B2R a - B2R b))%R).
    { apply round_NE_opp. }
    rewrite HO, Rabs_Ropp in H2.
    destruct (Rlt_bool _ _).
    + destruct H1 as (R1 & F1 & _), H2 as (R2 & F2 & _). rewrite <- R1 in R2.
      revert R1 R2 F1 F2. generalize (@Bminus fprec femax Hprec Hmax mode_NE a b) as u.
      generalize (@Bminus fprec femax Hprec Hmax mode_NE b a) as v. intros v u _ R2 F1 F2.
      destruct (Req_dec (B2R u) 0) as [Z|Z].
      * right. rewrite Z in R2. split.
        -- destruct u as [s|s| |s m e H]; try discriminate; [eauto|]. exfalso. revert Z.
           cbn. destruct s; [apply Rlt_not_eq, F2R_lt_0|apply Rgt_not_eq, F2R_gt_0]; cbn; lia.
        -- destruct v as [s|s| |s m e H]; try discriminate; [eauto|]. exfalso. revert R2.
           rewrite Ropp_0. cbn. destruct s; [apply Rlt_not_eq, F2R_lt_0|apply Rgt_not_eq, F2R_gt_0]; cbn; lia.
      * left. apply B2R_Bsign_inj; auto.
        -- rewrite is_finite_Bopp; auto.
        -- rewrite B2R_Bopp. lra.
        -- rewrite Bsign_Bopp by (destruct v; auto; discriminate).
           destruct u as [s|s| |s m e H]; try discriminate; [cbn in Z; lra|].
           destruct v as [s'|s'| |s' m' e' H']; try discriminate; [cbn in R2; cbn in Z; lra|].
           cbn in R2, Z |- *.
           destruct s, s'; auto; exfalso; revert R2;
           [assert (A : (@F2R radix2 {| Fnum := Z.neg m; Fexp := e |} < 0)%R) by (apply F2R_lt_0; cbn; lia);
            assert (B : (@F2R radix2 {| Fnum := Z.neg m'; Fexp := e' |} < 0)%R) by (apply F2R_lt_0; cbn; lia)
           |assert (A : (0 < @F2R radix2 {| Fnum := Z.pos m; Fexp := e |})%R) by (apply F2R_gt_0; cbn; lia);
            assert (B : (0 < @F2R radix2 {| Fnum := Z.pos m'; Fexp := e' |})%R) by (apply F2R_gt_0; cbn; lia)];
           cbn in A, B |- *; lra.
    + left. destruct H1 as (R1 & S1), H2 as (R2 & S2).
      revert R1 R2. generalize (@Bminus fprec femax Hprec Hmax mode_NE a b) as u.
      generalize (@Bminus fprec femax Hprec Hmax mode_NE b a) as v. intros v u R1 R2.
      destruct u as [s|s| |s m e H]; cbn in R1; try discriminate.
      destruct v as [s'|s'| |s' m' e' H']; cbn in R2; try discriminate.
      injection R1 as ->. injection R2 as ->. cbn. rewrite S1. reflexivity.
  - left. destruct a, b; try discriminate; cbn; try rewrite negb_involutive; reflexivity.
  - left. destruct a, b; try discriminate; cbn; try rewrite negb_involutive; reflexivity.
  - left. destruct a as [s|s| |s m e H], b as [s'|s'| |s' m' e' H']; try discriminate; cbn; try rewrite negb_involutive; try reflexivity;
      destruct s, s'; reflexivity.
Qed.
Lemma fsub_sq_sym (x y : PrimFloat.float) : ((x - y) * (x - y) = (y - x) * (y - x))%float.
Proof.
  destruct (fsub_anti x y) as [H|[H K]]; [apply fopp_sq | apply fzero_sq]; auto.
Qed.
Lemma fsub_self (x : PrimFloat.float) : finite x -> (x - x = 0)%float.
Proof.
  rewrite finite_B. intro F. apply Prim2B_inj. rewrite sub_equiv, zero_B2R.
  revert F. generalize (Prim2B x) as a. intros a F.
  destruct a as [s|s| |s m e H]; try discriminate.
  - destruct s; reflexivity.
  - pose proof (Bminus_correct fprec femax Hprec Hmax mode_NE (B754_finite s m e H) (B754_finite s m e H) eq_refl eq_refl) as H1.
    rewrite Rminus_diag_eq, round_0 in H1 by (auto; apply valid_rnd_round_mode).
    rewrite Rabs_R0, Rlt_bool_true in H1 by (apply bpow_gt_0). destruct H1 as (R1 & F1 & S1).
    rewrite Rcompare_Eq in S1 by reflexivity.
    apply B2R_Bsign_inj; auto. rewrite S1. destruct s; reflexivity.
Qed.
