(** * Facts about double arithmetic beyond the order laws *)
From Coq Require Import ZArith List Bool Reals Lra Lia Floats SpecFloat.
From Flocq Require Import Core IEEE754.PrimFloat IEEE754.BinarySingleNaN.
From Flocq Require Import Plus_error.
From Verif Require Import Num NumFloat OrdLaws.

Notation fprec := FloatOps.prec.
Notation femax := FloatOps.emax.

Lemma zero_B2R : Prim2B 0%float = B754_zero false.
Proof. change 0%float with PrimFloat.zero. rewrite zero_equiv. apply Prim2B_B2Prim. Qed.

(** A difference of two doubles is zero only if they are equal (gradual
    underflow); infinities and NaN included. *)
Lemma fsub_zero (x y : PrimFloat.float) : PrimFloat.eqb (x - y) 0 = true -> PrimFloat.ltb y x = false.
Proof.
  rewrite eqb_equiv, ltb_equiv, sub_equiv, zero_B2R.
  generalize (Prim2B x) as a, (Prim2B y) as b. clear x y. intros a b H.
  destruct (is_finite a) eqn:Fa, (is_finite b) eqn:Fb.
  - rewrite Bltb_correct by auto.
    pose proof (Bminus_correct fprec femax Hprec Hmax mode_NE a b Fa Fb) as HC.
    destruct (Rlt_bool _ _).
    + destruct HC as (HR & HF & _). rewrite Beqb_correct in H by auto.
      apply Rlt_bool_false. destruct (Req_bool_spec (B2R (@Bminus fprec femax Hprec Hmax mode_NE a b)) (B2R (@B754_zero fprec femax false))) as [E|E]; [|discriminate].
      cbn in E. rewrite HR in E.
      destruct (Req_dec (B2R a - B2R b) 0) as [Hz|Hz]; [lra|].
      exfalso. revert E. unfold Rminus. apply round_plus_neq_0; auto.
      * apply fexp_correct, Hprec.
      * apply monotone_exp_not_FTZ; [apply fexp_correct, Hprec | apply fexp_monotone].
      * apply valid_rnd_round_mode.
      * apply generic_format_B2R.
      * apply generic_format_opp, generic_format_B2R.
    + destruct HC as (HO & _). exfalso.
      destruct (@Bminus fprec femax Hprec Hmax mode_NE a b) as [s|s| |s m e Hb]; cbn in HO; try discriminate; destruct s; discriminate H.
  - destruct a, b; try discriminate; destruct s, s0; discriminate.
  - destruct a as [| [|] | |], b as [| [|] | |]; try discriminate.
  - destruct a as [| [|] | |], b as [| [|] | |]; try discriminate; reflexivity.
Qed.
