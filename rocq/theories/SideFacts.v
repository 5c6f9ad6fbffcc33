(** * Comparisons of doubles that exclude each other; sums that do not shrink *)
From Coq Require Import ZArith List Bool Reals Lra Lia Floats SpecFloat.
From Flocq Require Import Core IEEE754.PrimFloat IEEE754.BinarySingleNaN.
From Verif Require Import Num NumFloat OrdLaws FloatFacts FloatFacts2 SpecExact FloatExact.
Import ListNotations.

Lemma fleb_nn (a b : PrimFloat.float) : PrimFloat.leb a b = true -> not_nan a /\ not_nan b.
Proof.
  rewrite !not_nan_sf, FloatAxioms.leb_spec. unfold SFleb.
  destruct (Prim2SF a) as [[]|[]| |[] ? ?], (Prim2SF b) as [[]|[]| |[] ? ?]; cbn; try discriminate; split; discriminate.
Qed.
Lemma fltb_nn (a b : PrimFloat.float) : PrimFloat.ltb a b = true -> not_nan a /\ not_nan b.
Proof.
  rewrite !not_nan_sf, FloatAxioms.ltb_spec. unfold SFltb.
  destruct (Prim2SF a) as [[]|[]| |[] ? ?], (Prim2SF b) as [[]|[]| |[] ? ?]; cbn; try discriminate; split; discriminate.
Qed.
Lemma fle_gt (a b : PrimFloat.float) : PrimFloat.leb a b = true -> PrimFloat.ltb b a = true -> False.
Proof.
  intros H1 H2. destruct (fleb_nn _ _ H1) as [Ha Hb]. apply (proj1 (fleb_key a b Ha Hb)) in H1. apply (proj1 (fltb_key b a Hb Ha)) in H2. auto.
Qed.
Lemma fle_trans (a b c : PrimFloat.float) : PrimFloat.leb a b = true -> PrimFloat.leb b c = true -> PrimFloat.leb a c = true.
Proof.
  intros H1 H2. destruct (fleb_nn _ _ H1) as [Ha Hb], (fleb_nn _ _ H2) as [_ Hc].
  apply (proj1 (fleb_key a b Ha Hb)) in H1. apply (proj1 (fleb_key b c Hb Hc)) in H2. apply (fleb_key a c Ha Hc).
  destruct (fkey a) as [[? ?] ?], (fkey b) as [[? ?] ?], (fkey c) as [[? ?] ?]. cbn in *. lia.
Qed.
(** Below [-E] and above [E] at once: not for a positive [E]. *)
Lemma fsides (z E : PrimFloat.float) : PrimFloat.ltb 0 E = true ->
  PrimFloat.leb z (- E) = true -> PrimFloat.leb E z = true -> False.
Proof.
  intros HE H1 H2. destruct (fleb_nn _ _ H1) as [Hz _], (fleb_nn _ _ H2) as [He _].
  pose proof (float_three z E Hz He HE) as H. rewrite H1, H2 in H. cbn in H. destruct (PrimFloat.ltb _ _); discriminate.
Qed.
Lemma fmul_comm (x y : PrimFloat.float) : (x * y)%float = (y * x)%float.
Proof.
  apply FloatAxioms.Prim2SF_inj. rewrite !FloatAxioms.mul_spec. unfold SF64mul, SFmul.
  destruct (Prim2SF x) as [sx|sx| |sx mx ex], (Prim2SF y) as [sy|sy| |sy my ey]; auto; rewrite ?(xorb_comm sx sy); auto.
  rewrite Pos.mul_comm, Z.add_comm. reflexivity.
Qed.
(** Adding something that is not negative does not make a finite double smaller, overflow included. *)
Lemma fadd_ge (s E : PrimFloat.float) : finite s -> finite E -> PrimFloat.leb 0 s = true -> PrimFloat.ltb 0 E = true ->
  PrimFloat.leb E (s + E) = true.
Proof.
  intros Fs FE H1 H2. rewrite toR_le in H1 by (auto; reflexivity). rewrite toR_lt in H2 by (auto; reflexivity).
  assert (Z0 : toR 0 = 0%R) by (unfold toR; reflexivity).
  unfold Rleb in H1. unfold Rltb in H2. destruct (Rle_dec _ _) as [H1'|]; [|discriminate]. destruct (Rlt_dec _ _) as [H2'|]; [|discriminate].
  rewrite Z0 in *. unfold toR in *. clear H1 H2.
  assert (G : Bleb (Prim2B E) (@Bplus fprec femax Hprec Hmax mode_NE (Prim2B s) (Prim2B E)) = true).
  { rewrite finite_B in Fs, FE. revert Fs FE H1' H2'. generalize (Prim2B s) as a, (Prim2B E) as b. intros a b Fa Fb Ha Hb.
    pose proof (Bplus_correct fprec femax Hprec Hmax mode_NE a b Fa Fb) as HC. destruct (Rlt_bool _ _).
    - destruct HC as (HV & HF & _). rewrite Bleb_correct by auto. rewrite HV. apply Rle_bool_true.
      rewrite <- (round_generic radix2 (SpecFloat.fexp fprec femax) (round_mode mode_NE) (B2R b)) at 1 by apply generic_format_B2R.
      apply round_le; [apply fexp_correct, Hprec|apply valid_rnd_round_mode|lra].
    - destruct HC as (HO & HS).
      assert (Sb : Bsign b = false).
      { destruct b as [sb|sb| |sb mb eb Hm]; cbn in Fb; try discriminate; cbn in Hb.
        - exfalso; lra.
        - destruct sb; auto. exfalso. pose proof (F2R_lt_0 radix2 (Float radix2 (Z.neg mb) eb)) as K. cbn in K. specialize (K ltac:(lia)). cbn in Hb. lra. }
      assert (Sa : Bsign a = false) by congruence. rewrite Sa in HO. cbn in HO.
      destruct (@Bplus fprec femax Hprec Hmax mode_NE a b) as [sp|sp| |sp mp ep Hp]; cbn in HO; try discriminate. injection HO as ->.
      destruct b as [sb|sb| |sb mb eb Hm]; cbn in Fb; try discriminate; cbn in Sb; subst; reflexivity. }
  rewrite leb_equiv, add_equiv. exact G.
Qed.
(** Bounded factors have a finite product. *)
Lemma fabs_bounded (B x : PrimFloat.float) : finite B -> PrimFloat.leb (abs x) B = true -> finite x /\ (Rabs (toR x) <= toR B)%R.
Proof.
  intros FB H. destruct (fleb_nn _ _ H) as [Hn _].
  assert (F : finite x).
  { rewrite finite_B in *. rewrite leb_equiv, abs_equiv in H. apply not_nan_B in Hn. rewrite abs_equiv in Hn.
    destruct (Prim2B x) as [s|s| |s m e Hm]; auto.
    exfalso. destruct (Prim2B B) as [t|t| |t m e Hm]; cbn in *; discriminate. }
  split; [exact F|]. assert (Fa : finite (abs x)) by (rewrite finite_B, abs_equiv, is_finite_Babs; apply finite_B; exact F).
  rewrite toR_le in H by auto. unfold Rleb in H. destruct (Rle_dec _ _) as [K|]; [|discriminate].
  unfold toR in K at 1. rewrite abs_equiv, B2R_Babs in K. exact K.
Qed.
Lemma fmul_bounded (x n : PrimFloat.float) : PrimFloat.leb (abs x) 2 = true -> PrimFloat.leb (abs n) 0x1p1021 = true -> finite (x * n).
Proof.
  intros Hx Hn. apply fabs_bounded in Hx as [Fx Bx]; [|reflexivity]. apply fabs_bounded in Hn as [Fn Bn]; [|reflexivity].
  assert (V2 : toR 2 = 2%R) by (unfold toR; cbn; unfold F2R; cbn; lra).
  assert (V3 : toR 0x1p1021 = bpow radix2 1021).
  { unfold toR. change (Prim2B 0x1p1021) with (SF2B (Prim2SF 0x1p1021) (Prim2SF_valid 0x1p1021)). rewrite B2R_SF2B.
    replace (Prim2SF 0x1p1021) with (S754_finite false (2 ^ 52) 969) by (vm_compute; reflexivity).
    cbn [SF2R cond_Zopp]. unfold F2R. cbn [Fnum Fexp]. replace (IZR (Z.pos (2 ^ 52))) with (bpow radix2 52) by (cbn; lra). rewrite <- bpow_plus. reflexivity. }
  rewrite V2 in Bx. rewrite V3 in Bn. unfold toR in *. rewrite finite_B in *. rewrite mul_equiv.
  generalize dependent (Prim2B x). generalize dependent (Prim2B n). intros b Fb Bb a Fa Ba.
  pose proof (Bmult_correct fprec femax Hprec Hmax mode_NE a b) as HC. rewrite Rlt_bool_true in HC.
  - destruct HC as (_ & HF & _). rewrite HF, Fa, Fb. reflexivity.
  - apply Rle_lt_trans with (bpow radix2 1022); [|apply bpow_lt; reflexivity]. apply abs_round_le_generic.
    + apply fexp_correct, Hprec.
    + apply valid_rnd_round_mode.
    + apply generic_format_bpow. unfold SpecFloat.fexp. cbn. lia.
    + rewrite Rabs_mult. replace (bpow radix2 1022) with (2 * bpow radix2 1021)%R by (change 1022%Z with (1 + 1021)%Z; rewrite bpow_plus; reflexivity).
      apply Rmult_le_compat; auto; apply Rabs_pos.
Qed.
