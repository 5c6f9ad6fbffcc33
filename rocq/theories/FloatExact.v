(** * Doubles on a common binary grid compute exactly

    Doubles that are integer multiples of one power of two, with at most 25
    bits: differences, products of differences and differences of such
    products are computed without rounding. *)
From Coq Require Import ZArith List Bool Reals Lra Lia Floats SpecFloat.
From Flocq Require Import Core IEEE754.PrimFloat IEEE754.BinarySingleNaN.
From Verif Require Import Num NumFloat OrdLaws FloatFacts FloatFacts2 SpecExact RelPoly.

Notation ffmt := (generic_format radix2 (SpecFloat.fexp fprec femax)).

Lemma grid_format (z E : Z) : (Z.abs z <= 2 ^ 53)%Z -> (-1074 <= E)%Z -> ffmt (IZR z * bpow radix2 E).
Proof.
  intros Hz HE. change (SpecFloat.fexp fprec femax) with (FLT_exp (-1074) 53).
  destruct (Z.eq_dec (Z.abs z) (2 ^ 53)) as [Heq|Hne].
  - assert (Hb : generic_format radix2 (FLT_exp (-1074) 53) (bpow radix2 (53 + E))).
    { apply generic_format_bpow. unfold FLT_exp. lia. }
    assert (Hp : IZR (2 ^ 53) = bpow radix2 53) by (rewrite <- (IZR_Zpower radix2) by lia; reflexivity).
    assert (Hz' : (z = 2 ^ 53 \/ z = - 2 ^ 53)%Z) by lia. destruct Hz' as [-> | ->].
    + rewrite Hp, <- bpow_plus. exact Hb.
    + rewrite opp_IZR, Hp, Ropp_mult_distr_l_reverse, <- bpow_plus. apply generic_format_opp, Hb.
  - apply generic_format_FLT. exists (Float radix2 z E).
    + reflexivity.
    + cbn [Fnum]. change (radix2 ^ 53)%Z with (2 ^ 53)%Z. lia.
    + cbn [Fexp]. lia.
Qed.
Lemma grid_small (z E : Z) : (Z.abs z <= 2 ^ 53)%Z -> (E <= 970)%Z -> (Rabs (IZR z * bpow radix2 E) < bpow radix2 femax)%R.
Proof.
  intros Hz HE. rewrite Rabs_mult, (Rabs_right (bpow radix2 E)) by (apply Rle_ge, bpow_ge_0).
  apply Rle_lt_trans with (bpow radix2 53 * bpow radix2 E)%R.
  - apply Rmult_le_compat_r; [apply bpow_ge_0|]. rewrite <- abs_IZR, <- (IZR_Zpower radix2) by lia. apply IZR_le. exact Hz.
  - rewrite <- bpow_plus. apply bpow_lt. change femax with 1024%Z. lia.
Qed.

Section Grid.
  Context (L : FloatLib) (e : Z) (Hlo : (-537 <= e)%Z) (Hhi : (e <= 485)%Z).

  (** [x] is the real value of the finite double [f], an integer of at most [k]
      bits times [2 ^ (s * e)]. *)
  Definition grid (k s : nat) (f : PrimFloat.float) (x : R) : Prop :=
    finite f /\ toR f = x /\
    exists z, (Z.abs z <= 2 ^ Z.of_nat k)%Z /\ x = (IZR z * bpow radix2 (Z.of_nat s * e))%R.

  Lemma pow53 (k : nat) (z : Z) : (k <= 53)%nat -> (Z.abs z <= 2 ^ Z.of_nat k)%Z -> (Z.abs z <= 2 ^ 53)%Z.
  Proof using. intros Hk H. eapply Z.le_trans; [exact H|]. apply Z.pow_le_mono_r; lia. Qed.

  Lemma grid_sub k s a b a' b' : (k < 53)%nat -> (s <= 2)%nat -> grid k s a a' -> grid k s b b' ->
    grid (S k) s (a - b)%float (a' - b')%R.
  Proof using Hlo Hhi.
    intros Hk Hs (Fa & Va & za & Ba & Ea) (Fb & Vb & zb & Bb & Eb).
    assert (Hz : (Z.abs (za - zb) <= 2 ^ Z.of_nat (S k))%Z) by (rewrite Nat2Z.inj_succ, Z.pow_succ_r by lia; lia).
    assert (Hx : (a' - b' = IZR (za - zb) * bpow radix2 (Z.of_nat s * e))%R) by (rewrite minus_IZR, Ea, Eb; ring).
    assert (HE : (-1074 <= Z.of_nat s * e <= 970)%Z) by (destruct s as [|[|[|?]]]; lia).
    assert (Hz53 := pow53 (S k) _ Hk Hz).
    rewrite finite_B in Fa, Fb. pose proof (Bminus_correct fprec femax Hprec Hmax mode_NE _ _ Fa Fb) as HC.
    fold (toR a) (toR b) in HC. rewrite Va, Vb, round_generic in HC; [| apply valid_rnd_round_mode | rewrite Hx; apply grid_format; lia].
    rewrite Rlt_bool_true in HC by (rewrite Hx; apply grid_small; lia). destruct HC as (HR & HF & _).
    split; [|split].
    - rewrite finite_B, sub_equiv. exact HF.
    - unfold toR. rewrite sub_equiv. exact HR.
    - exists (za - zb)%Z. auto.
  Qed.
  Lemma grid_mul k s k' s' a b a' b' : (k + k' <= 53)%nat -> (s + s' <= 2)%nat -> grid k s a a' -> grid k' s' b b' ->
    grid (k + k') (s + s') (a * b)%float (a' * b')%R.
  Proof using Hlo Hhi.
    intros Hk Hs (Fa & Va & za & Ba & Ea) (Fb & Vb & zb & Bb & Eb).
    assert (Hz : (Z.abs (za * zb) <= 2 ^ Z.of_nat (k + k'))%Z).
    { rewrite Nat2Z.inj_add, Z.pow_add_r, Z.abs_mul by lia. apply Z.mul_le_mono_nonneg; lia. }
    assert (Hx : (a' * b' = IZR (za * zb) * bpow radix2 (Z.of_nat (s + s') * e))%R).
    { rewrite mult_IZR, Ea, Eb, Nat2Z.inj_add, Z.mul_add_distr_r, bpow_plus. ring. }
    assert (HE : (-1074 <= Z.of_nat (s + s') * e <= 970)%Z) by (destruct (s + s')%nat as [|[|[|?]]]; lia).
    assert (Hz53 := pow53 _ _ Hk Hz).
    rewrite finite_B in Fa, Fb. pose proof (Bmult_correct fprec femax Hprec Hmax mode_NE (Prim2B a) (Prim2B b)) as HC.
    fold (toR a) (toR b) in HC. rewrite Va, Vb, round_generic in HC; [| apply valid_rnd_round_mode | rewrite Hx; apply grid_format; lia].
    rewrite Rlt_bool_true in HC by (rewrite Hx; apply grid_small; lia). destruct HC as (HR & HF & _).
    split; [|split].
    - rewrite finite_B, mul_equiv, HF, Fa, Fb. reflexivity.
    - unfold toR. rewrite mul_equiv. exact HR.
    - exists (za * zb)%Z. auto.
  Qed.
  Lemma toR_lt a b : finite a -> finite b -> PrimFloat.ltb a b = Rltb (toR a) (toR b).
  Proof using.
    rewrite !finite_B. intros Fa Fb. rewrite ltb_equiv, Bltb_correct by auto. unfold toR, Rltb.
    destruct (Rlt_bool_spec (B2R (Prim2B a)) (B2R (Prim2B b))), (Rlt_dec (B2R (Prim2B a)) (B2R (Prim2B b))); auto; lra.
  Qed.
  Lemma toR_le a b : finite a -> finite b -> PrimFloat.leb a b = Rleb (toR a) (toR b).
  Proof using.
    rewrite !finite_B. intros Fa Fb. rewrite leb_equiv, Bleb_correct by auto. unfold toR, Rleb.
    destruct (Rle_bool_spec (B2R (Prim2B a)) (B2R (Prim2B b))), (Rle_dec (B2R (Prim2B a)) (B2R (Prim2B b))); auto; lra.
  Qed.
  Lemma toR_eq a b : finite a -> finite b -> PrimFloat.eqb a b = Reqb (toR a) (toR b).
  Proof using.
    rewrite !finite_B. intros Fa Fb. rewrite eqb_equiv, Beqb_correct by auto. unfold toR, Reqb.
    destruct (Req_bool_spec (B2R (Prim2B a)) (B2R (Prim2B b))), (Req_EM_T (B2R (Prim2B a)) (B2R (Prim2B b))); auto; contradiction.
  Qed.
  Lemma grid_laws : RelLaws (FNum L) RNum grid.
  Proof using Hlo Hhi.
    constructor.
    - exact grid_sub.
    - exact grid_mul.
    - intros k s k' s' a b a' b' (Fa & <- & _) (Fb & <- & _). apply toR_lt; auto.
    - intros k s k' s' a b a' b' (Fa & <- & _) (Fb & <- & _). apply toR_le; auto.
    - intros k s k' s' a b a' b' (Fa & <- & _) (Fb & <- & _). apply toR_eq; auto.
    - split; [reflexivity|]. split; [|exists 0%Z; split; cbn; [lia|unfold n0; cbn; ring]].
      unfold toR. change (B2R (Prim2B 0%float) = 0%R). rewrite zero_B2R. reflexivity.
    - split; [reflexivity|]. split; [|exists 1%Z; split; cbn; [lia|unfold n1; cbn; ring]].
      unfold toR. change (B2R (Prim2B 1%float) = 1%R). apply one_B2R.
  Qed.
End Grid.

(** Integers of up to 53 bits are exact doubles. *)
Lemma of_uint63_exact (z : Z) : (0 <= z <= 2 ^ 53)%Z ->
  finite (PrimFloat.of_uint63 (Uint63.of_Z z)) /\ toR (PrimFloat.of_uint63 (Uint63.of_Z z)) = IZR z.
Proof.
  intros Hz. rewrite finite_B. unfold toR. rewrite of_int63_equiv, Uint63.of_Z_spec, Z.mod_small by (cbn; lia).
  pose proof (binary_normalize_correct fprec femax Hprec Hmax mode_NE z 0 false) as HC. cbv zeta in HC.
  assert (Hx : F2R (Float radix2 z 0) = (IZR z * bpow radix2 0)%R) by reflexivity.
  rewrite Hx, round_generic in HC; [| apply valid_rnd_round_mode | apply grid_format; lia].
  rewrite Rlt_bool_true in HC by (apply grid_small; lia). destruct HC as (HR & HF & _). split; [exact HF|].
  rewrite HR. apply Rmult_1_r.
Qed.
Lemma float_of_Z_exact (z : Z) : (Z.abs z <= 2 ^ 53)%Z -> finite (float_of_Z z) /\ toR (float_of_Z z) = IZR z.
Proof.
  intros Hz. destruct z as [|p|p].
  - split; [reflexivity|]. unfold toR. change (float_of_Z 0) with 0%float. rewrite zero_B2R. reflexivity.
  - apply of_uint63_exact. lia.
  - destruct (of_uint63_exact (Zpos p)) as [F V]; [lia|]. cbn [float_of_Z]. revert F V. generalize (PrimFloat.of_uint63 (Uint63.of_Z (Zpos p))) as x.
    intros x F V. unfold toR in *. rewrite finite_B in F |- *. rewrite opp_equiv, is_finite_Bopp, B2R_Bopp, V, <- opp_IZR. auto.
Qed.
