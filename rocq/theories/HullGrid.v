(** * The convex hull of doubles on a coarse grid: instance of RelHull.v *)
From Coq Require Import ZArith List Bool Reals Lra Lia Floats SpecFloat Permutation.
From Flocq Require Import Core IEEE754.PrimFloat IEEE754.BinarySingleNaN.
From Verif Require Import Num NumFloat OrdLaws FloatFacts FloatFacts2 Vec Affine Box Seq Polygon Hull RelPoly RelHull SpecGeom SpecHull SpecExact SpecHullGrid FloatExact FloatErr FloatErr2 HullFacts2 HullFacts4.
Import ListNotations.

Section Grid4.
  Context (L : FloatLib) (e : Z) (Hlo : (-200 <= e)%Z) (Hhi : (e <= 200)%Z).
  Notation grid := (grid e).

  Lemma grid_exp s : (s <= 4)%nat -> (-1074 <= Z.of_nat s * e <= 900)%Z.
  Proof using Hlo Hhi. intro. destruct s as [|[|[|[|[|?]]]]]; lia. Qed.
  Lemma grid_huge k s x : (k <= 53)%nat -> (s <= 4)%nat -> (exists z, (Z.abs z <= 2 ^ Z.of_nat k)%Z /\ x = (IZR z * bpow radix2 (Z.of_nat s * e))%R) -> (Rabs x <= huge)%R /\ ffmt x.
  Proof using Hlo Hhi.
    intros Hk Hs (z & Hz & ->). pose proof (grid_exp s Hs) as HE. assert (Hz53 := pow53 k _ Hk Hz). split; [|apply grid_format; lia].
    rewrite Rabs_mult, (Rabs_right (bpow radix2 _)) by (apply Rle_ge, bpow_ge_0).
    apply Rle_trans with (bpow radix2 53 * bpow radix2 (Z.of_nat s * e))%R.
    - apply Rmult_le_compat_r; [apply bpow_ge_0|]. rewrite <- abs_IZR, <- (IZR_Zpower radix2) by lia. apply IZR_le. exact Hz53.
    - rewrite <- bpow_plus. unfold huge. apply bpow_le. lia.
  Qed.
  Lemma frnd_id x : ffmt x -> frnd x = x.
  Proof using. intro. unfold frnd. apply round_generic; auto. apply valid_rnd_round_mode. Qed.
  Lemma grid4_sub k s a b a' b' : (k < 53)%nat -> (s <= 4)%nat -> grid k s a a' -> grid k s b b' -> grid (S k) s (a - b)%float (a' - b')%R.
  Proof using Hlo Hhi.
    intros Hk Hs (Fa & Va & za & Ba & Ea) (Fb & Vb & zb & Bb & Eb).
    assert (HX : exists z, (Z.abs z <= 2 ^ Z.of_nat (S k))%Z /\ (a' - b' = IZR z * bpow radix2 (Z.of_nat s * e))%R).
    { exists (za - zb)%Z. split; [rewrite Nat2Z.inj_succ, Z.pow_succ_r by lia; lia|rewrite minus_IZR, Ea, Eb; ring]. }
    destruct (grid_huge (S k) s _ Hk Hs HX) as [H1 H2]. rewrite <- Va, <- Vb in H1, H2. destruct (fsub_toR a b Fa Fb H1) as [F V].
    rewrite frnd_id in V by auto. rewrite Va, Vb in V. split; [auto|]. split; auto.
  Qed.
  Lemma grid4_add k s a b a' b' : (k < 53)%nat -> (s <= 4)%nat -> grid k s a a' -> grid k s b b' -> grid (S k) s (a + b)%float (a' + b')%R.
  Proof using Hlo Hhi.
    intros Hk Hs (Fa & Va & za & Ba & Ea) (Fb & Vb & zb & Bb & Eb).
    assert (HX : exists z, (Z.abs z <= 2 ^ Z.of_nat (S k))%Z /\ (a' + b' = IZR z * bpow radix2 (Z.of_nat s * e))%R).
    { exists (za + zb)%Z. split; [rewrite Nat2Z.inj_succ, Z.pow_succ_r by lia; lia|rewrite plus_IZR, Ea, Eb; ring]. }
    destruct (grid_huge (S k) s _ Hk Hs HX) as [H1 H2]. rewrite <- Va, <- Vb in H1, H2. destruct (fadd_toR a b Fa Fb H1) as [F V].
    rewrite frnd_id in V by auto. rewrite Va, Vb in V. split; [auto|]. split; auto.
  Qed.
  Lemma grid4_mul k s k' s' a b a' b' : (k + k' <= 53)%nat -> (s + s' <= 4)%nat -> grid k s a a' -> grid k' s' b b' -> grid (k + k') (s + s') (a * b)%float (a' * b')%R.
  Proof using Hlo Hhi.
    intros Hk Hs (Fa & Va & za & Ba & Ea) (Fb & Vb & zb & Bb & Eb).
    assert (HX : exists z, (Z.abs z <= 2 ^ Z.of_nat (k + k'))%Z /\ (a' * b' = IZR z * bpow radix2 (Z.of_nat (s + s') * e))%R).
    { exists (za * zb)%Z. split; [rewrite Nat2Z.inj_add, Z.pow_add_r, Z.abs_mul by lia; apply Z.mul_le_mono_nonneg; lia|].
      rewrite mult_IZR, Ea, Eb, Nat2Z.inj_add, Z.mul_add_distr_r, bpow_plus. ring. }
    destruct (grid_huge _ _ _ Hk Hs HX) as [H1 H2]. rewrite <- Va, <- Vb in H1, H2. destruct (fmul_toR a b Fa Fb H1) as [F V].
    rewrite frnd_id in V by auto. rewrite Va, Vb in V. split; [auto|]. split; auto.
  Qed.
  Lemma frnd_le x y : (x <= y)%R -> (frnd x <= frnd y)%R.
  Proof using. intro. unfold frnd. apply round_le; auto. apply FLT_exp_valid; reflexivity. apply valid_rnd_round_mode. Qed.
  Lemma frnd_bpow n : (-1074 <= n <= 1000)%Z -> frnd (bpow radix2 n) = bpow radix2 n.
  Proof using. intro. rewrite <- (Rmult_1_l (bpow radix2 n)). apply frnd_id. apply grid_format; [cbn; lia|lia]. Qed.
  Lemma grid4_inv k z z' d d' : (k <= 53)%nat -> grid k 4 z z' -> grid k 4 d d' -> (0 < d')%R ->
    PrimFloat.ltb (z * (1 / d))%float 0%float = Rltb (z' * (1 / d')) 0.
  Proof using Hlo Hhi.
    intros Hk (Fz & Vz & n & Bn & En) (Fd & Vd & m & Bm & Em) Hd. pose proof (pow53 k _ Hk Bn) as Cn. pose proof (pow53 k _ Hk Bm) as Cm.
    set (E := (Z.of_nat 4 * e)%Z) in *. assert (HE : (-800 <= E <= 800)%Z) by (subst E; lia). clearbody E.
    assert (PE : (0 < bpow radix2 E)%R) by apply bpow_gt_0.
    assert (Hm : (1 <= m)%Z). { assert (0 < m)%Z; [|lia]. apply lt_IZR. rewrite Em in Hd. nra. }
    assert (D1 : (bpow radix2 E <= d')%R). { rewrite Em. apply IZR_le in Hm. nra. }
    assert (D2 : (d' <= bpow radix2 (53 + E))%R).
    { rewrite Em, bpow_plus. apply Rmult_le_compat_r; [lra|]. rewrite <- (IZR_Zpower radix2) by lia. apply IZR_le. change (radix2 ^ 53)%Z with (2 ^ 53)%Z. lia. }
    assert (Q1 : (1 / d' <= bpow radix2 (- E))%R). { rewrite bpow_opp. unfold Rdiv. rewrite Rmult_1_l. apply Rinv_le; auto. }
    assert (Q2 : (bpow radix2 (- (53 + E)) <= 1 / d')%R). { rewrite bpow_opp. unfold Rdiv. rewrite Rmult_1_l. apply Rinv_le; auto. }
    assert (HQ : (Rabs (1 / d') <= huge)%R).
    { rewrite Rabs_right; [|pose proof (bpow_gt_0 radix2 (- (53 + E))); lra]. apply Rle_trans with (1 := Q1). unfold huge. apply bpow_le. lia. }
    destruct (fdiv_toR 1 d) as [Fi Vi]; [reflexivity|rewrite Vd; lra|rewrite toR_1, Vd; exact HQ|]. rewrite toR_1, Vd in Vi.
    set (i := (1 / d)%float) in *. clearbody i. apply frnd_le in Q1, Q2. rewrite frnd_bpow in Q1, Q2 by lia. rewrite <- Vi in Q1, Q2. clear HQ.
    assert (PI : (0 < toR i)%R) by (pose proof (bpow_gt_0 radix2 (- (53 + E))); lra).
    assert (PQ : (0 < 1 / d')%R) by (apply Rdiv_lt_0_compat; lra).
    assert (HM : (Rabs (toR z * toR i) <= huge)%R).
    { rewrite Rabs_mult, (Rabs_right (toR i)) by lra. rewrite Vz, En, Rabs_mult, (Rabs_right (bpow radix2 E)) by lra.
      apply Rle_trans with ((bpow radix2 53 * bpow radix2 E) * bpow radix2 (- E))%R.
      - apply Rmult_le_compat; try lra. + apply Rmult_le_pos; [apply Rabs_pos|lra].
        + apply Rmult_le_compat_r; [lra|]. rewrite <- abs_IZR, <- (IZR_Zpower radix2) by lia. apply IZR_le. exact Cn.
      - rewrite <- !bpow_plus. unfold huge. apply bpow_le. lia. }
    destruct (fmul_toR z i Fz Fi HM) as [Fp Vp]. rewrite toR_lt by (auto; reflexivity). rewrite toR_0, Vp, Vz.
    assert (BIG : forall w : Z, (1 <= w)%Z -> (bpow radix2 (-53) <= IZR w * bpow radix2 E * toR i)%R).
    { intros w Hw. replace (-53)%Z with (E + - (53 + E))%Z by lia. rewrite bpow_plus. pose proof (bpow_gt_0 radix2 (- (53 + E))). apply IZR_le in Hw.
      apply Rmult_le_compat; try lra. nra. }
    assert (B0 : (0 < bpow radix2 (-53))%R) by apply bpow_gt_0.
    unfold Rltb. destruct (Ztrichotomy n 0) as [Hn|[Hn|Hn]].
    - assert (K : (frnd (z' * toR i) < 0)%R).
      { specialize (BIG (- n)%Z ltac:(lia)). rewrite opp_IZR in BIG. assert (X : (z' * toR i <= - bpow radix2 (-53))%R) by (rewrite En; nra).
        apply frnd_le in X. unfold frnd in X at 2. rewrite round_NE_opp in X. fold (frnd (bpow radix2 (-53))) in X. rewrite frnd_bpow in X by lia. lra. }
      assert (K' : (z' * (1 / d') < 0)%R). { rewrite En. apply IZR_lt in Hn. assert (IZR n * bpow radix2 E < 0)%R by nra. nra. }
      destruct (Rlt_dec (frnd (z' * toR i)) 0), (Rlt_dec (z' * (1 / d')) 0); auto; lra.
    - subst n. rewrite En. replace (0 * bpow radix2 E * toR i)%R with 0%R by ring. replace (0 * bpow radix2 E * (1 / d'))%R with 0%R by ring.
      rewrite frnd_id by apply generic_format_0. reflexivity.
    - assert (K : (0 <= frnd (z' * toR i))%R).
      { specialize (BIG n ltac:(lia)). assert (X : (bpow radix2 (-53) <= z' * toR i)%R) by (rewrite En; nra).
        apply frnd_le in X. rewrite frnd_bpow in X by lia. lra. }
      assert (K' : (0 <= z' * (1 / d'))%R). { rewrite En. assert (0 <= IZR n)%R by (apply IZR_le; lia). apply Rmult_le_pos; [nra|lra]. }
      destruct (Rlt_dec (frnd (z' * toR i)) 0), (Rlt_dec (z' * (1 / d')) 0); auto; lra.
  Qed.
  Lemma hull_laws : HullLaws (FNum L) grid.
  Proof using Hlo Hhi.
    constructor.
    - exact grid4_sub.
    - exact grid4_add.
    - exact grid4_mul.
    - intros k s k' s' a b a' b' (Fa & <- & _) (Fb & <- & _). apply toR_lt; auto.
    - intros k s k' s' a b a' b' (Fa & <- & _) (Fb & <- & _). apply toR_le; auto.
    - intros k s k' s' a b a' b' (Fa & <- & _) (Fb & <- & _). apply toR_eq; auto.
    - split; [reflexivity|]. split; [apply toR_0|exists 0%Z; split; cbn; [lia|unfold n0; cbn; ring]].
    - split; [reflexivity|]. split; [apply toR_1|exists 1%Z; split; cbn; [lia|unfold n1; cbn; ring]].
    - split; [reflexivity|]. split; [|exists (-1)%Z; split; cbn; [lia|ring]].
      destruct (float_of_Z_exact (-1)) as [_ K]; [cbn; lia|exact K].
    - exact grid4_inv.
  Qed.
End Grid4.
