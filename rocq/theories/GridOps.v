(** * Exact sums, differences and products of bounded multiples of a power of two *)
From Coq Require Import ZArith List Bool Reals Lra Lia Floats.
From Flocq Require Import Core IEEE754.PrimFloat IEEE754.BinarySingleNaN.
From Verif Require Import Num NumFloat Vec Affine SpecGeom SpecAffine SpecExact SpecGrid RBase FloatFacts FloatFacts2 FloatExact FloatErr FloatVec.
Import ListNotations.
Local Open Scope R_scope.

(** The double [f] stands for [x], which is [z] units of [2 ^ e]. *)
Definition gz (B e : Z) (f : PrimFloat.float) (x : R) : Prop := finite f /\ toR f = x /\ exists z : Z, (Z.abs z <= B)%Z /\ x = IZR z * bpow radix2 e.

Lemma units_gz B e f : units B e f -> gz B e f (toR f).
Proof. intros (F & z & Hz & V). split; [exact F|]. split; [reflexivity|]. exists z. auto. Qed.
Lemma gz_units B e f x : gz B e f x -> units B e f.
Proof. intros (F & V & z & Hz & E). split; [exact F|]. exists z. split; [exact Hz|]. rewrite V. exact E. Qed.
Lemma gz_val B e f x : gz B e f x -> toR f = x. Proof. intros (_ & V & _). exact V. Qed.
Lemma gz_fin B e f x : gz B e f x -> finite f. Proof. intros (F & _). exact F. Qed.
Lemma gz_eq B e f x y : gz B e f x -> x = y -> gz B e f y. Proof. intros H <-. exact H. Qed.
Lemma gz_weak B B' e f x : gz B e f x -> (B <= B')%Z -> gz B' e f x.
Proof. intros (F & V & z & Hz & E) H. split; [exact F|]. split; [exact V|]. exists z. split; [lia|exact E]. Qed.
Lemma gz_pos B e f x : gz B e f x -> (0 <= B)%Z. Proof. intros (_ & _ & z & Hz & _). lia. Qed.

Lemma grid_rnd (z e : Z) : (Z.abs z <= 2 ^ 53)%Z -> (-1000 <= e <= 900)%Z ->
  frnd (IZR z * bpow radix2 e) = IZR z * bpow radix2 e /\ Rabs (IZR z * bpow radix2 e) <= huge.
Proof.
  intros Hz He. split; [apply round_generic; [apply valid_rnd_round_mode|apply grid_format; lia]|].
  rewrite Rabs_mult, (Rabs_right (bpow radix2 e)) by (apply Rle_ge, bpow_ge_0). unfold huge. replace 1000%Z with (1000 - e + e)%Z by lia. rewrite bpow_plus.
  apply Rmult_le_compat_r; [apply bpow_ge_0|]. rewrite <- abs_IZR. apply Rle_trans with (bpow radix2 53); [|apply bpow_le; lia].
  rewrite <- IZR_Zpower by lia. apply IZR_le. exact Hz.
Qed.
Lemma gz_add B C e f g x y : gz B e f x -> gz C e g y -> (B + C <= 2 ^ 53)%Z -> (-1000 <= e <= 900)%Z -> gz (B + C) e (f + g)%float (x + y).
Proof.
  intros (F & V & z & Hz & E) (G & W & w & Hw & D) H He. assert (S0 : x + y = IZR (z + w) * bpow radix2 e) by (rewrite plus_IZR, E, D; ring).
  destruct (grid_rnd (z + w) e) as [R1 R2]; [lia|lia|]. destruct (fadd_toR f g F G) as [A1 A2]; [rewrite V, W, S0; exact R2|].
  split; [exact A1|]. split; [rewrite A2, V, W, S0; exact R1|]. exists (z + w)%Z. split; [lia|exact S0].
Qed.
Lemma gz_sub B C e f g x y : gz B e f x -> gz C e g y -> (B + C <= 2 ^ 53)%Z -> (-1000 <= e <= 900)%Z -> gz (B + C) e (f - g)%float (x - y).
Proof.
  intros (F & V & z & Hz & E) (G & W & w & Hw & D) H He. assert (S0 : x - y = IZR (z - w) * bpow radix2 e) by (rewrite minus_IZR, E, D; ring).
  destruct (grid_rnd (z - w) e) as [R1 R2]; [lia|lia|]. destruct (fsub_toR f g F G) as [A1 A2]; [rewrite V, W, S0; exact R2|].
  split; [exact A1|]. split; [rewrite A2, V, W, S0; exact R1|]. exists (z - w)%Z. split; [lia|exact S0].
Qed.
Lemma gz_mul B C e e' f g x y : gz B e f x -> gz C e' g y -> (B * C <= 2 ^ 53)%Z -> (-1000 <= e + e' <= 900)%Z -> gz (B * C) (e + e') (f * g)%float (x * y).
Proof.
  intros (F & V & z & Hz & E) (G & W & w & Hw & D) H He. assert (S0 : x * y = IZR (z * w) * bpow radix2 (e + e')) by (rewrite mult_IZR, bpow_plus, E, D; ring).
  assert (HB : (Z.abs (z * w) <= B * C)%Z) by (rewrite Z.abs_mul; apply Z.mul_le_mono_nonneg; lia).
  destruct (grid_rnd (z * w) (e + e')) as [R1 R2]; [lia|lia|]. destruct (fmul_toR f g F G) as [A1 A2]; [rewrite V, W, S0; exact R2|].
  split; [exact A1|]. split; [rewrite A2, V, W, S0; exact R1|]. exists (z * w)%Z. split; [exact HB|exact S0].
Qed.
Lemma gz_opp B e f x : gz B e f x -> gz B e (- f)%float (- x).
Proof.
  intros (F & V & z & Hz & E). destruct (fopp_toR f F) as [A1 A2]. split; [exact A1|]. split; [rewrite A2, V; reflexivity|]. exists (- z)%Z.
  split; [lia|]. rewrite opp_IZR, E. ring.
Qed.
Lemma gz_shift B k e f x : gz B e f x -> (0 <= k)%Z -> gz (B * 2 ^ k) (e - k) f x.
Proof.
  intros (F & V & z & Hz & E) Hk. split; [exact F|]. split; [exact V|]. exists (z * 2 ^ k)%Z. pose proof (Z.pow_pos_nonneg 2 k ltac:(lia) Hk).
  split; [rewrite Z.abs_mul, (Z.abs_eq (2 ^ k)) by lia; nia|]. rewrite mult_IZR, E. change (2 ^ k)%Z with (Zpower radix2 k). rewrite IZR_Zpower by lia.
  rewrite Rmult_assoc, <- bpow_plus. do 2 f_equal. lia.
Qed.
(** [x * a + y * b] and the same with a translation. *)
Lemma gz_dot2 B e K d f g h k x y a b : gz B e f x -> gz K d g a -> gz B e h y -> gz K d k b -> (2 * (K * B) <= 2 ^ 53)%Z -> (-1000 <= d + e <= 900)%Z ->
  gz (2 * (K * B)) (d + e) (f * g + h * k)%float (x * a + y * b).
Proof.
  intros H1 H2 H3 H4 H He. replace (2 * (K * B))%Z with (B * K + B * K)%Z by ring. replace (d + e)%Z with (e + d)%Z by ring.
  pose proof (gz_pos _ _ _ _ H1). pose proof (gz_pos _ _ _ _ H2). assert (0 <= K * B)%Z by nia. apply gz_add; try lia; apply gz_mul; auto; lia.
Qed.
Lemma gz_dot3 B e K d C f g h k t x y a b c : gz B e f x -> gz K d g a -> gz B e h y -> gz K d k b -> gz C (d + e) t c -> (2 * (K * B) + C <= 2 ^ 53)%Z -> (-1000 <= d + e <= 900)%Z ->
  gz (2 * (K * B) + C) (d + e) (f * g + h * k + t)%float (x * a + y * b + c).
Proof. intros H1 H2 H3 H4 H5 H He. pose proof (gz_pos _ _ _ _ H5). apply gz_add; auto. apply gz_dot2; auto. lia. Qed.
