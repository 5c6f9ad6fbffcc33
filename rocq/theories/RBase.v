(** * Reasoning about the model over the real numbers: basic lemmas *)
From Coq Require Import ZArith List Bool Reals Lra Lia Psatz.
From Verif Require Import Num Vec.
Import ListNotations.
Local Open Scope R_scope.

(** Replace the operations of the class [Num] by those of the reals. *)
Ltac rnum :=
  unfold n0, n1, n2, n3, nfalsy in *;
  cbn [nlit nhalf nadd nsub nmul ndiv nopp nabs nsqrt npow2 nisinf nfloordiv nmod
       nltb nleb neqb ncos nsin ntan natan2 nhypot nradians ndegrees RNum
       vx vy fst snd] in *.

Lemma vec_ext {T} (a b : vec T) : vx a = vx b -> vy a = vy b -> a = b.
Proof. destruct a, b; cbn; intros; subst; auto. Qed.

Lemma mkV_inj {T} (a b c d : T) : mkV a b = mkV c d -> a = c /\ b = d.
Proof. intro H; injection H; auto. Qed.

Lemma vec2_R (x y : R) : vec2 x y = mkV x y.
Proof. unfold vec2; rnum; f_equal; ring. Qed.
Lemma vec2_of_R (p : vec R) : vec2_of p = p.
Proof. unfold vec2_of; rewrite vec2_R; destruct p; auto. Qed.
Lemma vnull_R : vnull = mkV 0 0 :> vec R.
Proof. unfold vnull; rewrite vec2_R; auto. Qed.
Lemma map_vec2_of_R (l : list (vec R)) : map vec2_of l = l.
Proof. induction l as [|a l IH]; cbn; auto. rewrite vec2_of_R, IH; auto. Qed.

Lemma pydiv_R (a b : R) : b <> 0 -> pydiv a b = Ok (a / b).
Proof. intro H; unfold pydiv; rnum. destruct (Reqb_spec b 0); auto; contradiction. Qed.
Lemma pydiv_R0 (a : R) : pydiv a 0 = Err ZeroDivisionError.
Proof. unfold pydiv; rnum. destruct (Reqb_spec 0 0); auto; contradiction. Qed.

Lemma length2_R (v : vec R) : length2 v = vx v * vx v + vy v * vy v.
Proof. reflexivity. Qed.
Lemma length2_nonneg (v : vec R) : 0 <= length2 v.
Proof. rewrite length2_R; nra. Qed.
Lemma vlength_R (v : vec R) : vlength v = sqrt (vx v * vx v + vy v * vy v).
Proof. reflexivity. Qed.
Lemma vlength_nonneg (v : vec R) : 0 <= vlength v.
Proof. rewrite vlength_R; apply sqrt_pos. Qed.
Lemma vlength_sq (v : vec R) : vlength v * vlength v = vx v * vx v + vy v * vy v.
Proof. rewrite vlength_R; apply sqrt_sqrt; nra. Qed.
Lemma vlength_zero (v : vec R) : vlength v = 0 <-> v = mkV 0 0.
Proof.
  split.
  - intro H. pose proof (vlength_sq v) as Hs. rewrite H in Hs.
    apply vec_ext; cbn; nra.
  - intros ->. rewrite vlength_R; cbn. replace (0*0+0*0) with 0 by ring. apply sqrt_0.
Qed.

Lemma sqrt_unique_sq (a b : R) : 0 <= b -> b * b = a -> sqrt a = b.
Proof. intros Hb <-. apply sqrt_square; auto. Qed.
Lemma sq_le_iff (a b : R) : 0 <= a -> 0 <= b -> (a * a <= b * b <-> a <= b).
Proof. intros; split; intros; nra. Qed.
Lemma sq_lt_iff (a b : R) : 0 <= a -> 0 <= b -> (a * a < b * b <-> a < b).
Proof. intros; split; intros; nra. Qed.
Lemma sq_lt_inv (a b : R) : a * a < b * b -> 0 <= b -> a < b.
Proof. intros; nra. Qed.
Lemma sq_le_inv (a b : R) : a * a <= b * b -> 0 <= b -> a <= b.
Proof. intros; nra. Qed.
Lemma sq_eq_iff (a b : R) : 0 <= a -> 0 <= b -> (a * a = b * b <-> a = b).
Proof. intros; split; intros; [nra | subst; auto]. Qed.

(** ** Trigonometry *)

Lemma cos_period_Z (x : R) (k : Z) : cos (x + 2 * IZR k * PI) = cos x.
Proof.
  destruct (Z_le_gt_dec 0 k) as [H|H].
  - replace (IZR k) with (INR (Z.to_nat k)) by (rewrite INR_IZR_INZ, Z2Nat.id; auto).
    apply cos_period.
  - rewrite <- (cos_period _ (Z.to_nat (- k))).
    f_equal. rewrite INR_IZR_INZ, Z2Nat.id by lia. rewrite opp_IZR. ring.
Qed.
Lemma sin_period_Z (x : R) (k : Z) : sin (x + 2 * IZR k * PI) = sin x.
Proof.
  destruct (Z_le_gt_dec 0 k) as [H|H].
  - replace (IZR k) with (INR (Z.to_nat k)) by (rewrite INR_IZR_INZ, Z2Nat.id; auto).
    apply sin_period.
  - rewrite <- (sin_period _ (Z.to_nat (- k))).
    f_equal. rewrite INR_IZR_INZ, Z2Nat.id by lia. rewrite opp_IZR. ring.
Qed.

Lemma cos_sin_same (a b : R) :
  cos a = cos b -> sin a = sin b -> exists k : Z, a = b + 2 * IZR k * PI.
Proof.
  intros Hc Hs.
  assert (H : cos (a - b) = 1).
  { rewrite cos_minus, Hc, Hs. pose proof (sin2_cos2 b) as H. unfold Rsqr in H. lra. }
  assert (H2 : sin ((a - b) / 2) = 0).
  { replace (a - b) with (2 * ((a - b) / 2)) in H by field.
    rewrite cos_2a_sin in H. nra. }
  destruct (sin_eq_0_0 _ H2) as [k Hk].
  exists k. lra.
Qed.

Lemma PI_pos : 0 < PI. Proof. apply PI_RGT_0. Qed.

Lemma sin_cos_sq (a : R) : sin a * sin a + cos a * cos a = 1.
Proof. pose proof (sin2_cos2 a) as H. unfold Rsqr in H. lra. Qed.
