(** * The winding number of a triangle, from the signs of the three areas *)
From Coq Require Import ZArith List Bool Reals Lra Lia Psatz Permutation.
From Verif Require Import Num Vec Affine Polygon SpecGeom SpecAffine SpecWind RBase VecFacts VecFacts2 AffineFacts CentroidFacts WindFacts.
Import ListNotations.
Local Open Scope R_scope.

Lemma straddle_zero (p a b : pt) : orient a b p = 0 -> (vy b < vy p <= vy a \/ vy a < vy p <= vy b) -> on_segment a b p.
Proof.
  intros Z Y. apply on_segment_opposite.
  - rewrite <- Z. ug. ring.
  - assert (C : (vx a - vx p) * (vy b - vy p) = (vy a - vy p) * (vx b - vx p)) by (revert Z; ug; lra).
    ug. cbn [vx vy]. set (ax := vx a - vx p) in *. set (bx := vx b - vx p) in *. set (ay := vy a - vy p) in *. set (bw := vy b - vy p) in *.
    destruct Y as [Y|Y].
    + assert (bw < 0) by (subst bw; lra). assert (0 <= ay) by (subst ay; lra).
      assert (K : (ax * bx + ay * bw) * bw = ay * (bx * bx + bw * bw)) by (transitivity (bx * (ax * bw) + ay * bw * bw); [ring|rewrite C; ring]).
      assert (0 <= ay * (bx * bx + bw * bw)) by (apply Rmult_le_pos; nra). nra.
    + assert (ay < 0) by (subst ay; lra). assert (0 <= bw) by (subst bw; lra).
      assert (K : (ax * bx + ay * bw) * ay = bw * (ax * ax + ay * ay)) by (transitivity (ax * (ay * bx) + ay * ay * bw); [ring|rewrite <- C; ring]).
      assert (0 <= bw * (ax * ax + ay * ay)) by (apply Rmult_le_pos; nra). nra.
Qed.
(** Contribution of an edge that the point is not on. *)
Lemma contrib_off (p a b : pt) : ~ on_segment a b p -> contrib p (a, b) =
  if Rle_dec (vy p) (vy a) then if Rle_dec (vy p) (vy b) then 0%Z else if Rlt_dec 0 (orient a b p) then (-1)%Z else 0%Z
  else if Rle_dec (vy p) (vy b) then if Rlt_dec 0 (orient a b p) then 0%Z else 1%Z else 0%Z.
Proof.
  intro H. rewrite contrib_cases. destruct (Rle_dec (vy p) (vy a)), (Rle_dec (vy p) (vy b)); auto.
  - destruct (Rle_dec 0 (orient a b p)), (Rlt_dec 0 (orient a b p)); auto; try lra. destruct H. apply straddle_zero; lra.
  - destruct (Rle_dec (orient a b p) 0), (Rlt_dec 0 (orient a b p)); auto; lra.
Qed.
Lemma level_off (p a b c : pt) : ~ on_segment a b p -> vy a = vy p -> vy b = vy p -> orient b c p * orient c a p <= 0.
Proof.
  intros H A B. destruct (Rle_dec (pdot (psub a p) (psub b p)) 0) as [D|D].
  - destruct H. apply on_segment_opposite; auto. ug. rewrite A, B. ring.
  - replace (orient b c p * orient c a p) with (- ((vy c - vy p) * (vy c - vy p) * pdot (psub a p) (psub b p))) by (ug; rewrite A, B; ring).
    assert (0 <= (vy c - vy p) * (vy c - vy p) * pdot (psub a p) (psub b p)) by (apply Rmult_le_pos; [apply Rle_0_sqr|lra]). lra.
Qed.
Definition tri_sign (a b c p : pt) : Z :=
  if Rlt_dec 0 (orient a b p) then if Rlt_dec 0 (orient b c p) then if Rlt_dec 0 (orient c a p) then (-1)%Z else 0%Z else 0%Z
  else if Rlt_dec (orient a b p) 0 then if Rlt_dec (orient b c p) 0 then if Rlt_dec (orient c a p) 0 then 1%Z else 0%Z else 0%Z else 0%Z.
Lemma bary_y (a b c p : pt) : orient a b p * (vy c - vy p) + orient b c p * (vy a - vy p) + orient c a p * (vy b - vy p) = 0.
Proof. ug. ring. Qed.
Lemma tri_num (a b c p : pt) : ~ on_segment a b p -> ~ on_segment b c p -> ~ on_segment c a p -> wnum [a; b; c] p = tri_sign a b c p.
Proof.
  intros H1 H2 H3. rewrite wnum_tri, !contrib_off by auto. unfold tri_sign.
  pose proof (bary_y a b c p) as B.
  assert (L : vy a = vy p -> vy b = vy p -> orient a b p = 0) by (intros K1 K2; ug; rewrite K1, K2; ring).
  pose proof (level_off p a b c H1) as D1. pose proof (level_off p b c a H2) as D2. pose proof (level_off p c a b H3) as D3.
  assert (Z1 : orient a b p = 0 -> ~ (vy b < vy p <= vy a \/ vy a < vy p <= vy b)) by (intros K1 K2; apply H1, straddle_zero; auto).
  assert (Z2 : orient b c p = 0 -> ~ (vy c < vy p <= vy b \/ vy b < vy p <= vy c)) by (intros K1 K2; apply H2, straddle_zero; auto).
  assert (Z3 : orient c a p = 0 -> ~ (vy a < vy p <= vy c \/ vy c < vy p <= vy a)) by (intros K1 K2; apply H3, straddle_zero; auto).
  set (x := orient a b p) in *. set (y := orient b c p) in *. set (z := orient c a p) in *. clearbody x y z. clear H1 H2 H3.
  set (u := vy a - vy p) in *. set (v := vy b - vy p) in *. set (w := vy c - vy p) in *.
  assert (U : vy a = vy p + u) by (subst u; ring). assert (V : vy b = vy p + v) by (subst v; ring). assert (W : vy c = vy p + w) by (subst w; ring).
  clearbody u v w. rewrite U, V, W in *. clear U V W.
  assert (L' : u = 0 -> v = 0 -> x = 0) by (intros; apply L; lra). clear L.
  assert (D1' : u = 0 -> v = 0 -> y * z <= 0) by (intros; apply D1; lra). assert (D2' : v = 0 -> w = 0 -> z * x <= 0) by (intros; apply D2; lra). assert (D3' : w = 0 -> u = 0 -> x * y <= 0) by (intros; apply D3; lra). clear D1 D2 D3.
  destruct (Rle_dec (vy p) (vy p + u)), (Rle_dec (vy p) (vy p + v)), (Rle_dec (vy p) (vy p + w));
  destruct (Rlt_dec 0 x), (Rlt_dec 0 y), (Rlt_dec 0 z), (Rlt_dec x 0), (Rlt_dec y 0), (Rlt_dec z 0); auto; exfalso; try lra.
  all: first [apply Z1; [lra|first [left; lra|right; lra]] | apply Z2; [lra|first [left; lra|right; lra]] | apply Z3; [lra|first [left; lra|right; lra]] | clear Z1 Z2 Z3].
  all: try (assert (0 <= u) by lra); try (assert (u < 0) by lra); try (assert (0 <= v) by lra); try (assert (v < 0) by lra); try (assert (0 <= w) by lra); try (assert (w < 0) by lra).
  all: nra.
Qed.
