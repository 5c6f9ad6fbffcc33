(** * Rounding errors of the vector, transform and line methods on doubles *)
From Coq Require Import ZArith List Bool Reals Lra Lia Psatz Floats.
From Flocq Require Import Core IEEE754.PrimFloat IEEE754.BinarySingleNaN.
From Verif Require Import Num NumFloat Vec Affine Line OrdLaws SpecGeom FloatFacts FloatFacts2 FloatFacts3 FloatVec SpecExact FloatExact FloatErr.
Local Open Scope R_scope.

(** Sum of the magnitudes of the terms of a dot and of a cross product. *)
Definition dot_mag (v w : vec R) : R := Rabs (vx v * vx w) + Rabs (vy v * vy w).
Definition cross_mag (v w : vec R) : R := Rabs (vx v * vy w) + Rabs (vy v * vx w).

Lemma dot_mag_pos v w : 0 <= dot_mag v w.
Proof. unfold dot_mag. pose proof (Rabs_pos (vx v * vx w)). pose proof (Rabs_pos (vy v * vy w)). lra. Qed.
Lemma cross_mag_pos v w : 0 <= cross_mag v w.
Proof. unfold cross_mag. pose proof (Rabs_pos (vx v * vy w)). pose proof (Rabs_pos (vy v * vx w)). lra. Qed.

Lemma apx_prod a b : finite a -> finite b -> Rabs (toR a * toR b) <= huge ->
  apx (a * b) (toR a * toR b) (runit * Rabs (toR a * toR b) + tiny).
Proof.
  intros Fa Fb H. destruct (fmul_toR a b Fa Fb H) as [F V]. split; auto. rewrite V. apply frnd_err.
Qed.
Lemma half_huge s : s <= huge / 2 -> 0 <= s -> s + (runit * s + 2 * tiny) <= huge.
Proof.
  intros H P. pose proof runit_small. pose proof runit_pos. pose proof tiny_small.
  assert (4 <= huge) by (unfold huge; change 4 with (bpow radix2 2); apply bpow_le; lia).
  assert (runit * s <= / 1048576 * s) by (apply Rmult_le_compat_r; lra). lra.
Qed.
(** two products added *)
Lemma apx_add2 a b x y A B : apx a x (runit * A + tiny) -> apx b y (runit * B + tiny) -> Rabs x <= A -> Rabs y <= B ->
  A + B <= huge / 2 -> apx (a + b) (x + y) (3 * runit * (A + B) + 3 * tiny).
Proof.
  intros Ha Hb HA HB H. pose proof runit_small as U1. pose proof runit_pos as U0. pose proof tiny_pos as T0.
  pose proof (Rabs_pos x). pose proof (Rabs_pos y).
  eapply apx_weak. { apply (apx_add _ _ _ _ _ _ (A + B + (runit * (A + B) + 2 * tiny)) Ha Hb).
    - pose proof (Rabs_triang x y). lra.
    - apply half_huge; lra. }
  set (M := A + B) in *. assert (0 <= M) by (unfold M; lra).
  replace (runit * A + tiny + (runit * B + tiny) + runit * (M + (runit * M + 2 * tiny)))
    with (2 * (runit * M) + runit * (runit * M) + 2 * tiny + 2 * (runit * tiny)) by (unfold M; ring).
  assert (runit * (runit * M) <= 1 * (runit * M)) by (apply Rmult_le_compat_r; [apply Rmult_le_pos|]; lra).
  assert (runit * tiny <= / 2 * tiny) by (apply Rmult_le_compat_r; lra). lra.
Qed.
Lemma apx_sub2 a b x y A B : apx a x (runit * A + tiny) -> apx b y (runit * B + tiny) -> Rabs x <= A -> Rabs y <= B ->
  A + B <= huge / 2 -> apx (a - b) (x - y) (3 * runit * (A + B) + 3 * tiny).
Proof.
  intros Ha Hb HA HB H. pose proof runit_small as U1. pose proof runit_pos as U0. pose proof tiny_pos as T0.
  pose proof (Rabs_pos x). pose proof (Rabs_pos y).
  eapply apx_weak. { apply (apx_sub _ _ _ _ _ _ (A + B + (runit * (A + B) + 2 * tiny)) Ha Hb).
    - pose proof (Rabs_triang x (- y)) as K. rewrite Rabs_Ropp in K. unfold Rminus. lra.
    - apply half_huge; lra. }
  set (M := A + B) in *. assert (0 <= M) by (unfold M; lra).
  replace (runit * A + tiny + (runit * B + tiny) + runit * (M + (runit * M + 2 * tiny)))
    with (2 * (runit * M) + runit * (runit * M) + 2 * tiny + 2 * (runit * tiny)) by (unfold M; ring).
  assert (runit * (runit * M) <= 1 * (runit * M)) by (apply Rmult_le_compat_r; [apply Rmult_le_pos|]; lra).
  assert (runit * tiny <= / 2 * tiny) by (apply Rmult_le_compat_r; lra). lra.
Qed.

Section Err.
  Variable L : FloatLib.
  Let NL : Num PrimFloat.float := FNum L.
  Existing Instance NL.

  Lemma huge_half x : 0 <= x -> x <= huge / 2 -> x <= huge. Proof. pose proof huge_pos. lra. Qed.

  Lemma dot_err v w : finite_vec v -> finite_vec w -> dot_mag (vecR v) (vecR w) <= huge / 2 ->
    apx (dot v w) (pdot (vecR v) (vecR w)) (3 * runit * dot_mag (vecR v) (vecR w) + 3 * tiny).
  Proof.
    intros [V1 V2] [W1 W2] H. unfold dot, pdot, dot_mag, vecR in *. cbn [vx vy nadd nmul NL FNum] in *.
    pose proof (Rabs_pos (toR (vx v) * toR (vx w))). pose proof (Rabs_pos (toR (vy v) * toR (vy w))). pose proof huge_pos.
    apply apx_add2; try lra; apply apx_prod; auto; lra.
  Qed.
  Lemma cross_err v w : finite_vec v -> finite_vec w -> cross_mag (vecR v) (vecR w) <= huge / 2 ->
    apx (cross v w) (pcross (vecR v) (vecR w)) (3 * runit * cross_mag (vecR v) (vecR w) + 3 * tiny).
  Proof.
    intros [V1 V2] [W1 W2] H. unfold cross, pcross, cross_mag, vecR in *. cbn [vx vy nsub nmul NL FNum] in *.
    pose proof (Rabs_pos (toR (vx v) * toR (vy w))). pose proof (Rabs_pos (toR (vy v) * toR (vx w))). pose proof huge_pos.
    apply apx_sub2; try lra; apply apx_prod; auto; lra.
  Qed.

  (** A sum of products and a further term. *)
  Lemma three_bound (S2 c : R) : 0 <= S2 -> 0 <= c ->
    3 * runit * S2 + 3 * tiny + 0 + runit * (S2 + c + (3 * runit * S2 + 3 * tiny)) <= 5 * runit * (S2 + c) + 4 * tiny.
  Proof.
    intros H1 H2. pose proof runit_small as U1. pose proof runit_pos as U0. pose proof tiny_pos as T0.
    assert (runit * (runit * S2) <= / 3 * (runit * S2)) by (apply Rmult_le_compat_r; [apply Rmult_le_pos|]; lra).
    assert (runit * tiny <= / 3 * tiny) by (apply Rmult_le_compat_r; lra).
    assert (0 <= runit * c) by (apply Rmult_le_pos; lra). lra.
  Qed.
  Lemma three_huge (S2 c : R) : 0 <= S2 -> 0 <= c -> S2 + c <= huge / 2 -> S2 + c + (3 * runit * S2 + 3 * tiny) <= huge.
  Proof.
    intros H1 H2 H. pose proof runit_small. pose proof runit_pos. pose proof tiny_small.
    assert (4 <= huge) by (unfold huge; change 4 with (bpow radix2 2); apply bpow_le; lia).
    assert (runit * S2 <= / 1048576 * S2) by (apply Rmult_le_compat_r; lra). lra.
  Qed.
  Lemma apx_add3 p c x (S2 : R) : apx p x (3 * runit * S2 + 3 * tiny) -> Rabs x <= S2 -> finite c ->
    S2 + Rabs (toR c) <= huge / 2 -> apx (p + c) (x + toR c) (5 * runit * (S2 + Rabs (toR c)) + 4 * tiny).
  Proof.
    intros Hp Hx Fc H. pose proof (Rabs_pos x). pose proof (Rabs_pos (toR c)).
    eapply apx_weak; [|apply three_bound; lra].
    apply (apx_add _ _ _ _ _ _ _ Hp (apx_exact c Fc)); [|apply three_huge; lra].
    pose proof (Rabs_triang x (toR c)). lra.
  Qed.
  Lemma apx_sub3 p c x (S2 : R) : apx p x (3 * runit * S2 + 3 * tiny) -> Rabs x <= S2 -> finite c ->
    S2 + Rabs (toR c) <= huge / 2 -> apx (p - c) (x - toR c) (5 * runit * (S2 + Rabs (toR c)) + 4 * tiny).
  Proof.
    intros Hp Hx Fc H. pose proof (Rabs_pos x). pose proof (Rabs_pos (toR c)).
    eapply apx_weak; [|apply three_bound; lra].
    apply (apx_sub _ _ _ _ _ _ _ Hp (apx_exact c Fc)); [|apply three_huge; lra].
    pose proof (Rabs_triang x (- toR c)) as K. rewrite Rabs_Ropp in K. unfold Rminus. lra.
  Qed.
  Lemma pdot_mag v w : Rabs (pdot v w) <= dot_mag v w.
  Proof. unfold pdot, dot_mag. apply Rabs_triang. Qed.
  Lemma pcross_mag v w : Rabs (pcross v w) <= cross_mag v w.
  Proof. unfold pcross, cross_mag. eapply Rle_trans; [apply Rabs_triang|]. rewrite Rabs_Ropp. lra. Qed.

  (** Application of a transform: the rows of the matrix. *)
  Definition row1 (m : affine R) : vec R := mkV (aa m) (ad m).
  Definition row2 (m : affine R) : vec R := mkV (ab m) (ae m).
  Definition finite_aff (m : affine PrimFloat.float) : Prop :=
    finite (aa m) /\ finite (ab m) /\ finite (ac m) /\ finite (ad m) /\ finite (ae m) /\ finite (af m).
  Lemma aapply_err m v : finite_aff m -> finite_vec v ->
    let M1 := dot_mag (vecR v) (row1 (affR m)) + Rabs (toR (ac m)) in
    let M2 := dot_mag (vecR v) (row2 (affR m)) + Rabs (toR (af m)) in
    M1 <= huge / 2 -> M2 <= huge / 2 ->
    apx (vx (aapply m v)) (vx (aapply (affR m) (vecR v))) (5 * runit * M1 + 4 * tiny) /\
    apx (vy (aapply m v)) (vy (aapply (affR m) (vecR v))) (5 * runit * M2 + 4 * tiny).
  Proof.
    intros (Fa & Fb & Fc & Fd & Fe & Ff) Fv M1 M2 H1 H2. unfold aapply, vec2. cbn [vx vy nadd nmul NL FNum RNum].
    change (@n1 _ NL) with 1%float. change (@n1 _ RNum) with 1. rewrite !fmul1, !Rmult_1_r.
    pose proof (dot_err v (mkV (aa m) (ad m)) Fv (conj Fa Fd)) as K1.
    pose proof (dot_err v (mkV (ab m) (ae m)) Fv (conj Fb Fe)) as K2.
    change (vecR (mkV (aa m) (ad m))) with (row1 (affR m)) in K1. change (vecR (mkV (ab m) (ae m))) with (row2 (affR m)) in K2.
    pose proof (Rabs_pos (toR (ac m))). pose proof (Rabs_pos (toR (af m))). subst M1 M2.
    split; apply apx_add3; auto; [apply K1; lra|apply (pdot_mag (vecR v) (row1 (affR m)))|apply K2; lra|apply (pdot_mag (vecR v) (row2 (affR m)))].
  Qed.

  Lemma line_distance_err l p : finite_vec (dnormal (ldn l)) -> finite (loffset l) -> finite_vec p ->
    let M := dot_mag (vecR p) (vecR (dnormal (ldn l))) + Rabs (toR (loffset l)) in M <= huge / 2 ->
    apx (line_distance_to l p) (pdot (vecR p) (vecR (dnormal (ldn l))) - toR (loffset l)) (5 * runit * M + 4 * tiny).
  Proof.
    intros Fn Fo Fp M H. unfold line_distance_to, vec2_of, vec2. cbn [nsub nmul NL FNum]. change (@n1 _ NL) with 1%float. rewrite !fmul1.
    change {| vx := vx p; vy := vy p |} with (mkV (vx p) (vy p)). replace (mkV (vx p) (vy p)) with p by (destruct p; reflexivity).
    pose proof (Rabs_pos (toR (loffset l))). subst M.
    apply apx_sub3; auto; [apply dot_err; auto; lra|apply pdot_mag].
  Qed.

  Lemma vec2_of_id (p : vec PrimFloat.float) : vec2_of p = p.
  Proof. unfold vec2_of, vec2. cbn [nmul NL FNum]. change (@n1 _ NL) with 1%float. rewrite !fmul1. destruct p; reflexivity. Qed.

  (** Coordinate of the difference of two points in a direction, as computed by
      rays and segments: difference first, then the dot product. *)
  Definition diff_mag (p a : vec R) : Prop := Rabs (vx p - vx a) <= huge /\ Rabs (vy p - vy a) <= huge.
  Lemma apx_diff a b : finite a -> finite b -> Rabs (toR a - toR b) <= huge -> apx (a - b) (toR a - toR b) (runit * Rabs (toR a - toR b)).
  Proof.
    intros Fa Fb H. eapply apx_weak; [apply (apx_sub _ _ _ _ _ _ (Rabs (toR a - toR b)) (apx_exact a Fa) (apx_exact b Fb)); lra|lra].
  Qed.
  Lemma apx_prod1 d b y : finite d -> apx b y (runit * Rabs y) -> Rabs (toR d * y) <= huge / 2 ->
    apx (d * b) (toR d * y) (3 * runit * Rabs (toR d * y) + tiny) /\ apx (b * d) (toR d * y) (3 * runit * Rabs (toR d * y) + tiny).
  Proof.
    intros Fd Hb H. enough (G : apx (d * b) (toR d * y) (3 * runit * Rabs (toR d * y) + tiny)).
    { split; [exact G|]. pose proof (apx_mag _ _ _ Hb) as MB. pose proof runit_small. pose proof runit_pos. pose proof (Rabs_pos (toR d)). pose proof (Rabs_pos y).
      assert (M : Rabs (toR d * toR b) <= huge).
      { rewrite Rabs_mult in *. apply Rle_trans with (Rabs (toR d) * (2 * Rabs y)); [|lra]. apply Rmult_le_compat_l; auto.
        assert (runit * Rabs y <= 1 * Rabs y) by (apply Rmult_le_compat_r; lra). lra. }
      destruct Hb as [Fb _]. destruct (fmul_toR d b Fd Fb M) as [_ V1]. destruct (fmul_toR b d Fb Fd) as [F2 V2]; [rewrite Rmult_comm; exact M|].
      destruct G as [_ G]. split; auto. rewrite V2, Rmult_comm, <- V1. exact G. } pose proof runit_small as U1. pose proof runit_pos as U0. pose proof (Rabs_pos (toR d)). pose proof (Rabs_pos y).
    pose proof huge_pos. rewrite Rabs_mult in *. assert (0 <= Rabs (toR d) * Rabs y) by (apply Rmult_le_pos; lra).
    eapply apx_weak. { apply (apx_mul _ _ _ _ _ _ (Rabs (toR d)) (Rabs y + runit * Rabs y) (apx_exact d Fd) Hb); try lra.
      replace (Rabs (toR d) * (Rabs y + runit * Rabs y)) with ((1 + runit) * (Rabs (toR d) * Rabs y)) by ring.
      apply Rle_trans with (2 * (Rabs (toR d) * Rabs y)); [apply Rmult_le_compat_r; lra|lra]. }
    replace (0 * (Rabs y + runit * Rabs y) + Rabs (toR d) * (runit * Rabs y) + runit * (Rabs (toR d) * (Rabs y + runit * Rabs y)) + tiny)
      with (2 * (runit * (Rabs (toR d) * Rabs y)) + runit * (runit * (Rabs (toR d) * Rabs y)) + tiny) by ring.
    assert (runit * (runit * (Rabs (toR d) * Rabs y)) <= 1 * (runit * (Rabs (toR d) * Rabs y))) by (apply Rmult_le_compat_r; [apply Rmult_le_pos|]; lra). lra.
  Qed.
  Lemma apx_add2' a b x y A B : apx a x (3 * runit * A + tiny) -> apx b y (3 * runit * B + tiny) -> Rabs x <= A -> Rabs y <= B ->
    A + B <= huge / 2 -> apx (a + b) (x + y) (5 * runit * (A + B) + 3 * tiny).
  Proof.
    intros Ha Hb HA HB H. pose proof runit_small as U1. pose proof runit_pos as U0. pose proof tiny_pos as T0. pose proof tiny_small.
    pose proof (Rabs_pos x). pose proof (Rabs_pos y). set (M := A + B) in *. assert (0 <= M) by (unfold M; lra).
    assert (4 <= huge) by (unfold huge; change 4 with (bpow radix2 2); apply bpow_le; lia).
    assert (runit * M <= / 1048576 * M) by (apply Rmult_le_compat_r; lra).
    eapply apx_weak. { apply (apx_add _ _ _ _ _ _ (M + (3 * runit * M + 2 * tiny)) Ha Hb).
      - pose proof (Rabs_triang x y). unfold M in *. lra.
      - lra. }
    replace (3 * runit * A + tiny + (3 * runit * B + tiny) + runit * (M + (3 * runit * M + 2 * tiny)))
      with (4 * (runit * M) + 3 * (runit * (runit * M)) + 2 * tiny + 2 * (runit * tiny)) by (unfold M; ring).
    assert (runit * (runit * M) <= / 3 * (runit * M)) by (apply Rmult_le_compat_r; [apply Rmult_le_pos|]; lra).
    assert (runit * tiny <= / 2 * tiny) by (apply Rmult_le_compat_r; lra). lra.
  Qed.
  Lemma along_err d p a : finite_vec d -> finite_vec p -> finite_vec a ->
    let to := psub (vecR p) (vecR a) in
    Rabs (vx to) <= huge -> Rabs (vy to) <= huge -> dot_mag (vecR d) to <= huge / 2 ->
    apx (dot d (vsub p a)) (pdot (vecR d) to) (5 * runit * dot_mag (vecR d) to + 3 * tiny) /\
    apx (dot (vsub p a) d) (pdot (vecR d) to) (5 * runit * dot_mag (vecR d) to + 3 * tiny).
  Proof.
    intros [D1 D2] [P1 P2] [A1 A2] to Hx Hy H. subst to. unfold dot, vsub, pdot, dot_mag, psub, vecR in *. cbn [vx vy nadd nmul nsub NL FNum] in *.
    pose proof (Rabs_pos (toR (vx d) * (toR (vx p) - toR (vx a)))). pose proof (Rabs_pos (toR (vy d) * (toR (vy p) - toR (vy a)))).
    pose proof (apx_prod1 (vx d) (vx p - vx a) (toR (vx p) - toR (vx a)) ltac:(auto) ltac:(apply apx_diff; auto) ltac:(lra)) as KX.
    pose proof (apx_prod1 (vy d) (vy p - vy a) (toR (vy p) - toR (vy a)) ltac:(auto) ltac:(apply apx_diff; auto) ltac:(lra)) as KY.
    destruct KX, KY. split; apply apx_add2'; auto; lra.
  Qed.
End Err.
