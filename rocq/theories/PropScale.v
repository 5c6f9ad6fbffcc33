(** * Property C117: scaling, clamping, projecting and reflecting vectors on doubles *)
From Coq Require Import ZArith List Bool Reals Lra Lia Floats SpecFloat.
From Flocq Require Import Core IEEE754.PrimFloat IEEE754.BinarySingleNaN.
From Verif Require Import Num NumFloat Vec OrdLaws SpecGeom RBase VecFacts2 FloatFacts FloatFacts2 FloatVec SpecExact FloatExact FloatErr FloatErr2 FloatErr3 SpecRot RotFacts InvF SpecScale ScaleF PropErr.
Local Open Scope R_scope.

Lemma finite_not_inf x : finite x -> PrimFloat.is_infinity x = false.
Proof. intro F. rewrite finite_B in F. rewrite is_infinity_equiv. destruct (Prim2B x); auto; discriminate. Qed.

Lemma norm_diff (a b : pt) : Rabs (norm a - norm b) <= norm (psub a b).
Proof.
  assert (K1 : norm a <= norm (psub a b) + norm b) by (eapply Rle_trans; [|apply norm_triangle]; right; f_equal; ug; vext; ring).
  assert (K2 : norm b <= norm (psub b a) + norm a) by (eapply Rle_trans; [|apply norm_triangle]; right; f_equal; ug; vext; ring).
  pose proof (dist_sym a b) as D. unfold dist in D. apply Rabs_le. lra.
Qed.

(** [scaled_to]: the vector of the given length in the direction of [v]; null
    for vectors not longer than EPSILON. *)
Theorem C117_scaled_to : forall (L : FloatLib) (E : PrimFloat.float) (v : vec PrimFloat.float) (len : PrimFloat.float), sqrt_ok L -> finite_vec v ->
  bpow radix2 (-400) <= norm (vecR v) <= bpow radix2 400 -> finite len -> Rabs (toR len) <= bpow radix2 400 -> finite E -> let N := FNum L in
  (toR E < norm (vecR v) * (1 - 7 * bpow radix2 (-53)) ->
   exists w, scaled_to E v len = Ok w /\ near_vec w (pscale (toR len / norm (vecR v)) (vecR v)) (11 * bpow radix2 (-53) * Rabs (toR len) + bpow radix2 (-660))) /\
  (norm (vecR v) * (1 + 7 * bpow radix2 (-53)) <= toR E -> scaled_to E v len = Ok (mkV 0 0)%float).
Proof.
  intros L E v len HS Fv Hn Fl Bl FE N. pose proof (length_rel L HS v Fv Hn) as K. fold N in K. destruct (apx_lt _ _ _ _ _ _ (apx_exact E FE) K) as [K1 K2]. split.
  - intro H. apply (scaled_err L HS E v len Fv Hn Fl Bl). apply K1. unfold runit. lra.
  - intro H. unfold scaled_to. change (vlength v >? E)%num with (PrimFloat.ltb E (vlength v)). assert (EL : (PrimFloat.ltb E (vlength v)) = false) by (apply not_true_is_false; intro EL; apply K2 in EL; unfold runit in EL; lra). rewrite EL. reflexivity.
Qed.
Print Assumptions C117_scaled_to.

(** [project] of [o] on [v]. *)
Theorem C117_project : forall (L : FloatLib) (E : PrimFloat.float) (v o : vec PrimFloat.float), finite_vec v -> finite_vec o ->
  bpow radix2 (-400) <= norm (vecR v) <= bpow radix2 400 -> norm (vecR o) <= bpow radix2 400 -> finite (fl_pow2 L E) -> let N := FNum L in
  let E2 := toR (fl_pow2 L E) in let n2 := norm (vecR v) * norm (vecR v) in
  (E2 < n2 * (1 - 4 * bpow radix2 (-53)) ->
   exists w, vec_project E v o = Ok w /\ near_vec w (pscale (pdot (vecR v) (vecR o) / n2) (vecR v)) (11 * bpow radix2 (-53) * norm (vecR o) + bpow radix2 (-660))) /\
  (n2 * (1 + 4 * bpow radix2 (-53)) <= E2 -> vec_project E v o = Ok (mkV 0 0)%float).
Proof.
  intros L E v o Fv Fo Hn Ho FE N E2 n2. pose proof (length2_rel L v Fv Hn) as K. fold N in K. fold n2 in K. destruct (apx_lt _ _ _ _ _ _ (apx_exact _ FE) K) as [K1 K2]. fold E2 in K1, K2. split.
  - intro H. apply (project_err L E v o Fv Fo Hn Ho). apply K1. unfold runit. lra.
  - intro H. unfold vec_project. change (length2 v >? npow2 E)%num with (PrimFloat.ltb (fl_pow2 L E) (length2 v)). assert (EL : (PrimFloat.ltb (fl_pow2 L E) (length2 v)) = false) by (apply not_true_is_false; intro EL; apply K2 in EL; unfold runit in EL; lra). rewrite EL. reflexivity.
Qed.
Print Assumptions C117_project.

(** [reflect] of [v] against [o]. *)
Theorem C117_reflect : forall (L : FloatLib) (E : PrimFloat.float) (v o : vec PrimFloat.float), finite_vec v -> finite_vec o ->
  norm (vecR v) <= bpow radix2 400 -> bpow radix2 (-400) <= norm (vecR o) <= bpow radix2 400 -> finite (fl_pow2 L E) -> let N := FNum L in
  let E2 := toR (fl_pow2 L E) in let n2 := norm (vecR o) * norm (vecR o) in
  (E2 < n2 * (1 - 4 * bpow radix2 (-53)) ->
   exists w, vec_reflect E v o = Ok w /\ near_vec w (psub (pscale (2 * pdot (vecR v) (vecR o) / n2) (vecR o)) (vecR v)) (32 * bpow radix2 (-53) * norm (vecR v) + bpow radix2 (-660))) /\
  (n2 * (1 + 4 * bpow radix2 (-53)) <= E2 -> vec_reflect E v o = Ok (mkV 0 0)%float).
Proof.
  intros L E v o Fv Fo Hv Hn FE N E2 n2. pose proof (length2_rel L o Fo Hn) as K. fold N in K. fold n2 in K. destruct (apx_lt _ _ _ _ _ _ (apx_exact _ FE) K) as [K1 K2]. fold E2 in K1, K2. split.
  - intro H. apply (reflect_err L E v o Fv Fo Hv Hn). apply K1. unfold runit. lra.
  - intro H. unfold vec_reflect. change (vx o * vx o + vy o * vy o >? npow2 E)%num with (PrimFloat.ltb (fl_pow2 L E) (length2 o)). assert (EL : (PrimFloat.ltb (fl_pow2 L E) (length2 o)) = false) by (apply not_true_is_false; intro EL; apply K2 in EL; unfold runit in EL; lra). rewrite EL. reflexivity.
Qed.
Print Assumptions C117_reflect.

(** [clamped]: the result points in the direction of [v] and has the length [c],
    which is within the bounds up to rounding; a vector within the bounds by a
    small margin is returned unchanged. *)
Theorem C117_clamped : forall (L : FloatLib) (E : PrimFloat.float) (v : vec PrimFloat.float) (mn mx : option PrimFloat.float), sqrt_ok L -> pow_ok L -> finite_vec v ->
  bpow radix2 (-400) <= norm (vecR v) <= bpow radix2 400 -> finite E -> toR E < norm (vecR v) * (1 - 7 * bpow radix2 (-53)) ->
  (forall b, mn = Some b \/ mx = Some b -> finite b /\ 0 <= toR b <= bpow radix2 400) -> (forall a b, mn = Some a -> mx = Some b -> toR a <= toR b) -> let N := FNum L in
  exists (w : vec PrimFloat.float) (c : R), clamped E v mn mx = Ok w /\
    0 <= c /\ near_vec w (pscale (c / norm (vecR v)) (vecR v)) (11 * bpow radix2 (-53) * c + bpow radix2 (-660)) /\
    Rabs (norm (vecR w) - c) <= 22 * bpow radix2 (-53) * c + bpow radix2 (-659) /\
    (forall a, mn = Some a -> toR a * (1 - 8 * bpow radix2 (-53)) - bpow radix2 (-500) <= c) /\
    (forall b, mx = Some b -> c <= toR b * (1 + 8 * bpow radix2 (-53)) + bpow radix2 (-500)) /\
    ((forall a, mn = Some a -> toR a * (1 + 8 * bpow radix2 (-53)) + bpow radix2 (-500) <= norm (vecR v)) ->
     (forall b, mx = Some b -> norm (vecR v) <= toR b * (1 - 8 * bpow radix2 (-53)) - bpow radix2 (-500)) -> w = v).
Proof.
  intros L E v mn mx HS HP Fv Hn FE HE HB HO N. pose proof (length_rel L HS v Fv Hn) as KL. fold N in KL. pose proof (length2_rel L v Fv Hn) as K2. fold N in K2.
  assert (EL : PrimFloat.ltb E (vlength v) = true) by (apply (apx_lt _ _ _ _ _ _ (apx_exact E FE) KL); unfold runit; lra).
  set (n := norm (vecR v)) in *. set (z := bpow radix2 (-500)) in *. fold runit in *. fold sm in *. pose proof runit_pos as U0. pose proof runit_small as U1. pose proof tiny_pos as T0.
  assert (Z0 : 0 < z) by apply bpow_gt_0. assert (ZT : 1024 * tiny <= z * z) by (unfold z, tiny; rewrite <- bpow_plus; change 1024 with (bpow radix2 10); rewrite <- bpow_plus; apply bpow_le; lia).
  assert (N0 : 0 < n) by (destruct lo_hi as (L0 & _); unfold lo in L0; lra).
  (* squares of the bounds *)
  assert (SQ : forall b, finite b -> 0 <= toR b <= bpow radix2 400 -> pypow2 (N := N) b = Ok (fl_pow2 L b) /\ apx (fl_pow2 L b) (toR b * toR b) (2 * runit * (toR b * toR b) + 2 * tiny)).
  { intros b Fb Bb. destruct (HP b Fb) as [F V]; [rewrite Rabs_pos_eq; lra|]. split; [|split; [exact F|exact V]]. unfold pypow2. change (nisinf (npow2 b)) with (PrimFloat.is_infinity (fl_pow2 L b)). rewrite (finite_not_inf _ F). reflexivity. }
  assert (UU : runit * runit <= / 1048576 * runit) by (apply Rmult_le_compat_r; lra). assert (UU0 : 0 <= runit * runit) by (apply Rmult_le_pos; lra).
  (* decisions *)
  assert (LOW : forall b, 0 <= b -> b * b - (2 * runit * (b * b) + 2 * tiny) <= n * n + 4 * runit * (n * n) -> b * (1 - 8 * runit) - z <= n).
  { intros b Hb H. apply Rnot_lt_le. intro C. set (A := b * (1 - 8 * runit)) in *. assert (B2 : 0 <= b * b) by (apply Rmult_le_pos; lra). assert (NN : 0 <= n * n) by (apply Rmult_le_pos; lra).
    assert (NA : n * n <= A * A - z * z). { assert (n * n <= (A - z) * (A - z)) by (apply Rmult_le_compat; lra). assert (z * z <= A * z) by (apply Rmult_le_compat_r; lra). lra. }
    assert (AA : A * A * (1 + 4 * runit) <= b * b * (1 - 2 * runit)). { unfold A. replace (b * (1 - 8 * runit) * (b * (1 - 8 * runit)) * (1 + 4 * runit)) with (b * b * ((1 - 8 * runit) * (1 - 8 * runit) * (1 + 4 * runit))) by ring. apply Rmult_le_compat_l; [lra|]. assert (0 <= runit * (runit * runit) <= / 1048576 * (runit * runit)) by (split; [apply Rmult_le_pos; lra|apply Rmult_le_compat_r; lra]). lra. }
    assert (n * n * (1 + 4 * runit) <= (A * A - z * z) * (1 + 4 * runit)) by (apply Rmult_le_compat_r; lra). assert (0 <= z * z * runit) by (apply Rmult_le_pos; [apply Rmult_le_pos|]; lra). lra. }
  assert (HIGH : forall b, 0 <= b -> n * n - 4 * runit * (n * n) <= b * b + (2 * runit * (b * b) + 2 * tiny) -> n <= b * (1 + 8 * runit) + z).
  { intros b Hb H. apply Rnot_lt_le. intro C. set (A := b * (1 + 8 * runit)) in *. assert (A0 : 0 <= A) by (unfold A; apply Rmult_le_pos; lra). assert (B2 : 0 <= b * b) by (apply Rmult_le_pos; lra).
    assert (NA : A * A + z * z <= n * n). { assert ((A + z) * (A + z) <= n * n) by (apply Rmult_le_compat; lra). assert (0 <= A * z) by (apply Rmult_le_pos; lra). lra. }
    assert (AA : b * b * (1 + 2 * runit) <= A * A * (1 - 4 * runit)). { unfold A. replace (b * (1 + 8 * runit) * (b * (1 + 8 * runit)) * (1 - 4 * runit)) with (b * b * ((1 + 8 * runit) * (1 + 8 * runit) * (1 - 4 * runit))) by ring. apply Rmult_le_compat_l; [lra|]. assert (0 <= runit * (runit * runit) <= / 1048576 * (runit * runit)) by (split; [apply Rmult_le_pos; lra|apply Rmult_le_compat_r; lra]). lra. }
    assert ((A * A + z * z) * (1 - 4 * runit) <= n * n * (1 - 4 * runit)) by (apply Rmult_le_compat_r; lra). assert (z * z * runit <= z * z * / 1048576) by (apply Rmult_le_compat_l; [apply Rmult_le_pos|]; lra). lra. }
  assert (NEAR : forall (w : vec PrimFloat.float) c, 0 <= c -> near_vec w (pscale (c / n) (vecR v)) (11 * runit * c + sm) -> Rabs (norm (vecR w) - c) <= 22 * runit * c + bpow radix2 (-659)).
  { intros w c Hc [H1 H2]. destruct (near_dist w _ _ H1 H2) as [_ D]. assert (NC : norm (pscale (c / n) (vecR v)) = c). { rewrite VecFacts2.norm_scale. fold n. rewrite Rabs_pos_eq; [field; lra|]. apply Rmult_le_pos; [lra|left; apply Rinv_0_lt_compat; lra]. }
    assert (S2 : 2 * sm = bpow radix2 (-659)) by (unfold sm; change 2 with (bpow radix2 1) at 1; rewrite <- bpow_plus; reflexivity). rewrite <- S2. rewrite <- NC at 1. eapply Rle_trans; [apply norm_diff|]. unfold dist in D. lra. }
  assert (SELF : near_vec v (pscale (n / n) (vecR v)) (11 * runit * n + sm)).
  { assert (NN1 : n / n = 1) by (field; lra). rewrite NN1. pose proof sm_pos. assert (0 <= runit * n) by (apply Rmult_le_pos; lra). destruct Fv as [F1 F2]. unfold near_vec, pscale, vecR. cbn [vx vy]. rewrite !Rmult_1_l. split; (eapply apx_weak; [apply apx_exact; assumption|lra]). }
  assert (SCALE : forall b, finite b -> 0 <= toR b <= bpow radix2 400 -> exists w, scaled_to (N := N) E v b = Ok w /\ near_vec w (pscale (toR b / n) (vecR v)) (11 * runit * toR b + sm)).
  { intros b Fb Bb. destruct (scaled_err L HS E v b Fv Hn Fb ltac:(rewrite Rabs_pos_eq; [apply Bb|lra]) EL) as (w & E1 & E2). exists w. split; [exact E1|]. rewrite (Rabs_pos_eq (toR b)) in E2 by lra. exact E2. }
  assert (NOBAD : (match mn, mx with Some a, Some b => (a >? b)%num | _, _ => false end) = false).
  { destruct mn as [a|], mx as [b|]; try reflexivity. destruct (HB a (or_introl eq_refl)) as [Fa _]. destruct (HB b (or_intror eq_refl)) as [Fb _]. change (PrimFloat.ltb b a = false). rewrite toR_lt by assumption. unfold Rltb. specialize (HO a b eq_refl eq_refl). destruct (Rlt_dec (toR b) (toR a)); [lra|reflexivity]. }
  (* the upper bound *)
  assert (UP : exists (w : vec PrimFloat.float) (c : R), (match mx with Some b => bind (pypow2 b) (fun b2 => if (length2 v >? b2)%num then scaled_to E v b else Ok v) | None => Ok v end) = Ok w /\ 0 <= c /\ near_vec w (pscale (c / n) (vecR v)) (11 * runit * c + sm) /\
    (c = n \/ (exists b, mx = Some b /\ c = toR b)) /\ (forall b, mx = Some b -> c <= toR b * (1 + 8 * runit) + z) /\ ((forall b, mx = Some b -> n <= toR b * (1 - 8 * runit) - z) -> w = v)).
  { destruct mx as [b|]; [|exists v, n; split; [reflexivity|]; split; [lra|]; split; [exact SELF|]; split; [left; reflexivity|]; split; [discriminate|reflexivity]].
    destruct (HB b (or_intror eq_refl)) as [Fb Bb]. destruct (SQ b Fb Bb) as [E1 K1]. rewrite E1. cbn [bind]. change (length2 v >? fl_pow2 L b)%num with (PrimFloat.ltb (fl_pow2 L b) (length2 v)). destruct (apx_lt _ _ _ _ _ _ K1 K2) as [D1 D2].
    destruct (PrimFloat.ltb (fl_pow2 L b) (length2 v)) eqn:EQ.
    - destruct (SCALE b Fb Bb) as (w & E3 & E4). exists w, (toR b). split; [exact E3|]. split; [lra|]. split; [exact E4|]. split; [right; exists b; auto|]. split.
      + intros b' [= <-]. assert (0 <= toR b * runit) by (apply Rmult_le_pos; lra). lra.
      + intro H. specialize (H b eq_refl). specialize (D2 eq_refl). exfalso. assert (NB : toR b * (1 - 8 * runit) - z <= n - z - z). 2: lra. exfalso. clear - H D2 Z0 ZT N0 U0 U1 UU UU0 T0 Bb.
        set (x := toR b) in *. assert (B2 : 0 <= x * x) by (apply Rmult_le_pos; lra). set (A := x * (1 - 8 * runit)) in *. assert (NA : n * n <= A * A - z * z). { assert (n * n <= (A - z) * (A - z)) by (apply Rmult_le_compat; lra). assert (z * z <= A * z) by (apply Rmult_le_compat_r; lra). lra. }
        assert (AA : A * A * (1 + 4 * runit) <= x * x * (1 - 2 * runit)). { unfold A. replace (x * (1 - 8 * runit) * (x * (1 - 8 * runit)) * (1 + 4 * runit)) with (x * x * ((1 - 8 * runit) * (1 - 8 * runit) * (1 + 4 * runit))) by ring. apply Rmult_le_compat_l; [lra|]. assert (0 <= runit * (runit * runit) <= / 1048576 * (runit * runit)) by (split; [apply Rmult_le_pos; lra|apply Rmult_le_compat_r; lra]). lra. }
        assert (n * n * (1 + 4 * runit) <= (A * A - z * z) * (1 + 4 * runit)) by (apply Rmult_le_compat_r; lra). assert (0 <= z * z * runit) by (apply Rmult_le_pos; [apply Rmult_le_pos|]; lra). lra.
    - exists v, n. split; [reflexivity|]. split; [lra|]. split; [exact SELF|]. split; [left; reflexivity|]. split; [|reflexivity].
      intros b' [= <-]. apply HIGH; [lra|]. apply Rnot_lt_le. intro C. assert (false = true) by (apply D1; lra). discriminate. }
  destruct UP as (w & c & E1 & C0 & Nw & Cc & Cu & Ci).
  destruct mn as [a|].
  - destruct (HB a (or_introl eq_refl)) as [Fa Ba]. destruct (SQ a Fa Ba) as [E2 K1]. destruct (apx_lt _ _ _ _ _ _ K2 K1) as [D1 D2].
    destruct (PrimFloat.ltb (length2 v) (fl_pow2 L a)) eqn:EQ.
    + destruct (SCALE a Fa Ba) as (w' & E3 & E4). exists w', (toR a). split.
      { unfold clamped. rewrite NOBAD. cbv zeta. rewrite E2. cbn [bind]. change (length2 v <? fl_pow2 L a)%num with (PrimFloat.ltb (length2 v) (fl_pow2 L a)). rewrite EQ. exact E3. }
      split; [lra|]. split; [exact E4|]. split; [apply NEAR; [lra|exact E4]|]. assert (UA : 0 <= toR a * runit) by (apply Rmult_le_pos; lra). split; [intros a' [= <-]; lra|]. split.
      * intros b Hb. specialize (HO a b eq_refl Hb). destruct (HB b (or_intror Hb)) as [_ Bb]. assert (0 <= toR b * runit) by (apply Rmult_le_pos; lra). lra.
      * intros H _. exfalso. specialize (H a eq_refl). specialize (D2 eq_refl). clear - H D2 Z0 ZT N0 U0 U1 UU UU0 T0 Ba.
        set (x := toR a) in *. assert (B2 : 0 <= x * x) by (apply Rmult_le_pos; lra). set (A := x * (1 + 8 * runit)) in *. assert (A0 : 0 <= A) by (unfold A; apply Rmult_le_pos; lra).
        assert (NA : A * A + z * z <= n * n). { assert ((A + z) * (A + z) <= n * n) by (apply Rmult_le_compat; lra). assert (0 <= A * z) by (apply Rmult_le_pos; lra). lra. }
        assert (AA : x * x * (1 + 2 * runit) <= A * A * (1 - 4 * runit)). { unfold A. replace (x * (1 + 8 * runit) * (x * (1 + 8 * runit)) * (1 - 4 * runit)) with (x * x * ((1 + 8 * runit) * (1 + 8 * runit) * (1 - 4 * runit))) by ring. apply Rmult_le_compat_l; [lra|]. assert (0 <= runit * (runit * runit) <= / 1048576 * (runit * runit)) by (split; [apply Rmult_le_pos; lra|apply Rmult_le_compat_r; lra]). lra. }
        assert ((A * A + z * z) * (1 - 4 * runit) <= n * n * (1 - 4 * runit)) by (apply Rmult_le_compat_r; lra). assert (z * z * runit <= z * z * / 1048576) by (apply Rmult_le_compat_l; [apply Rmult_le_pos|]; lra). lra.
    + exists w, c. split.
      { unfold clamped. rewrite NOBAD. cbv zeta. rewrite E2. cbn [bind]. change (length2 v <? fl_pow2 L a)%num with (PrimFloat.ltb (length2 v) (fl_pow2 L a)). rewrite EQ. exact E1. }
      split; [exact C0|]. split; [exact Nw|]. split; [apply NEAR; assumption|]. split.
      * intros a' [= <-]. destruct Cc as [-> | (b & Hb & ->)].
        -- apply LOW; [lra|]. apply Rnot_lt_le. intro C. assert (false = true) by (apply D1; lra). discriminate.
        -- specialize (HO a b eq_refl Hb). assert (0 <= toR a * runit) by (apply Rmult_le_pos; lra). lra.
      * split; [exact Cu|]. intros _ H. apply Ci, H.
  - exists w, c. split; [exact E1|]. split; [exact C0|]. split; [exact Nw|]. split; [apply NEAR; assumption|]. split; [discriminate|]. split; [exact Cu|]. intros _ H. apply Ci, H.
Qed.
Print Assumptions C117_clamped.

(** The hypotheses hold: IEEE square root and product, the vector (3, 4), the
    bounds 1 and 2, for which [clamped] scales down to the length 2. *)
Lemma ieee_pow_ok : pow_ok ieee_lib.
Proof.
  intros x F H. assert (X0 : 0 <= toR x * toR x) by apply Rle_0_sqr.
  assert (B : toR x * toR x <= huge).
  { rewrite <- (Rabs_pos_eq _ X0), Rabs_mult. eapply Rle_trans; [apply Rmult_le_compat; [apply Rabs_pos|apply Rabs_pos|exact H|exact H]|]. rewrite <- bpow_plus. apply bpow_le. lia. }
  destruct (apx_prod x x F F) as [F2 V]; [rewrite Rabs_pos_eq; assumption|]. rewrite (Rabs_pos_eq _ X0) in V. split; [exact F2|]. cbn [fl_pow2 ieee_lib].
  fold runit. change (bpow radix2 (-1075)) with tiny. pose proof tiny_pos. pose proof (Rmult_le_pos _ _ (Rlt_le _ _ runit_pos) X0). lra.
Qed.
Example C117_ex : sqrt_ok ieee_lib /\ pow_ok ieee_lib /\
  let v := (mkV 3 4)%float in let o := (mkV 1 7)%float in let N := FNum ieee_lib in
  finite_vec v /\ finite_vec o /\ bpow radix2 (-400) <= norm (vecR v) <= bpow radix2 400 /\ norm (vecR o) <= bpow radix2 400 /\
  finite 0x1p-17 /\ toR 0x1p-17 < norm (vecR v) * (1 - 7 * bpow radix2 (-53)) /\ finite (fl_pow2 ieee_lib 0x1p-17) /\
  toR (fl_pow2 ieee_lib 0x1p-17) < norm (vecR v) * norm (vecR v) * (1 - 4 * bpow radix2 (-53)) /\
  (forall b, Some 1%float = Some b \/ Some 2%float = Some b -> finite b /\ 0 <= toR b <= bpow radix2 400) /\ toR 1 <= toR 2 /\
  clamped (N := N) 0x1p-17%float v (Some 1%float) (Some 2%float) = Ok (mkV 0x1.3333333333334p0 0x1.999999999999ap0)%float /\
  vec_project (N := N) 0x1p-17%float v o = Ok (mkV 0x1.dc28f5c28f5c2p1 0x1.3d70a3d70a3d7p2)%float.
Proof.
  destruct ieee_ok as [HS _]. split; [exact HS|]. split; [exact ieee_pow_ok|]. cbv zeta.
  assert (T1 : toR 1 = 1) by (vm_compute; lra). assert (T2 : toR 2 = 2) by (vm_compute; lra). assert (T3 : toR 3 = 3) by (vm_compute; lra). assert (T4 : toR 4 = 4) by (vm_compute; lra). assert (T7 : toR 7 = 7) by (vm_compute; lra).
  assert (TE : toR 0x1p-17 = / 131072) by (vm_compute; lra). assert (TE2 : toR (fl_pow2 ieee_lib 0x1p-17) = / 17179869184) by (vm_compute; lra).
  assert (NV : norm (vecR (mkV 3 4)%float) = 5). { unfold norm, vecR. cbn [vx vy]. rewrite T3, T4. replace (3 * 3 + 4 * 4) with (5 * 5) by ring. apply sqrt_square. lra. }
  assert (NO : norm (vecR (mkV 1 7)%float) <= 8). { apply norm_le_iff; [lra|]. unfold vecR. cbn [vx vy]. rewrite T1, T7. lra. }
  assert (B1 : bpow radix2 (-400) <= 1) by (change 1 with (bpow radix2 0); apply bpow_le; lia). assert (B2 : 8 <= bpow radix2 400) by (change 8 with (bpow radix2 3); apply bpow_le; lia).
  pose proof runit_small as U. unfold runit in U. rewrite NV, TE, TE2, T1, T2.
  split; [split; reflexivity|]. split; [split; reflexivity|]. split; [lra|]. split; [lra|]. split; [reflexivity|]. split; [lra|]. split; [reflexivity|]. split; [lra|].
  split; [intros b [[= <-]|[= <-]]; rewrite ?T1, ?T2; split; try reflexivity; lra|]. split; [lra|]. split; vm_compute; reflexivity.
Qed.
