(** * Normalization of any doubles: near the unit circle, NaN, or refused *)
From Coq Require Import ZArith List Bool Reals Lra Lia Psatz Floats SpecFloat.
From Flocq Require Import Core IEEE754.PrimFloat IEEE754.BinarySingleNaN.
From Verif Require Import Num NumFloat Vec Affine Line LineOps OrdLaws SpecGeom RBase FloatFacts FloatFacts2 FloatFacts3 FloatVec SpecExact FloatExact FloatErr FloatErr2 FloatErr3 SpecFrame.
Local Open Scope R_scope.

(** ** What every successful setter establishes holds throughout every history *)
Section Any.
  Context {T : Type} {N : Num T}.
  Variable E : T.
  Variable P : dirn T -> Prop.
  Hypothesis HD : forall v d, set_direction E v = Ok d -> P d.
  Hypothesis HN : forall v d, set_normal E v = Ok d -> P d.
  Lemma line_new_any p v l : line_new E p v = Ok l -> P (ldn l).
  Proof using HD. unfold line_new. destruct (set_direction E v) as [d|] eqn:H; cbn; [|discriminate]. intros [= <-]. cbn. eauto. Qed.
  Lemma line_from_points_any ps l : line_from_points E ps = Ok l -> P (ldn l).
  Proof using HD.
    unfold line_from_points. destruct (two_distinct ps) as [[[a e] rest]|]; cbn [bind]; [|discriminate].
    destruct (set_direction E (vsub e a)) as [d|] eqn:H; cbn [bind]; [|discriminate]. destruct (forallb _ _); [|discriminate]. intros [= <-]. cbn. eauto.
  Qed.
  Lemma line_from_normal_any n o l : line_from_normal E n o = Ok l -> P (ldn l).
  Proof using HN. unfold line_from_normal. destruct (set_normal E n) as [d|] eqn:H; cbn; [|discriminate]. intros [= <-]. cbn. eauto. Qed.
  Lemma line_try_any l o l' : P (ldn l) -> line_try E l o = Ok l' -> P (ldn l').
  Proof using HD HN.
    intro HP. destruct o as [v|v|x|m]; cbn [line_try].
    - unfold line_set_direction. destruct (set_direction E v) as [d|] eqn:H; cbn; [|discriminate]. intros [= <-]. cbn. eauto.
    - unfold line_set_normal. destruct (set_normal E v) as [d|] eqn:H; cbn; [|discriminate]. intros [= <-]. cbn. eauto.
    - intros [= <-]. exact HP.
    - unfold line_imul. destruct (line_points l) as [p1 p2]. destruct (set_direction E _) as [d|] eqn:H; cbn; [|discriminate]. intros [= <-]. cbn. eauto.
  Qed.
  Lemma line_run_any os : forall l, P (ldn l) -> P (ldn (line_run E l os)).
  Proof using HD HN.
    induction os as [|o os IH]; intros l Hf; cbn; auto. apply IH. rewrite line_act_atomic.
    destruct (line_try E l o) eqn:H; cbn [atomically snd]; auto. eapply line_try_any; eauto.
  Qed.
  Lemma ray_new_any p v l : ray_new E p v = Ok l -> P (rdn l).
  Proof using HD. unfold ray_new. destruct (set_direction E v) as [d|] eqn:H; cbn; [|discriminate]. intros [= <-]. cbn. eauto. Qed.
  Lemma ray_from_points_any ps l : ray_from_points E ps = Ok l -> P (rdn l).
  Proof using HD.
    unfold ray_from_points. destruct (two_distinct ps) as [[[a e] rest]|]; cbn [bind]; [|discriminate].
    destruct (set_direction E (vsub e a)) as [d|] eqn:H; cbn [bind]; [|discriminate]. destruct (forallb _ _); [|discriminate]. intros [= <-]. cbn. eauto.
  Qed.
  Lemma ray_try_any l o l' : P (rdn l) -> ray_try E l o = Ok l' -> P (rdn l').
  Proof using HD HN.
    intro HP. destruct o as [v|v|x|m]; cbn [ray_try].
    - unfold ray_set_direction. destruct (set_direction E v) as [d|] eqn:H; cbn; [|discriminate]. intros [= <-]. cbn. eauto.
    - unfold ray_set_normal. destruct (set_normal E v) as [d|] eqn:H; cbn; [|discriminate]. intros [= <-]. cbn. eauto.
    - intros [= <-]. exact HP.
    - unfold ray_imul. destruct (ray_points l) as [p1 p2]. destruct (set_direction E _) as [d|] eqn:H; cbn; [|discriminate]. intros [= <-]. cbn. eauto.
  Qed.
  Lemma ray_run_any os : forall l, P (rdn l) -> P (rdn (ray_run E l os)).
  Proof using HD HN.
    induction os as [|o os IH]; intros l Hf; cbn; auto. apply IH. rewrite ray_act_atomic.
    destruct (ray_try E l o) eqn:H; cbn [atomically snd]; auto. eapply ray_try_any; eauto.
  Qed.
  Lemma seg_vector_any v d len : seg_vector_setter E v = Ok (d, len) -> P d.
  Proof using HD.
    unfold seg_vector_setter. destruct (negb _); (destruct (set_direction E _) as [d'|] eqn:H; cbn [bind]; [|discriminate]); intros [= <- <-]; eauto.
  Qed.
  Lemma seg_new_any p v l : seg_new E p v = Ok l -> P (sdn l).
  Proof using HD. unfold seg_new. destruct (seg_vector_setter E v) as [[d len]|] eqn:H; cbn; [|discriminate]. intros [= <-]. cbn. eapply seg_vector_any; eauto. Qed.
  Lemma seg_from_points_any ps l : seg_from_points E ps = Ok l -> P (sdn l).
  Proof using HD.
    unfold seg_from_points. destruct ps as [|p rest]; [discriminate|]. cbv zeta.
    match goal with |- context [fold_left ?a ?b ?c] => destruct (fold_left a b c) as [q e] end.
    destruct (vec_neb e _).
    - destruct (seg_vector_setter E _) as [[d len]|] eqn:H; cbn [bind]; [|discriminate]. apply seg_vector_any in H.
      destruct (forallb _ _); [|discriminate]. intros [= <-]. exact H.
    - destruct (set_direction E _) as [d|] eqn:H; cbn [bind]; [|discriminate]. apply HD in H.
      destruct (forallb _ _); [|discriminate]. intros [= <-]. exact H.
  Qed.
  Lemma seg_from_normal_any n o a b l : seg_from_normal E n o a b = Ok l -> P (sdn l).
  Proof using HN. unfold seg_from_normal. destruct (set_normal E n) as [d|] eqn:H; cbn; [|discriminate]. intros [= <-]. cbn. eauto. Qed.
  Lemma seg_try_any l o l' : P (sdn l) -> seg_try E l o = Ok l' -> P (sdn l').
  Proof using HD HN.
    intro HP. destruct o as [v|v|x|v|v|x|m]; cbn [seg_try].
    - unfold seg_set_direction. destruct (set_direction E v) as [d|] eqn:H; cbn; [|discriminate]. intros [= <-]. cbn. eauto.
    - unfold seg_set_normal. destruct (set_normal E v) as [d|] eqn:H; cbn; [|discriminate]. intros [= <-]. cbn. eauto.
    - intros [= <-]. exact HP.
    - unfold seg_set_vector. destruct (seg_vector_setter E _) as [[d len]|] eqn:H; cbn [bind]; [|discriminate]. intros [= <-]. eapply seg_vector_any; eauto.
    - unfold seg_set_end, seg_set_vector. destruct (seg_vector_setter E _) as [[d len]|] eqn:H; cbn [bind]; [|discriminate]. intros [= <-]. eapply seg_vector_any; eauto.
    - intros [= <-]. exact HP.
    - unfold seg_imul. destruct (seg_points l) as [p1 p2]. destruct (seg_vector_setter E _) as [[d len]|] eqn:H; cbn [bind]; [|discriminate]. intros [= <-]. eapply seg_vector_any; eauto.
  Qed.
  Lemma seg_run_any os : forall l, P (sdn l) -> P (sdn (seg_run E l os)).
  Proof using HD HN.
    induction os as [|o os IH]; intros l Hf; cbn; auto. apply IH. rewrite seg_act_atomic.
    destruct (seg_try E l o) eqn:H; cbn [atomically snd]; auto. eapply seg_try_any; eauto.
  Qed.
End Any.

(** ** Kinds of doubles *)
Lemma nan_or_not (x : PrimFloat.float) : {not_nan x} + {x = nan}.
Proof.
  destruct (PrimFloat.eqb x x) eqn:H; [left; exact H|]. right. apply FloatAxioms.Prim2SF_inj.
  assert (K : ~ Prim2SF x <> S754_nan) by (rewrite <- not_nan_sf; unfold not_nan; congruence).
  destruct (Prim2SF x); try (exfalso; apply K; discriminate). reflexivity.
Qed.
Lemma finite_or_inf (x : PrimFloat.float) : not_nan x -> finite x \/ x = infinity \/ x = neg_infinity.
Proof.
  rewrite not_nan_B, finite_B. intro H. destruct (Prim2B x) as [s|s| |s m e Hm] eqn:B; auto; try discriminate.
  right. destruct s; [right|left]; apply Prim2B_inj; rewrite B; reflexivity.
Qed.
Lemma sumsq_kind (x y : PrimFloat.float) : not_nan x -> not_nan y -> finite (x * x + y * y) \/ (x * x + y * y = infinity)%float.
Proof.
  intros Hx Hy. destruct (sq_pos x Hx) as [N1 S1], (sq_pos y Hy) as [N2 S2].
  rewrite finite_B. rewrite add_equiv.
  assert (G : is_finite (@Bplus fprec femax Hprec Hmax mode_NE (Prim2B (x * x)) (Prim2B (y * y))) = true \/
    @Bplus fprec femax Hprec Hmax mode_NE (Prim2B (x * x)) (Prim2B (y * y)) = B754_infinity false).
  { revert N1 S1 N2 S2. generalize (Prim2B (x * x)) as a, (Prim2B (y * y)) as b. intros a b N1 S1 N2 S2.
    destruct (is_finite a) eqn:Fa; [destruct (is_finite b) eqn:Fb|].
    - pose proof (Bplus_correct fprec femax Hprec Hmax mode_NE a b Fa Fb) as HC. destruct (Rlt_bool _ _).
      + left. apply HC.
      + right. destruct HC as (HO & _). rewrite S1 in HO. cbn in HO.
        destruct (@Bplus fprec femax Hprec Hmax mode_NE a b); cbn in HO; try discriminate. injection HO as ->. reflexivity.
    - right. destruct b as [s|s| |s m e Hm]; try discriminate. cbn in S2. subst s. destruct a as [s|s| |s m e Hm]; try discriminate; reflexivity.
    - right. destruct a as [s|s| |s m e Hm]; try discriminate. cbn in S1. subst s.
      destruct b as [s|s| |s m e Hm]; try discriminate; cbn in S2; try reflexivity. subst s. reflexivity. }
  destruct G as [G|G]; [left; exact G|right]. apply Prim2B_inj. rewrite add_equiv, G. reflexivity.
Qed.
Lemma sumsq_nan_l (y : PrimFloat.float) : (nan * nan + y = nan)%float.
Proof. apply FloatAxioms.Prim2SF_inj. rewrite FloatAxioms.add_spec. change (Prim2SF (nan * nan)) with S754_nan. reflexivity. Qed.
Lemma sumsq_nan_r (y : PrimFloat.float) : (y + nan * nan = nan)%float.
Proof. apply FloatAxioms.Prim2SF_inj. rewrite FloatAxioms.add_spec. change (Prim2SF (nan * nan)) with S754_nan. destruct (Prim2SF y); reflexivity. Qed.
Lemma sumsq_fin (x y : PrimFloat.float) : finite (x * x + y * y) -> finite x /\ finite y /\ finite (x * x) /\ finite (y * y).
Proof.
  rewrite !finite_B, add_equiv, !mul_equiv. generalize (Prim2B x) as a, (Prim2B y) as b. intros a b H.
  assert (K : forall u w : binary_float fprec femax, is_finite (@Bplus fprec femax Hprec Hmax mode_NE u w) = true -> is_finite u = true /\ is_finite w = true).
  { intros u w. destruct u as [s|s| |s m e Hm], w as [s'|s'| |s' m' e' Hm']; cbn; auto; try discriminate; destruct (Bool.eqb s s'); cbn; try discriminate. }
  apply K in H as [H1 H2].
  assert (K2 : forall u : binary_float fprec femax, is_finite (@Bmult fprec femax Hprec Hmax mode_NE u u) = true -> is_finite u = true).
  { intros u. destruct u as [s|s| |s m e Hm]; cbn; auto; discriminate. }
  auto.
Qed.
Lemma div_inf (x : PrimFloat.float) : finite x -> (x / infinity * (x / infinity) = 0)%float.
Proof.
  intro F. apply FloatAxioms.Prim2SF_inj. rewrite FloatAxioms.mul_spec, FloatAxioms.div_spec. rewrite finite_B in F.
  change (Prim2SF infinity) with (S754_infinity false). rewrite <- (B2SF_Prim2B x). destruct (Prim2B x) as [s|s| |s m e Hm]; try discriminate; destruct s; reflexivity.
Qed.
Lemma inf_div_inf (x : PrimFloat.float) : ~ finite x -> (x / infinity = nan)%float.
Proof.
  intro F. apply FloatAxioms.Prim2SF_inj. rewrite FloatAxioms.div_spec. rewrite finite_B in F.
  change (Prim2SF infinity) with (S754_infinity false). rewrite <- (B2SF_Prim2B x). destruct (Prim2B x) as [s|s| |s m e Hm]; try reflexivity; exfalso; apply F; reflexivity.
Qed.

(** ** The computed length, wherever the sum of squares does not overflow *)
Lemma fmul_fin a b : finite a -> finite b -> finite (a * b) -> toR (a * b) = frnd (toR a * toR b).
Proof.
  intros Fa Fb F. rewrite finite_B in *. rewrite mul_equiv in F. unfold toR. rewrite mul_equiv.
  pose proof (Bmult_correct fprec femax Hprec Hmax mode_NE (Prim2B a) (Prim2B b)) as HC. destruct (Rlt_bool _ _); [apply HC|].
  exfalso. revert HC F. destruct (@Bmult fprec femax Hprec Hmax mode_NE (Prim2B a) (Prim2B b)); cbn; discriminate.
Qed.
Lemma fadd_fin a b : finite a -> finite b -> finite (a + b) -> toR (a + b) = frnd (toR a + toR b).
Proof.
  intros Fa Fb F. rewrite finite_B in *. rewrite add_equiv in F. unfold toR. rewrite add_equiv.
  pose proof (Bplus_correct fprec femax Hprec Hmax mode_NE _ _ Fa Fb) as HC. destruct (Rlt_bool _ _); [apply HC|].
  exfalso. destruct HC as [HC _]. revert HC F. destruct (@Bplus fprec femax Hprec Hmax mode_NE (Prim2B a) (Prim2B b)); cbn; discriminate.
Qed.

Section Len.
  Variable L : FloatLib.
  Hypothesis HS : sqrt_ok L.
  Let NL : Num PrimFloat.float := FNum L.
  Existing Instance NL.
  Lemma length2_fin v : finite (length2 v) ->
    finite_vec v /\ Rabs (toR (length2 v) - norm (vecR v) * norm (vecR v)) <= 3 * runit * (norm (vecR v) * norm (vecR v)) + 3 * tiny /\ 0 <= toR (length2 v).
  Proof using.
    intro F. change (length2 v) with (vx v * vx v + vy v * vy v)%float in *. destruct (sumsq_fin _ _ F) as (F1 & F2 & F3 & F4). split; [split; assumption|].
    rewrite (norm_sq (vecR v)). cbn [vecR vx vy]. rewrite (fadd_fin _ _ F3 F4 F).
    pose proof (frnd_add_err _ _ (toR_format (vx v * vx v)) (toR_format (vy v * vy v))) as R3.
    rewrite (fmul_fin _ _ F1 F1 F3), (fmul_fin _ _ F2 F2 F4) in *.
    set (x := toR (vx v)) in *. set (y := toR (vy v)) in *. clearbody x y.
    pose proof (frnd_err (x * x)) as R1. pose proof (frnd_err (y * y)) as R2.
    assert (PX : 0 <= x * x) by nra. assert (PY : 0 <= y * y) by nra.
    assert (G : forall z, 0 <= z -> 0 <= frnd z).
    { intros z Hz. unfold frnd. apply round_ge_generic; try lra; try apply valid_rnd_round_mode; try apply (fexp_correct fprec femax Hprec). apply generic_format_0. }
    pose proof (G _ PX) as QX. pose proof (G _ PY) as QY. split; [|apply G; lra].
    rewrite (Rabs_pos_eq (x * x)) in R1 by lra. rewrite (Rabs_pos_eq (y * y)) in R2 by lra. rewrite (Rabs_pos_eq (_ + _)) in R3 by lra.
    set (p := frnd (x * x)) in *. set (q := frnd (y * y)) in *. set (s := frnd (p + q)) in *. clearbody p q s.
    set (a := x * x) in *. set (b := y * y) in *. clearbody a b. apply abs_le2 in R1, R2, R3. apply Rabs_le.
    pose proof runit_small as U1. pose proof runit_pos as U0. pose proof tiny_pos as T0.
    assert (B : p + q <= (a + b) * (1 + runit) + 2 * tiny) by lra.
    assert (B2 : runit * (p + q) <= runit * ((a + b) * (1 + runit) + 2 * tiny)) by (apply Rmult_le_compat_l; lra).
    assert (B3 : runit * (runit * (a + b)) <= / 1048576 * (runit * (a + b))) by (apply Rmult_le_compat_r; [apply Rmult_le_pos|]; lra).
    assert (B4 : runit * tiny <= / 1048576 * tiny) by (apply Rmult_le_compat_r; lra).
    assert (B5 : 0 <= runit * (a + b)) by (apply Rmult_le_pos; lra).
    replace (runit * ((a + b) * (1 + runit) + 2 * tiny)) with (runit * (a + b) + runit * (runit * (a + b)) + 2 * (runit * tiny)) in B2 by ring.
    lra.
  Qed.
  Lemma length_fin v : finite (length2 v) -> bpow radix2 (-399) <= toR (vlength v) ->
    apx (vlength v) (norm (vecR v)) (7 * runit * norm (vecR v)) /\ bpow radix2 (-400) <= norm (vecR v).
  Proof using HS.
    intros F HB. destruct (length2_fin v F) as (_ & K & P). pose proof (norm_pos (vecR v)) as NP. set (n := norm (vecR v)) in *. clearbody n.
    destruct (HS _ F P) as [F2 K2]. unfold vlength in *. cbn [nsqrt NL FNum] in *.
    pose proof runit_small as U1. pose proof runit_pos as U0. pose proof small_root_sq as T1. pose proof tiny_pos as T0.
    assert (SR : 0 < small_root) by apply bpow_gt_0.
    assert (K3 : Rabs (rsqrt (toR (length2 v)) - n) <= 3 * runit * n + small_root) by (apply sqrt_near; auto; lra).
    set (r := rsqrt (toR (length2 v))) in *. clearbody r. set (g := toR (fl_sqrt L (length2 v))) in *.
    assert (K5 : r <= (1 + 3 * runit) * n + small_root) by (apply abs_le2 in K3; lra).
    assert (2 * runit * r <= 2 * runit * ((1 + 3 * runit) * n + small_root)) by (apply Rmult_le_compat_l; lra).
    assert (runit * (runit * n) <= / 1048576 * (runit * n)) by (apply Rmult_le_compat_r; [apply Rmult_le_pos|]; lra).
    assert (runit * small_root <= / 4 * small_root) by (apply Rmult_le_compat_r; lra).
    assert (P2 : 0 <= runit * n) by (apply Rmult_le_pos; lra).
    assert (K6 : Rabs (g - n) <= 6 * runit * n + 2 * small_root).
    { replace (g - n) with ((g - r) + (r - n)) by ring. eapply Rle_trans; [apply Rabs_triang|]. lra. }
    assert (U2 : runit * n <= / 1048576 * n) by (apply Rmult_le_compat_r; lra).
    assert (SB : 4 * small_root <= bpow radix2 (-400)).
    { unfold small_root. change 4 with (bpow radix2 2). rewrite <- bpow_plus. apply bpow_le. lia. }
    assert (HD : bpow radix2 (-399) = 2 * bpow radix2 (-400)) by (change (-399)%Z with (1 + -400)%Z; rewrite bpow_plus; reflexivity).
    assert (LB : bpow radix2 (-400) <= n).
    { apply abs_le2 in K6. assert (0 < bpow radix2 (-400)) by apply bpow_gt_0. lra. }
    split; [|exact LB]. split; [exact F2|]. eapply Rle_trans; [exact K6|].
    assert (2 * small_root <= runit * n); [|lra].
    apply Rle_trans with (runit * bpow radix2 (-400)); [|apply Rmult_le_compat_l; lra].
    unfold small_root, runit. change 2 with (bpow radix2 1). rewrite <- !bpow_plus. apply bpow_le. lia.
  Qed.

  Variable E : PrimFloat.float.
  Hypothesis HI : sqrt_edges L.
  Hypothesis FE : finite E.
  Hypothesis HE : bpow radix2 (-399) <= toR E.
  Hypothesis HE2 : PrimFloat.ltb 0 (fl_pow2 L E) = true.
  Lemma null_null (w : vec PrimFloat.float) : length2 w = 0%float -> is_null E w = true.
  Proof using HE2. intro H. unfold is_null. rewrite H. exact HE2. Qed.
  (** What [normalized] gives when the result is not refused as null. *)
  Lemma normalized_any v w : normalized E v = Ok w -> is_null E w = false ->
    (finite_vec v /\ near_vec w (punit (vecR v)) (10 * runit) /\ 0 < norm (vecR v)) \/ (~ finite_vec v /\ has_nan w).
  Proof using HS HI FE HE HE2.
    intros H HN. unfold normalized in H. cbv zeta in H. cbn [nltb NL FNum] in H.
    destruct (PrimFloat.ltb E (vlength v)) eqn:HL; [|injection H as <-; rewrite null_null in HN; [discriminate|reflexivity]].
    destruct (nan_or_not (vx v)) as [Nx|Nx]; [destruct (nan_or_not (vy v)) as [Ny|Ny]|].
    - change (vlength v) with (fl_sqrt L (length2 v)) in HL, H.
      destruct (sumsq_kind _ _ Nx Ny) as [F|F].
      + left. change (finite (length2 v)) in F. destruct (length2_fin v F) as (Fv & _ & P). destruct (HS _ F P) as [FL _].
        assert (LB : bpow radix2 (-399) <= toR (vlength v)).
        { rewrite toR_lt in HL by auto. unfold Rltb in HL. destruct (Rlt_dec _ _) as [K|]; [|discriminate]. unfold vlength. cbn [nsqrt NL FNum]. lra. }
        destruct (length_fin v F LB) as [K KB]. assert (P0 : 0 < bpow radix2 (-400)) by apply bpow_gt_0.
        split; [exact Fv|]. split; [|lra]. destruct (coord_norm (vecR v)) as [C1 C2]. destruct Fv as [Fx Fy].
        assert (NZ : PrimFloat.eqb (vlength v) 0 = false).
        { rewrite toR_eq by (try reflexivity; apply K). rewrite toR_0. unfold Reqb. destruct (Req_EM_T (toR (vlength v)) 0) as [e|]; auto. exfalso.
          assert (0 < bpow radix2 (-399)) by apply bpow_gt_0. lra. }
        unfold pydiv in H. cbn [neqb ndiv NL FNum] in H. change (@n0 _ NL) with 0%float in H.
        change (fl_sqrt L (length2 v)) with (vlength v) in H. rewrite NZ in H. cbn [bind] in H. injection H as <-.
        unfold near_vec, punit, pscale. cbn [vx vy]. split.
        * eapply apx_eq; [apply (div_err _ _ _ _ Fx C1 eq_refl K); lra|]. unfold Rdiv. apply Rmult_comm.
        * eapply apx_eq; [apply (div_err _ _ _ _ Fy C2 eq_refl K); lra|]. unfold Rdiv. apply Rmult_comm.
      + change (length2 v = infinity) in F. rewrite F, (proj1 HI) in H. unfold pydiv in H. cbn [neqb ndiv NL FNum bind] in H.
        change (PrimFloat.eqb infinity n0) with false in H. cbn [bind] in H. injection H as <-.
        destruct (finite_or_inf _ Nx) as [Fx|Fx]; [destruct (finite_or_inf _ Ny) as [Fy|Fy]|].
        * exfalso. rewrite null_null in HN; [discriminate|]. change (length2 (mkV (vx v / infinity) (vy v / infinity))%float) with (vx v / infinity * (vx v / infinity) + vy v / infinity * (vy v / infinity))%float.
          rewrite !div_inf by assumption. reflexivity.
        * assert (NF : ~ finite (vy v)) by (destruct Fy as [-> | ->]; discriminate).
          right. split; [intros [_ X]; auto|]. right. cbn [vy]. rewrite inf_div_inf by auto. reflexivity.
        * assert (NF : ~ finite (vx v)) by (destruct Fx as [-> | ->]; discriminate).
          right. split; [intros [X _]; auto|]. left. cbn [vx]. rewrite inf_div_inf by auto. reflexivity.
    - exfalso. change (vlength v) with (fl_sqrt L (vx v * vx v + vy v * vy v)%float) in HL. rewrite Ny, sumsq_nan_r, (proj2 HI) in HL.
      rewrite FloatAxioms.ltb_spec in HL. change (Prim2SF nan) with S754_nan in HL. destruct (Prim2SF E) as [[]|[]| |[] ? ?]; discriminate.
    - exfalso. change (vlength v) with (fl_sqrt L (vx v * vx v + vy v * vy v)%float) in HL. rewrite Nx, sumsq_nan_l, (proj2 HI) in HL.
      rewrite FloatAxioms.ltb_spec in HL. change (Prim2SF nan) with S754_nan in HL. destruct (Prim2SF E) as [[]|[]| |[] ? ?]; discriminate.
  Qed.
  Lemma near_norm w p : near_vec w p (10 * runit) -> norm p = 1 -> near_unit w.
  Proof using.
    intros [[F1 H1] [F2 H2]] Hp. split; [split; assumption|]. change (bpow radix2 (-53)) with runit. change (mkV (toR (vx w)) (toR (vy w))) with (vecR w).
    destruct (coord_norm p) as [C1 C2]. rewrite Hp in C1, C2. pose proof (norm_sq p) as Q. rewrite Hp in Q. pose proof (norm_sq (vecR w)) as QW. pose proof (norm_pos (vecR w)) as PW.
    cbn [vecR vx vy] in QW. pose proof runit_small as U1. pose proof runit_pos as U0.
    set (x := toR (vx w)) in *. set (y := toR (vy w)) in *. set (a := vx p) in *. set (b := vy p) in *. set (g := norm (vecR w)) in *. set (u := runit) in *. clearbody x y a b g u.
    set (e := x - a) in *. set (f := y - b) in *. assert (X : x = a + e) by (unfold e; ring). assert (Y : y = b + f) by (unfold f; ring). clearbody e f. subst x y.
    (* |g - 1| <= |(e, f)| by the triangle inequality, in squares *)
    set (h := norm (mkV e f)). assert (QH : h * h = e * e + f * f) by (unfold h; rewrite norm_sq; reflexivity). assert (PH : 0 <= h) by (unfold h; apply norm_pos). clearbody h.
    assert (HH : h <= 15 * u).
    { destruct (Rle_lt_dec h (15 * u)) as [|K]; auto. exfalso. assert ((15 * u) * (15 * u) < h * h) by (apply Rmult_le_0_lt_compat; lra).
      assert (E1 : e * e <= (10 * u) * (10 * u)) by (rewrite <- (Rabs_pos_eq (e * e)) by nra; rewrite Rabs_mult; apply Rmult_le_compat; auto; apply Rabs_pos).
      assert (E2 : f * f <= (10 * u) * (10 * u)) by (rewrite <- (Rabs_pos_eq (f * f)) by nra; rewrite Rabs_mult; apply Rmult_le_compat; auto; apply Rabs_pos). nra. }
    assert (CS : (a * e + b * f) * (a * e + b * f) <= h * h).
    { rewrite QH. assert (I : (a * e + b * f) * (a * e + b * f) + (a * f - b * e) * (a * f - b * e) = (a * a + b * b) * (e * e + f * f)) by ring.
      pose proof (Rle_0_sqr (a * f - b * e)) as I2. unfold Rsqr in I2. rewrite <- Q in I. lra. }
    assert (CS2 : - h <= a * e + b * f <= h).
    { set (c := a * e + b * f) in *. clearbody c. split; destruct (Rle_lt_dec c h); destruct (Rle_lt_dec (- h) c); try lra; exfalso; nra. }
    assert (G : g * g = 1 + 2 * (a * e + b * f) + h * h) by (rewrite QW, QH; replace 1 with (a * a + b * b) by lra; ring).
    apply Rabs_le. split.
    - apply Rle_trans with (- h); [lra|]. destruct (Rle_lt_dec (1 - h) g); [lra|]. exfalso. assert (g * g < (1 - h) * (1 - h)) by (apply Rmult_le_0_lt_compat; lra). nra.
    - apply Rle_trans with h; [|lra]. destruct (Rle_lt_dec g (1 + h)); [lra|]. exfalso. assert ((1 + h) * (1 + h) < g * g) by (apply Rmult_le_0_lt_compat; lra). nra.
  Qed.
  Lemma punit_norm v : 0 < norm v -> norm (punit v) = 1.
  Proof using.
    intro H. assert (Q : norm (punit v) * norm (punit v) = 1).
    { rewrite norm_sq. unfold punit, pscale. cbn [vx vy]. pose proof (norm_sq v) as K. set (n := norm v) in *. clearbody n.
      replace (/ n * vx v * (/ n * vx v) + / n * vy v * (/ n * vy v)) with (/ n * / n * (vx v * vx v + vy v * vy v)) by ring. rewrite <- K. field. lra. }
    pose proof (norm_pos (punit v)). nra.
  Qed.
  Lemma opp_opp (x : PrimFloat.float) : (- - x = x)%float.
  Proof using. apply FloatAxioms.Prim2SF_inj. rewrite !FloatAxioms.opp_spec. destruct (Prim2SF x) as [[]|[]| |[] ? ?]; reflexivity. Qed.
  Lemma set_direction_turned v d : set_direction E v = Ok d -> turned d.
  Proof using.
    unfold set_direction. destruct (normalized E _) as [w|]; cbn [bind]; [|discriminate]. destruct (is_null E w); [discriminate|]. intros [= <-].
    unfold turned. cbn [dnormal ddir]. change (vneg (perpendicular w)) with (mkV (- - vy w) (- vx w))%float. rewrite opp_opp. reflexivity.
  Qed.
  Lemma set_normal_turned v d : set_normal E v = Ok d -> turned d.
  Proof using.
    unfold set_normal. destruct (normalized E _) as [w|]; cbn [bind]; [|discriminate]. destruct (is_null E w); [discriminate|]. intros [= <-].
    unfold turned. cbn [dnormal ddir]. change (perpendicular w) with (mkV (- vy w) (vx w))%float. cbn [vx vy]. rewrite opp_opp. destruct w; reflexivity.
  Qed.
  Lemma set_direction_kind v d : set_direction E v = Ok d ->
    (finite_vec v /\ near_vec (ddir d) (punit (vecR v)) (10 * runit) /\ near_unit (ddir d)) \/ (~ finite_vec v /\ has_nan (ddir d)).
  Proof using HS HI FE HE HE2.
    unfold set_direction. rewrite (vec2_of_id L). destruct (normalized E v) as [w|] eqn:H; cbn [bind]; [|discriminate].
    destruct (is_null E w) eqn:HN; [discriminate|]. intros [= <-]. cbn [ddir].
    destruct (normalized_any v w H HN) as [(F & K & P)|K]; [left|right; exact K]. split; [exact F|]. split; [exact K|]. eapply near_norm; [exact K|]. apply punit_norm, P.
  Qed.
  Lemma set_normal_kind v d : set_normal E v = Ok d ->
    (finite_vec v /\ near_vec (dnormal d) (punit (vecR v)) (10 * runit) /\ near_unit (dnormal d)) \/ (~ finite_vec v /\ has_nan (dnormal d)).
  Proof using HS HI FE HE HE2.
    unfold set_normal. rewrite (vec2_of_id L). destruct (normalized E v) as [w|] eqn:H; cbn [bind]; [|discriminate].
    destruct (is_null E w) eqn:HN; [discriminate|]. intros [= <-]. cbn [dnormal].
    destruct (normalized_any v w H HN) as [(F & K & P)|K]; [left|right; exact K]. split; [exact F|]. split; [exact K|]. eapply near_norm; [exact K|]. apply punit_norm, P.
  Qed.
  (** A turned frame has both vectors near the unit circle, or both with NaN. *)
  Lemma turned_near d : turned d -> (near_unit (ddir d) <-> near_unit (dnormal d)).
  Proof using.
    intro H. rewrite H. unfold near_unit, finite_vec. cbn [vx vy].
    assert (FO : forall x, finite (- x) <-> finite x). { intro x. rewrite !finite_B, opp_equiv, is_finite_Bopp. reflexivity. }
    assert (VO : forall x, toR (- x) = - toR x). { intro x. unfold toR. rewrite opp_equiv, B2R_Bopp. reflexivity. }
    rewrite FO, VO. assert (NO : forall a b : R, norm (mkV b (- a)) = norm (mkV a b)). { intros a b. unfold norm. cbn [vx vy]. f_equal. ring. }
    rewrite NO. tauto.
  Qed.
  Lemma turned_nan d : turned d -> (has_nan (ddir d) <-> has_nan (dnormal d)).
  Proof using.
    intro H. rewrite H. unfold has_nan. cbn [vx vy].
    assert (NO : forall x, PrimFloat.is_nan (- x) = PrimFloat.is_nan x). { intro x. rewrite !is_nan_equiv, opp_equiv. destruct (Prim2B x); reflexivity. }
    rewrite NO. tauto.
  Qed.
  Definition frame_kind (d : dirn PrimFloat.float) : Prop :=
    turned d /\ ((near_unit (ddir d) /\ near_unit (dnormal d)) \/ (has_nan (ddir d) /\ has_nan (dnormal d))).
  Lemma set_direction_frame v d : set_direction E v = Ok d -> frame_kind d.
  Proof using HS HI FE HE HE2.
    intro H. pose proof (set_direction_turned v d H) as T. split; [exact T|]. pose proof (turned_near d T). pose proof (turned_nan d T).
    destruct (set_direction_kind v d H) as [(_ & _ & K)|[_ K]]; tauto.
  Qed.
  Lemma set_normal_frame v d : set_normal E v = Ok d -> frame_kind d.
  Proof using HS HI FE HE HE2.
    intro H. pose proof (set_normal_turned v d H) as T. split; [exact T|]. pose proof (turned_near d T). pose proof (turned_nan d T).
    destruct (set_normal_kind v d H) as [(_ & _ & K)|[_ K]]; tauto.
  Qed.
End Len.
