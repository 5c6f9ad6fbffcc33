(** * C86: the global tolerance *)
From Coq Require Import ZArith List Bool Reals Lra Lia Floats.
From Flocq Require Import Core IEEE754.PrimFloat IEEE754.BinarySingleNaN.
From Verif Require Import Num NumFloat Vec Settings OrdLaws FloatFacts FloatFacts2 FloatFacts3 FloatVec SpecExact FloatExact.
Import ListNotations.

(** ** The two globals agree after every call that returns *)

(** Whatever was called before and whatever it did, after a call that returns
    EPSILON is the argument and EPSILON2 its square: the functions that read
    the globals are the ones of the model with that explicit tolerance. *)
Theorem C86_returned_partial : forall (T : Type) (N : Num T) (es : list T) (e : T) (s0 : settings T),
  last (fst (set_run (es ++ [e]) s0)) (Err ValueError) = Ok tt ->
  let s := snd (set_run (es ++ [e]) s0) in
  g_eps s = e /\ g_eps2 s = npow2 e /\
  forall v w : vec T,
    is_null_at s v = is_null e v /\ vec_almost_equals_at s v w = vec_almost_equals e v w /\
    vec_project_at s v w = vec_project e v w /\ vec_reflect_at s v w = vec_reflect e v w /\
    normalized_at s v = normalized e v.
Proof.
  intros T N es e. induction es as [|a es IH]; intros s0 H s.
  - subst s. cbn [app set_run] in *. unfold set_epsilon, pypow2 in *. cbn [g_eps g_eps2] in *.
    destruct (nisinf (npow2 e) && negb (nisinf e)); cbn [fst snd last] in H |- *; [discriminate|].
    split; [reflexivity|]. split; [reflexivity|]. intros v w. repeat split; reflexivity.
  - specialize (IH (snd (set_epsilon a s0))). subst s. cbn [app set_run] in *.
    destruct (set_epsilon a s0) as [r s1]. cbn [snd] in IH. destruct (set_run (es ++ [e]) s1) as [rs s2] eqn:ER.
    cbn [fst snd] in *. apply IH. destruct rs as [|r' rs]; [|exact H].
    exfalso. destruct es; cbn [app set_run] in ER; destruct (set_epsilon _ s1); try discriminate; match type of ER with context [set_run ?l ?x] => destruct (set_run l x) end; discriminate.
Qed.
Print Assumptions C86_returned_partial.

(** A call raises OverflowError, and only then, if the square is out of range
    of doubles; it never raises over the reals. *)
Theorem C86_raises : forall (L : FloatLib) (e : PrimFloat.float) (s : settings PrimFloat.float), let N := FNum L in
  (fst (set_epsilon e s) = Err OverflowError <->
     PrimFloat.is_infinity (fl_pow2 L e) = true /\ PrimFloat.is_infinity e = false) /\
  (fst (set_epsilon e s) = Err OverflowError \/ fst (set_epsilon e s) = Ok tt).
Proof.
  intros L e s N. unfold set_epsilon, pypow2. cbn [g_eps g_eps2 nisinf npow2 N FNum].
  destruct (PrimFloat.is_infinity (fl_pow2 L e)), (PrimFloat.is_infinity e); cbn; split; auto; split; intro H; auto; try discriminate; destruct H; discriminate.
Qed.
Print Assumptions C86_raises.
Theorem C86_real : forall (e : R) (s : settings R), set_epsilon e s = (Ok tt, mkSet e (e * e)%R).
Proof. reflexivity. Qed.
Print Assumptions C86_real.

(** ** The full claim fails on doubles *)
Definition sq_lib (L : FloatLib) : Prop := forall x : PrimFloat.float, fl_pow2 L x = (x * x)%float.

(** After a call that raised, EPSILON is the new value and EPSILON2 the square
    of the old one: with EPSILON = 2^600, points at distance 1 are not almost
    equal, although the length 1 counts as null for [normalized]. *)
Theorem C86_refuted : forall L : FloatLib, sq_lib L -> (forall x, fl_sqrt L x = PrimFloat.sqrt x) -> let N := FNum L in
  exists (e0 e : PrimFloat.float) (v w : vec PrimFloat.float),
    let r := set_run [e0; e] settings0 in
    fst r = [Ok tt; Err OverflowError] /\ g_eps (snd r) = e /\ g_eps2 (snd r) = (e0 * e0)%float /\
    vec_almost_equals_at (snd r) v w = false /\ is_null_at (snd r) w = false /\ normalized_at (snd r) w = Ok vnull.
Proof.
  intros L H HS N. exists 0x1.4f8b588e368f1p-17%float, 0x1p600%float, (mkV 1 1)%float, (mkV 1 0)%float. cbv zeta.
  unfold set_run, set_epsilon, pypow2. cbn [g_eps g_eps2 nisinf npow2 N FNum]. rewrite !H.
  replace (PrimFloat.is_infinity (0x1.4f8b588e368f1p-17 * 0x1.4f8b588e368f1p-17)) with false by reflexivity.
  replace (PrimFloat.is_infinity (0x1p600 * 0x1p600)) with true by reflexivity.
  replace (PrimFloat.is_infinity 0x1p600) with false by reflexivity. cbn [andb negb fst snd g_eps g_eps2].
  split; [reflexivity|]. split; [reflexivity|]. split; [reflexivity|]. split; [reflexivity|]. split; [reflexivity|].
  unfold normalized_at, normalized, vlength. cbn [nsqrt nltb N FNum]. rewrite HS. reflexivity.
Qed.
Print Assumptions C86_refuted.

(** A positive tolerance whose square underflows: no vector is null, not even
    the null vector, and no vector is almost equal to itself. *)
Theorem C86_underflow_refuted : forall L : FloatLib, sq_lib L -> let N := FNum L in
  exists e : PrimFloat.float, PrimFloat.ltb 0 e = true /\
    let r := set_run [e] settings0 in
    fst r = [Ok tt] /\ is_null_at (snd r) vnull = false /\
    forall v, finite_vec v -> vec_almost_equals_at (snd r) v v = false.
Proof.
  intros L H N. exists 0x1p-600%float. split; [reflexivity|]. cbv zeta.
  unfold set_run, set_epsilon, pypow2. cbn [g_eps g_eps2 nisinf npow2 N FNum]. rewrite !H.
  replace (0x1p-600 * 0x1p-600)%float with 0%float by reflexivity. cbn [andb negb fst snd].
  split; [reflexivity|]. split; [reflexivity|]. intros v [Hx Hy]. unfold vec_almost_equals_at. cbn [nsub nadd nmul nltb N FNum g_eps2].
  rewrite !fsub_self by auto. reflexivity.
Qed.
Print Assumptions C86_underflow_refuted.

(** ** Tolerances for which all is well *)
Lemma square_range (e : PrimFloat.float) : finite e -> (bpow radix2 (-500) <= toR e <= bpow radix2 500)%R ->
  finite (e * e) /\ (bpow radix2 (-1000) <= toR (e * e) <= bpow radix2 1000)%R.
Proof.
  intros Fe [H1 H2]. rewrite finite_B in Fe |- *. unfold toR in *. rewrite mul_equiv.
  pose proof (Bmult_correct fprec femax Hprec Hmax mode_NE (Prim2B e) (Prim2B e)) as HC.
  set (x := B2R (Prim2B e)) in *.
  assert (P : (0 < bpow radix2 (-500))%R) by apply bpow_gt_0.
  assert (K1 : (bpow radix2 (-1000) <= x * x)%R).
  { change (-1000)%Z with (-500 + -500)%Z. rewrite bpow_plus. apply Rmult_le_compat; lra. }
  assert (K2 : (x * x <= bpow radix2 1000)%R).
  { change 1000%Z with (500 + 500)%Z. rewrite bpow_plus. apply Rmult_le_compat; lra. }
  assert (R1 : (bpow radix2 (-1000) <= round radix2 (SpecFloat.fexp fprec femax) (round_mode mode_NE) (x * x))%R).
  { apply round_ge_generic; auto; try apply valid_rnd_round_mode; try apply (fexp_correct fprec femax Hprec).
    apply generic_format_bpow. cbv. discriminate. }
  assert (R2 : (round radix2 (SpecFloat.fexp fprec femax) (round_mode mode_NE) (x * x) <= bpow radix2 1000)%R).
  { apply round_le_generic; auto; try apply valid_rnd_round_mode; try apply (fexp_correct fprec femax Hprec).
    apply generic_format_bpow. cbv. discriminate. }
  rewrite Rlt_bool_true in HC.
  - destruct HC as (HR & HF & _). rewrite HR, HF, Fe. auto.
  - rewrite Rabs_pos_eq by (pose proof (bpow_gt_0 radix2 (-1000)); lra). eapply Rle_lt_trans; [exact R2|]. apply bpow_lt. reflexivity.
Qed.
(** Between 2^-500 and 2^500, whatever was called before. *)
Theorem C86_range_partial : forall (L : FloatLib) (es : list PrimFloat.float) (e : PrimFloat.float) (s0 : settings PrimFloat.float),
  sq_lib L -> finite e -> (bpow radix2 (-500) <= toR e <= bpow radix2 500)%R -> let N := FNum L in
  let r := set_run (es ++ [e]) s0 in
  last (fst r) (Err ValueError) = Ok tt /\ PrimFloat.ltb 0 (g_eps2 (snd r)) = true /\
  is_null_at (snd r) vnull = true /\ (forall v, finite_vec v -> vec_almost_equals_at (snd r) v v = true).
Proof.
  intros L es e s0 HL Fe He N r. destruct (square_range e Fe He) as [F2 [H2 _]].
  assert (A : last (fst r) (Err ValueError) = Ok tt).
  { subst r. revert s0. induction es as [|a es IH]; intro s0.
    - cbn [app set_run]. unfold set_epsilon, pypow2. cbn [g_eps g_eps2 nisinf npow2 N FNum]. rewrite HL.
      replace (PrimFloat.is_infinity (e * e)) with false.
      + reflexivity.
      + rewrite finite_B in F2. rewrite is_infinity_equiv. destruct (Prim2B (e * e)); auto; discriminate.
    - cbn [app set_run]. destruct (set_epsilon a s0) as [r s1]. specialize (IH s1). destruct (set_run (es ++ [e]) s1) as [rs s2] eqn:ER.
      cbn [fst snd] in *. destruct rs as [|r' rs]; [cbn in IH; discriminate|exact IH]. }
  destruct (C86_returned_partial _ N es e s0 A) as (_ & K & _). fold r in K.
  assert (P : PrimFloat.ltb 0 (g_eps2 (snd r)) = true).
  { rewrite K. cbn [npow2 N FNum]. rewrite HL, toR_lt by (auto; reflexivity). assert (Z0 : toR 0 = 0%R) by (unfold toR; rewrite zero_B2R; reflexivity).
    rewrite Z0. unfold Rltb. destruct (Rlt_dec 0 (toR (e * e))); auto. pose proof (bpow_gt_0 radix2 (-1000)). lra. }
  split; [exact A|]. split; [exact P|]. split.
  - unfold is_null_at. cbn [nltb N FNum]. change (length2 vnull) with 0%float. exact P.
  - intros v [Hx Hy]. unfold vec_almost_equals_at. cbn [nsub nadd nmul nltb N FNum]. rewrite !fsub_self by auto. exact P.
Qed.
Print Assumptions C86_range_partial.
(** A tolerance in the range; the library assumptions can be met. *)
Example C86_ex : finite 1 /\ (bpow radix2 (-500) <= toR 1 <= bpow radix2 500)%R /\ exists L, sq_lib L /\ forall x, fl_sqrt L x = PrimFloat.sqrt x.
Proof.
  split; [reflexivity|]. split.
  { replace (toR 1) with (bpow radix2 0) by (symmetry; apply one_B2R). split; apply bpow_le; lia. }
  exists {| fl_sqrt := PrimFloat.sqrt; fl_pow2 := fun x => (x * x)%float; fl_floordiv := fun x _ => x; fl_mod := fun x _ => x;
    fl_cos := fun x => x; fl_sin := fun x => x; fl_tan := fun x => x; fl_atan2 := fun x _ => x; fl_hypot := fun x _ => x;
    fl_radians := fun x => x; fl_degrees := fun x => x |}. split; intro; reflexivity.
Qed.
