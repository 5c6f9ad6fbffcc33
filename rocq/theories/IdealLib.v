(** * A library of correctly rounded functions: the accuracy hypotheses can be met *)
From Coq Require Import ZArith List Bool Reals Lra Lia Floats SpecFloat.
From Flocq Require Import Core IEEE754.PrimFloat IEEE754.BinarySingleNaN.
From Verif Require Import Num NumFloat Vec OrdLaws SpecGeom FloatFacts FloatFacts2 FloatVec SpecExact FloatExact FloatErr SpecRot.
Local Open Scope R_scope.

(** The double nearest to a real. *)
Definition toF (x : R) : PrimFloat.float :=
  let fexp := SpecFloat.fexp fprec femax in
  B2Prim (binary_normalize fprec femax Hprec Hmax mode_NE (ZnearestE (scaled_mantissa radix2 fexp x)) (cexp radix2 fexp x) false).
Lemma frnd_idem x : frnd (frnd x) = frnd x.
Proof. unfold frnd. apply round_generic; [apply valid_rnd_round_mode|]. apply generic_format_round; [apply (fexp_correct fprec femax Hprec)|apply valid_rnd_round_mode]. Qed.
Lemma toF_ok x : Rabs x <= huge -> finite (toF x) /\ toR (toF x) = frnd x.
Proof.
  intro H. unfold toR, toF. rewrite finite_B, Prim2B_B2Prim.
  pose proof (binary_normalize_correct fprec femax Hprec Hmax mode_NE (ZnearestE (scaled_mantissa radix2 (SpecFloat.fexp fprec femax) x)) (cexp radix2 (SpecFloat.fexp fprec femax) x) false) as K.
  cbv zeta in K. change (F2R {| Fnum := ZnearestE (scaled_mantissa radix2 (SpecFloat.fexp fprec femax) x); Fexp := cexp radix2 (SpecFloat.fexp fprec femax) x |}) with (frnd x) in K.
  change (round radix2 (SpecFloat.fexp fprec femax) (round_mode mode_NE) (frnd x)) with (frnd (frnd x)) in K. rewrite frnd_idem in K.
  rewrite Rlt_bool_true in K by (apply frnd_huge, H). destruct K as (K1 & K2 & _). split; auto.
Qed.
Lemma toF_apx x : Rabs x <= huge -> apx (toF x) x (runit * Rabs x + tiny).
Proof. intro H. destruct (toF_ok x H) as [F V]. split; auto. rewrite V. apply frnd_err. Qed.

(** Every function correctly rounded. *)
Definition ideal_lib : FloatLib := {|
  fl_sqrt := PrimFloat.sqrt;
  fl_pow2 := fun x => (x * x)%float;
  fl_floordiv := fun a b => toF (Rfloor (toR a / toR b));
  fl_mod := fun a b => toF (toR a - toR b * Rfloor (toR a / toR b));
  fl_cos := fun x => toF (cos (toR x));
  fl_sin := fun x => toF (sin (toR x));
  fl_tan := fun x => toF (tan (toR x));
  fl_atan2 := fun y x => toF (Ratan2 (toR y) (toR x));
  fl_hypot := fun x y => toF (norm (mkV (toR x) (toR y)));
  fl_radians := fun x => toF (toR x * PI / 180);
  fl_degrees := fun x => toF (toR x * 180 / PI) |}.

Lemma frnd_mono x y : x <= y -> frnd x <= frnd y.
Proof. intro H. unfold frnd. apply round_le; [apply (fexp_correct fprec femax Hprec)|apply valid_rnd_round_mode|exact H]. Qed.
Lemma frnd_toR f : frnd (toR f) = toR f.
Proof. unfold frnd. apply round_generic; [apply valid_rnd_round_mode|apply toR_format]. Qed.
Lemma big x : Rabs x <= 1048576 -> Rabs x <= huge.
Proof. intro H. eapply Rle_trans; [exact H|]. unfold huge. replace 1048576 with (bpow radix2 20) by (cbn; lra). apply bpow_le. lia. Qed.
Lemma tiny_runit : tiny <= runit * / 1048576.
Proof. unfold tiny, runit. replace (/ 1048576) with (bpow radix2 (-20)) by (cbn; lra). rewrite <- bpow_plus. apply bpow_le. lia. Qed.
Lemma ideal_trig : trig_ok ideal_lib.
Proof.
  pose proof runit_pos as U0. pose proof runit_small as U1. pose proof tiny_runit as T1. pose proof tiny_pos as T0. pose proof PI_RGT_0 as P0. pose proof PI_4 as P4.
  assert (V360 : toR 360%float = 360) by (exact (proj2 (float_of_Z_exact 360 ltac:(lia)))).
  split.
  - intros d Fd. cbn [fl_mod ideal_lib]. rewrite V360. set (k := Int_part (toR d / 360)).
    change (Rfloor (toR d / 360)) with (IZR k).
    assert (B : 0 <= toR d - 360 * IZR k <= 360).
    { destruct (base_Int_part (toR d / 360)) as [B1 B2]. fold k in B1, B2. assert (E : toR d = 360 * (toR d / 360)) by field. set (q := toR d / 360) in *. clearbody q. lra. }
    set (r := toR d - 360 * IZR k) in *. assert (A : Rabs r <= 360) by (rewrite Rabs_pos_eq; lra).
    destruct (toF_apx r) as [F H]; [apply big; lra|]. destruct (toF_ok r) as [_ V]; [apply big; lra|].
    split; [exact F|]. split.
    + rewrite V. pose proof (frnd_toR 360%float) as E360. pose proof (frnd_toR 0%float) as E0. rewrite V360 in E360. replace (toR 0%float) with 0 in E0 by (symmetry; exact (proj2 (float_of_Z_exact 0 ltac:(lia)))).
      pose proof (frnd_mono 0 r ltac:(lra)). pose proof (frnd_mono r 360 ltac:(lra)). lra.
    + exists k. fold r. replace (bpow radix2 (-44)) with (512 * runit); [nra|]. unfold runit. replace 512 with (bpow radix2 9) by (cbn; lra). rewrite <- bpow_plus. reflexivity.
  - intros d Fd B. cbn [fl_radians ideal_lib]. fold (deg (toR d)). assert (D : 0 <= deg (toR d) <= 8) by (unfold deg; nra).
    destruct (toF_apx (deg (toR d))) as [F H]; [apply big; rewrite Rabs_pos_eq; lra|]. split; [exact F|]. rewrite (Rabs_pos_eq (deg _)) in H by lra. change (bpow radix2 (-53)) with runit. change (bpow radix2 (-1075)) with tiny. nra.
  - intros x Fx B. cbn [fl_cos ideal_lib]. assert (D : Rabs (cos (toR x)) <= 1) by (apply Rabs_le, COS_bound).
    destruct (toF_apx (cos (toR x))) as [F H]; [apply big; lra|]. split; [exact F|]. change (bpow radix2 (-53)) with runit. nra.
  - intros x Fx B. cbn [fl_sin ideal_lib]. assert (D : Rabs (sin (toR x)) <= 1) by (apply Rabs_le, SIN_bound).
    destruct (toF_apx (sin (toR x))) as [F H]; [apply big; lra|]. split; [exact F|]. change (bpow radix2 (-53)) with runit. nra.
Qed.
