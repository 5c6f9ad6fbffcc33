(** * Property C116: inverses of transforms on doubles *)
From Coq Require Import ZArith List Bool Reals Lra Lia Floats SpecFloat.
From Flocq Require Import Core IEEE754.PrimFloat IEEE754.BinarySingleNaN.
From Verif Require Import Num NumFloat Vec Affine OrdLaws SpecGeom RBase VecFacts2 AffineFacts FloatFacts FloatFacts2 FloatVec SpecExact FloatExact FloatErr FloatErr2 FloatErr3 RotFacts SpecInv InvF InvF2.
Local Open Scope R_scope.

Lemma inv_small : bpow radix2 (-200) = / inv_size. Proof. unfold inv_size. rewrite <- bpow_opp. reflexivity. Qed.

(** Which transforms are rejected: those whose exact determinant is below
    EPSILON, up to the rounding of the two products and their difference. *)
Theorem C116_degenerate : forall (L : FloatLib) (E : PrimFloat.float) (m : affine PrimFloat.float), finite_aff m -> entries_within (bpow radix2 200) (affR m) -> finite E -> let N := FNum L in
  let d := 3 * bpow radix2 (-53) * det_size (affR m) + 3 * bpow radix2 (-1075) in
  (Rabs (exact_det (affR m)) + d < toR E -> is_degenerate E m = true /\ ainvert E m = Err TransformNotInvertibleError) /\
  (is_degenerate E m = true -> Rabs (exact_det (affR m)) - d < toR E).
Proof.
  intros L E m Fm Bm FE N d. pose proof (apx_abs _ _ _ (det_raw L m Fm Bm)) as K. destruct (apx_lt _ _ _ _ _ _ K (apx_exact E FE)) as [K1 K2]. split.
  - intro H. assert (G : is_degenerate E m = true). { apply K1. unfold d, runit, tiny in *. lra. } split; [exact G|]. unfold ainvert. rewrite G. reflexivity.
  - intro H. apply K2 in H. unfold d, runit, tiny in *. lra.
Qed.
Print Assumptions C116_degenerate.

(** Accuracy of every entry of [~m]. *)
Theorem C116_inverse : forall (L : FloatLib) (E : PrimFloat.float) (m : affine PrimFloat.float), finite_aff m -> entries_within (bpow radix2 200) (affR m) -> finite E ->
  bpow radix2 (-200) <= Rabs (exact_det (affR m)) -> det_size (affR m) <= bpow radix2 47 * Rabs (exact_det (affR m)) ->
  toR E <= Rabs (exact_det (affR m)) - 4 * bpow radix2 (-53) * det_size (affR m) -> let N := FNum L in
  exists (w : affine PrimFloat.float) (q : affine R), ainvert E m = Ok w /\ inverse_of (affR m) q /\ finite_aff w /\
    (let d x := 8 * bpow radix2 (-53) * cancel (affR m) * Rabs x + bpow radix2 (-1075) in
     Rabs (toR (aa w) - aa q) <= d (aa q) /\ Rabs (toR (ab w) - ab q) <= d (ab q) /\ Rabs (toR (ad w) - ad q) <= d (ad q) /\ Rabs (toR (ae w) - ae q) <= d (ae q)) /\
    (let c := Rabs (toR (ac m)) in let f := Rabs (toR (af m)) in
     let d x y := 12 * bpow radix2 (-53) * cancel (affR m) * (c * Rabs x + f * Rabs y) + (2 * (c + f) + 3) * bpow radix2 (-1075) in
     Rabs (toR (ac w) - ac q) <= d (aa q) (ab q) /\ Rabs (toR (af w) - af q) <= d (ad q) (ae q)).
Proof.
  intros L E m Fm Bm FE HD HW HE N. rewrite inv_small in HD.
  exists (winv L m), (qinv m (exact_det (affR m))).
  pose proof (det_apx L m Fm Bm _ _ _ eq_refl eq_refl eq_refl HD HW) as KD.
  pose proof (winv_apx L m Fm Bm _ _ _ eq_refl eq_refl eq_refl HD HW) as (F & (K1 & K2 & K3 & K4) & (K5 & K6)). fold (cancel (affR m)) in *.
  split; [|split; [|split; [exact F|]]].
  - apply (ainvert_eq L m Fm Bm _ _ _ eq_refl eq_refl eq_refl HD HW). destruct (PrimFloat.ltb _ E) eqn:EL; [|reflexivity]. destruct (apx_lt _ _ _ _ _ _ (apx_abs _ _ _ KD) (apx_exact E FE)) as [_ Q]. apply Q in EL. unfold runit in EL. lra.
  - apply (qinv_ok L m Fm Bm _ _ _ eq_refl eq_refl eq_refl HD HW).
  - destruct K1 as [_ K1], K2 as [_ K2], K3 as [_ K3], K4 as [_ K4], K5 as [_ K5], K6 as [_ K6]. cbv zeta. unfold runit, tiny in *. rewrite (Rmult_assoc 8), (Rmult_assoc 12). repeat split; assumption.
Qed.
Print Assumptions C116_inverse.

(** The product of a transform with its inverse is the identity for [is_identity],
    as soon as EPSILON exceeds the rounding error. *)
Theorem C116_identity : forall (L : FloatLib) (E : PrimFloat.float) (m : affine PrimFloat.float) (M : R), finite_aff m -> 1 <= M <= bpow radix2 200 -> entries_within M (affR m) -> finite E ->
  let k := 2 * (M * M) / Rabs (exact_det (affR m)) in
  bpow radix2 (-200) <= Rabs (exact_det (affR m)) -> k <= bpow radix2 47 -> 
  toR E <= Rabs (exact_det (affR m)) - 4 * bpow radix2 (-53) * det_size (affR m) ->
  37 * bpow radix2 (-53) * (k * k) * M < toR E -> let N := FNum L in
  exists w, ainvert E m = Ok w /\ is_identity E (amul m w) = true.
Proof.
  intros L E m M Fm HM Bm FE k HD Hk HE HE2 N. rewrite inv_small in HD. exists (winv L m).
  pose proof (Bm' L m _ _ _ M _ Fm Bm HM eq_refl eq_refl eq_refl HD eq_refl Hk) as Bi. pose proof (HW L m _ _ _ M _ Fm Bm HM eq_refl eq_refl eq_refl HD eq_refl Hk) as HW.
  pose proof (det_apx L m Fm Bi _ _ _ eq_refl eq_refl eq_refl HD HW) as KD. split.
  - apply (ainvert_eq L m Fm Bi _ _ _ eq_refl eq_refl eq_refl HD HW). destruct (PrimFloat.ltb _ E) eqn:EL; [|reflexivity]. destruct (apx_lt _ _ _ _ _ _ (apx_abs _ _ _ KD) (apx_exact E FE)) as [_ Q]. apply Q in EL. unfold runit in EL. lra.
  - pose proof (prod_close L m _ _ _ M _ Fm Bm HM eq_refl eq_refl eq_refl HD eq_refl Hk) as (K1 & K2 & K3 & K4 & K5 & K6). fold k in K1, K2, K3, K4, K5, K6. fold N in K1, K2, K3, K4, K5, K6.
    set (t := amul m (winv L m)) in *. clearbody t.
    destruct (float_of_Z_exact 1 ltac:(lia)) as [F1 V1]. change (float_of_Z 1) with 1%float in *. destruct (float_of_Z_exact 0 ltac:(lia)) as [F0 V0]. change (float_of_Z 0) with 0%float in *.
    pose proof runit_pos as U0. pose proof runit_small as U1. set (b := 36 * (runit * k * k) * M) in *.
    assert (B0 : 0 <= b) by (apply (apx_pos _ _ _ K1)). assert (UB : runit * b <= / 1048576 * b) by (apply Rmult_le_compat_r; lra).
    assert (BE : b + / 1048576 * b < toR E). { assert (37 * bpow radix2 (-53) * (k * k) * M = b + / 36 * b) by (unfold b, runit; field). lra. }
    assert (BH : b <= huge). { assert (KP : 0 <= k). { unfold k. apply Rmult_le_pos; [pose proof (Rmult_le_pos M M ltac:(lra) ltac:(lra)); lra|]. pose proof inv_size_ge. assert (0 < / inv_size) by (apply Rinv_0_lt_compat; lra). left. apply Rinv_0_lt_compat. lra. }
      assert (A1 : runit * k <= bpow radix2 (-53) * bpow radix2 47) by (apply Rmult_le_compat_l; [apply bpow_ge_0|exact Hk]). assert (A0 : 0 <= runit * k) by (apply Rmult_le_pos; lra).
      assert (A2 : runit * k * k <= bpow radix2 (-53) * bpow radix2 47 * bpow radix2 47) by (apply Rmult_le_compat; lra). assert (A3 : 0 <= runit * k * k) by (apply Rmult_le_pos; lra).
      assert (A4 : 36 * (runit * k * k) * M <= bpow radix2 6 * (bpow radix2 (-53) * bpow radix2 47 * bpow radix2 47) * bpow radix2 200). { apply Rmult_le_compat; try lra. apply Rmult_le_compat; try lra. change (bpow radix2 6) with 64. lra. }
      unfold b. eapply Rle_trans; [exact A4|]. rewrite <- !bpow_plus. unfold huge. apply bpow_le. lia. }
    assert (G : forall x y, apx x (toR y) b -> finite y -> PrimFloat.leb E (abs (x - y)) = false).
    { intros x y Hx Fy. pose proof (apx_sub _ _ _ _ _ _ b Hx (apx_exact y Fy)) as Q. rewrite Rminus_diag_eq, Rabs_R0 in Q by reflexivity. specialize (Q ltac:(lra) BH).
      destruct (PrimFloat.leb E _) eqn:EL; [|reflexivity]. destruct (apx_le _ _ _ _ _ _ (apx_exact E FE) (apx_abs _ _ _ Q)) as [_ R]. apply R in EL. rewrite Rabs_R0 in EL. lra. }
    change (affine_almost_equals (N := FNum L) E t (mkA 1 0 0 0 1 0)%float = true). unfold affine_almost_equals. cbn [aa ab ac ad ae af nleb nabs nsub FNum].
    rewrite !G; try (rewrite ?V0, ?V1; assumption); try assumption.
Qed.
Print Assumptions C116_identity.

(** Without translation the inverse also undoes the transform on points. *)
Theorem C116_undo : forall (L : FloatLib) (E : PrimFloat.float) (m : affine PrimFloat.float) (M X : R) (v : vec PrimFloat.float), finite_aff m -> 1 <= M <= bpow radix2 200 -> entries_within M (affR m) -> finite E ->
  let k := 2 * (M * M) / Rabs (exact_det (affR m)) in
  bpow radix2 (-200) <= Rabs (exact_det (affR m)) -> k <= bpow radix2 47 -> 
  toR E <= Rabs (exact_det (affR m)) - 4 * bpow radix2 (-53) * det_size (affR m) ->
  toR (ac m) = 0 -> toR (af m) = 0 ->
  finite_vec v -> bpow radix2 (-200) <= X <= bpow radix2 200 -> Rabs (toR (vx v)) <= X -> Rabs (toR (vy v)) <= X -> let N := FNum L in
  exists w, ainvert E m = Ok w /\ let r := aapply w (aapply m v) in finite_vec r /\
    Rabs (toR (vx r) - toR (vx v)) <= 64 * bpow radix2 (-53) * (k * k) * X /\ Rabs (toR (vy r) - toR (vy v)) <= 64 * bpow radix2 (-53) * (k * k) * X.
Proof.
  intros L E m M X v Fm HM Bm FE k HD Hk HE Zc Zf Fv HX Bx By N. rewrite inv_small in HD, HX. exists (winv L m).
  pose proof (Bm' L m _ _ _ M _ Fm Bm HM eq_refl eq_refl eq_refl HD eq_refl Hk) as Bi. pose proof (HW L m _ _ _ M _ Fm Bm HM eq_refl eq_refl eq_refl HD eq_refl Hk) as HW.
  pose proof (det_apx L m Fm Bi _ _ _ eq_refl eq_refl eq_refl HD HW) as KD. split.
  - apply (ainvert_eq L m Fm Bi _ _ _ eq_refl eq_refl eq_refl HD HW). destruct (PrimFloat.ltb _ E) eqn:EL; [|reflexivity]. destruct (apx_lt _ _ _ _ _ _ (apx_abs _ _ _ KD) (apx_exact E FE)) as [_ Q]. apply Q in EL. unfold runit in EL. lra.
  - destruct (undo_close L m _ _ _ M _ Fm Bm HM eq_refl eq_refl eq_refl HD eq_refl Hk v X Zc Zf Fv HX Bx By) as [[F1 K1] [F2 K2]]. fold k in K1, K2. fold N in F1, F2, K1, K2. cbv zeta. split; [split; assumption|].
    replace (64 * bpow radix2 (-53) * (k * k) * X) with (64 * (runit * k * k) * X) by (unfold runit; ring). split; assumption.
Qed.
Print Assumptions C116_undo.
Lemma lit_ex z : (Z.abs z <= 2 ^ 53)%Z -> toR (float_of_Z z) = IZR z. Proof. intro H. exact (proj2 (float_of_Z_exact z H)). Qed.
(** The hypotheses at a matrix with determinant 7, entries up to 7 and EPSILON = 2^-17. *)
Example C116_ex : let m := (mkA 2 1 5 (-1) 3 (-7))%float in let E := 0x1p-17%float in let k := 2 * (7 * 7) / Rabs (exact_det (affR m)) in
  finite_aff m /\ entries_within 7 (affR m) /\ 1 <= 7 <= bpow radix2 200 /\ finite E /\ bpow radix2 (-200) <= Rabs (exact_det (affR m)) /\ k <= bpow radix2 47 /\ det_size (affR m) <= bpow radix2 47 * Rabs (exact_det (affR m)) /\
  toR E <= Rabs (exact_det (affR m)) - 4 * bpow radix2 (-53) * det_size (affR m) /\ 37 * bpow radix2 (-53) * (k * k) * 7 < toR E.
Proof.
  intros m E k. assert (AM : affR m = mkA 2 1 5 (-1) 3 (-7)).
  { unfold affR, m. cbn [aa ab ac ad ae af]. f_equal; [exact (lit_ex 2 ltac:(lia))|exact (lit_ex 1 ltac:(lia))|exact (lit_ex 5 ltac:(lia))|exact (lit_ex (-1) ltac:(lia))|exact (lit_ex 3 ltac:(lia))|exact (lit_ex (-7) ltac:(lia))]. }
  assert (VE : toR E = bpow radix2 (-17)).
  { unfold E, toR. rewrite <- SF2R_B2SF, B2SF_Prim2B. replace (Prim2SF 0x1p-17%float) with (S754_finite false 4503599627370496 (-69)) by (vm_compute; reflexivity). unfold SF2R, F2R. cbn [Fnum Fexp cond_Zopp]. change (IZR (Z.pos 4503599627370496)) with (bpow radix2 52). rewrite <- bpow_plus. reflexivity. }
  unfold k. rewrite AM, VE. unfold exact_det, det_size, entries_within. cbn [aa ab ac ad ae af].
  assert (A7 : Rabs (2 * 3 - 1 * -1) = 7) by (rewrite Rabs_pos_eq; lra). assert (S7 : Rabs (2 * 3) + Rabs (1 * -1) = 7) by (rewrite Rabs_pos_eq, Rabs_left by lra; lra). rewrite A7, S7.
  assert (B : 7 <= bpow radix2 3) by (cbn; lra). assert (B2 : bpow radix2 3 <= bpow radix2 200) by (apply bpow_le; lia). assert (B3 : bpow radix2 (-200) <= bpow radix2 0) by (apply bpow_le; lia). change (bpow radix2 0) with 1 in B3.
  assert (B4 : bpow radix2 4 <= bpow radix2 47) by (apply bpow_le; lia). change (bpow radix2 4) with 16 in B4.
  assert (B5 : bpow radix2 (-53) = bpow radix2 (-17) * bpow radix2 (-36)) by (rewrite <- bpow_plus; reflexivity). assert (B6 : bpow radix2 (-36) <= / 1048576) by (replace (/ 1048576) with (bpow radix2 (-20)) by (cbn; lra); apply bpow_le; lia).
  assert (B7 : 0 < bpow radix2 (-17) <= 1) by (split; [apply bpow_gt_0|change 1 with (bpow radix2 0); apply bpow_le; lia]). assert (B8 : 0 < bpow radix2 (-36)) by apply bpow_gt_0.
  assert (B9 : bpow radix2 (-53) <= / 1048576 * bpow radix2 (-17)). { rewrite B5, Rmult_comm. apply Rmult_le_compat_r; lra. }
  replace (2 * (7 * 7) / 7) with 14 by field.
  split; [repeat split; reflexivity|]. split. { repeat split; unfold Rabs; destruct (Rcase_abs _); lra. } split; [lra|]. split; [reflexivity|]. split; [lra|]. split; [lra|]. split; [lra|]. split; lra.
Qed.
