(** * Products with the inverse on doubles *)
From Coq Require Import ZArith List Bool Reals Lra Lia Floats SpecFloat.
From Flocq Require Import Core IEEE754.PrimFloat IEEE754.BinarySingleNaN.
From Verif Require Import Num NumFloat Vec Affine OrdLaws SpecGeom RBase VecFacts2 AffineFacts FloatFacts FloatFacts2 FloatVec SpecExact FloatExact FloatErr FloatErr2 RotFacts SpecInv InvF.
Local Open Scope R_scope.

Lemma fmul_comm (a b : PrimFloat.float) : (a * b)%float = (b * a)%float.
Proof.
  apply Prim2SF_inj. rewrite !mul_spec. destruct (Prim2SF a) as [s1|s1| |s1 m1 e1], (Prim2SF b) as [s2|s2| |s2 m2 e2];
    unfold SF64mul, SFmul; rewrite ?(xorb_comm s1), ?(Pos.mul_comm m1), ?(Z.add_comm e1); reflexivity.
Qed.
Lemma det_raw (L : FloatLib) m : finite_aff m -> entries_within inv_size (affR m) -> apx (determinant (N := FNum L) m) (exact_det (affR m)) (3 * runit * det_size (affR m) + 3 * tiny).
Proof.
  intros (Fa & Fb & Fc & Fd & Fe & Ff) (A & B & _ & D0 & E0 & _). pose proof inv_size_sq as IS. pose proof inv_size_ge as IG. pose proof huge_pos.
  unfold affR in A, B, D0, E0. cbn [aa ab ad ae] in A, B, D0, E0.
  assert (M1 : Rabs (toR (aa m)) * Rabs (toR (ae m)) <= inv_size * inv_size) by (apply Rmult_le_compat; try apply Rabs_pos; assumption).
  assert (M2 : Rabs (toR (ab m)) * Rabs (toR (ad m)) <= inv_size * inv_size) by (apply Rmult_le_compat; try apply Rabs_pos; assumption).
  destruct (dot2 (aa m) (ab m) (ae m) (ad m) _ _ 0 0 Fa Fb (apx_exact _ Fe) (apx_exact _ Fd)) as [_ K]; [lra|lra|]. cbv zeta in K.
  change (apx (aa m * ae m - ab m * ad m)%float (exact_det (affR m)) (3 * runit * det_size (affR m) + 3 * tiny)). eapply apx_weak; [exact K|].
  unfold det_size, affR. cbn [aa ab ad ae]. rewrite !Rabs_mult. lra.
Qed.

Section Inv2.
  Variables (L : FloatLib) (m : affine PrimFloat.float) (D W k M g : R).
  Hypothesis Fm : finite_aff m.
  Hypothesis Bm : entries_within M (affR m).
  Hypothesis HM : 1 <= M <= inv_size.
  Hypothesis eD : D = exact_det (affR m).
  Hypothesis eW : W = det_size (affR m).
  Hypothesis ek : k = W / Rabs D.
  Hypothesis HD : / inv_size <= Rabs D.
  Hypothesis eg : g = 2 * (M * M) / Rabs D.
  Hypothesis Hg : g <= bpow radix2 47.

  Lemma Bm' : entries_within inv_size (affR m).
  Proof using All. destruct Bm as (H1 & H2 & H3 & H4 & H5 & H6). unfold entries_within. repeat split; lra. Qed.
  Lemma DP : 0 < Rabs D.
  Proof using All. pose proof inv_size_ge. assert (0 < / inv_size) by (apply Rinv_0_lt_compat; lra). lra. Qed.
  Lemma W_M : W <= 2 * (M * M).
  Proof using All.
    destruct Bm as (A & B & _ & D0 & E0 & _). rewrite eW. unfold det_size. rewrite !Rabs_mult.
    assert (Rabs (aa (affR m)) * Rabs (ae (affR m)) <= M * M) by (apply Rmult_le_compat; try apply Rabs_pos; assumption).
    assert (Rabs (ab (affR m)) * Rabs (ad (affR m)) <= M * M) by (apply Rmult_le_compat; try apply Rabs_pos; assumption). lra.
  Qed.
  Lemma k_g : k <= g.
  Proof using All. rewrite ek, eg. pose proof DP. apply Rmult_le_compat_r; [left; apply Rinv_0_lt_compat; lra|apply W_M]. Qed.
  Lemma HW : W <= bpow radix2 47 * Rabs D.
  Proof using All. pose proof DP. pose proof k_g. apply (Rmult_le_reg_r (/ Rabs D)); [apply Rinv_0_lt_compat; lra|]. replace (bpow radix2 47 * Rabs D * / Rabs D) with (bpow radix2 47) by (field; lra). fold (W / Rabs D). rewrite <- ek. lra. Qed.
  Let w := winv L m.
  Let q := qinv m D.
  Lemma wq : finite_aff w /\
    (let d x := 8 * (runit * k) * Rabs x + tiny in
     apx (aa w) (aa q) (d (aa q)) /\ apx (ab w) (ab q) (d (ab q)) /\ apx (ad w) (ad q) (d (ad q)) /\ apx (ae w) (ae q) (d (ae q))) /\
    (let d x y := 12 * (runit * k) * (Rabs (toR (ac m)) * Rabs x + Rabs (toR (af m)) * Rabs y) + (2 * (Rabs (toR (ac m)) + Rabs (toR (af m))) + 3) * tiny in
     apx (ac w) (ac q) (d (aa q) (ab q)) /\ apx (af w) (af q) (d (ad q) (ae q))).
  Proof using All. exact (winv_apx L m Fm Bm' D W k eD eW ek HD HW). Qed.
  Lemma q_ok : inverse_of (affR m) q. Proof using All. exact (qinv_ok L m Fm Bm' D W k eD eW ek HD HW). Qed.
  (** sizes *)
  Lemma k1 : 1 <= k. Proof using All. exact (k_ge L m Fm Bm' D W k eD eW ek HD HW). Qed.
  Lemma lin_q x : Rabs x <= M -> Rabs (x * / D) <= g / (2 * M).
  Proof using All.
    intro H. rewrite Rabs_mult, Rabs_inv, eg. pose proof DP. replace (2 * (M * M) / Rabs D / (2 * M)) with (M * / Rabs D) by (field; lra). apply Rmult_le_compat_r; [left; apply Rinv_0_lt_compat; lra|exact H].
  Qed.
  Lemma q_size : Rabs (aa q) <= g / (2 * M) /\ Rabs (ab q) <= g / (2 * M) /\ Rabs (ad q) <= g / (2 * M) /\ Rabs (ae q) <= g / (2 * M).
  Proof using All.
    destruct Bm as (A & B & _ & D0 & E0 & _). unfold affR in A, B, D0, E0. cbn [aa ab ad ae] in A, B, D0, E0. unfold q, qinv. cbn [aa ab ad ae].
    repeat split; apply lin_q; rewrite ?Rabs_Ropp; assumption.
  Qed.
  Lemma ug : runit * g <= / 64.
  Proof using All. unfold runit. replace (/ 64) with (bpow radix2 (-53) * bpow radix2 47); [apply Rmult_le_compat_l; [apply bpow_ge_0|exact Hg]|]. rewrite <- bpow_plus. cbn. lra. Qed.
  Lemma g_half : 0 < g / (2 * M) <= g / 2.
  Proof using All.
    pose proof k1. pose proof k_g. split; [apply Rdiv_lt_0_compat; lra|]. apply Rmult_le_compat_l; [lra|]. apply Rinv_le_contravar; lra.
  Qed.
  Lemma tinyM : (M + 1) * tiny <= / 1024 * runit.
  Proof using All.
    assert (T : 2 * inv_size * tiny <= / 1024 * runit).
    { unfold tiny, runit, inv_size. change 2 with (bpow radix2 1) at 1. rewrite <- !bpow_plus. replace (/ 1024) with (bpow radix2 (-10)) by (cbn; lra). rewrite <- bpow_plus. apply bpow_le. lia. }
    pose proof tiny_pos. pose proof inv_size_ge. assert ((M + 1) * tiny <= 2 * inv_size * tiny) by (apply Rmult_le_compat_r; lra). lra.
  Qed.
  Lemma tinyMM : (M + 1) * ((M + 1) * tiny) <= / 1024 * runit.
  Proof using All.
    assert (T : 2 * inv_size * (2 * inv_size * tiny) <= / 1024 * runit).
    { unfold tiny, runit, inv_size. change 2 with (bpow radix2 1) at 1 2. rewrite <- !bpow_plus. replace (/ 1024) with (bpow radix2 (-10)) by (cbn; lra). rewrite <- bpow_plus. apply bpow_le. lia. }
    pose proof tiny_pos. pose proof inv_size_ge. assert ((M + 1) * ((M + 1) * tiny) <= 2 * inv_size * (2 * inv_size * tiny)).
    { apply Rmult_le_compat; try lra; [apply Rmult_le_pos; lra|apply Rmult_le_compat_r; lra]. } lra.
  Qed.
  (** the amount in which errors of the inverse are measured *)
  Lemma ug2 : runit <= runit * g <= runit * g * g /\ runit * k <= runit * g.
  Proof using All.
    pose proof k1. pose proof k_g. pose proof runit_pos. assert (runit * 1 <= runit * g) by (apply Rmult_le_compat_l; lra).
    assert (runit * g * 1 <= runit * g * g) by (apply Rmult_le_compat_l; lra). assert (runit * k <= runit * g) by (apply Rmult_le_compat_l; lra). lra.
  Qed.
  Lemma big_MG : M * (g + 1 + 1) <= huge / 64.
  Proof using All.
    pose proof k1. pose proof k_g. assert (B : inv_size * (3 * bpow radix2 47) <= huge / 64).
    { eapply Rle_trans with (inv_size * bpow radix2 49). { apply Rmult_le_compat_l; [pose proof inv_size_ge; lra|]. replace 49%Z with (2 + 47)%Z by lia. rewrite bpow_plus. change (bpow radix2 2) with 4. pose proof (bpow_gt_0 radix2 47). lra. }
      unfold inv_size, huge. rewrite <- bpow_plus. replace (bpow radix2 1000 / 64) with (bpow radix2 994); [apply bpow_le; lia|]. replace 1000%Z with (994 + 6)%Z by lia. rewrite bpow_plus. change (bpow radix2 6) with 64. field. }
    assert (1 <= bpow radix2 47) by (change 1 with (bpow radix2 0); apply bpow_le; lia).
    assert (M * (g + 1 + 1) <= inv_size * (3 * bpow radix2 47)) by (apply Rmult_le_compat; lra). lra.
  Qed.
  (** two entries of the matrix times two of the linear part of the inverse *)
  Lemma lin_prod a b p s x y : finite a -> finite b -> Rabs (toR a) <= M -> Rabs (toR b) <= M ->
    Rabs x <= g / (2 * M) -> Rabs y <= g / (2 * M) -> apx p x (8 * (runit * k) * Rabs x + tiny) -> apx s y (8 * (runit * k) * Rabs y + tiny) ->
    apx (a * p + b * s) (toR a * x + toR b * y) (12 * (runit * g * g)).
  Proof using All.
    intros Fa Fb Ba Bb Bx By Hp Hs. pose proof k1 as K1. pose proof k_g as K2. pose proof ug as U. destruct ug2 as [[U1 U2] U3]. pose proof runit_pos as U0. pose proof tiny_pos as T0. pose proof tiny_small as T1. pose proof runit_small as R1. destruct g_half as [G0 G1]. pose proof tinyM as TM. pose proof huge_pos as HP. pose proof big_MG as BG.
    assert (UK0 : 0 < runit * k) by (apply Rmult_lt_0_compat; lra). set (h := g / (2 * M)) in *. assert (EH : 2 * (M * h) = g) by (unfold h; field; lra).
    assert (P : forall c z, Rabs c <= M -> Rabs z <= h -> 0 <= Rabs c * Rabs z <= M * h /\ Rabs c * (8 * (runit * k) * Rabs z + tiny) <= 8 * (runit * k) * (M * h) + M * tiny).
    { intros c z Hc Hz. pose proof (Rabs_pos c). pose proof (Rabs_pos z). assert (Q : 0 <= Rabs c * Rabs z <= M * h) by (split; [apply Rmult_le_pos; lra|apply Rmult_le_compat; lra]). split; [exact Q|].
      replace (Rabs c * (8 * (runit * k) * Rabs z + tiny)) with (8 * (runit * k) * (Rabs c * Rabs z) + Rabs c * tiny) by ring.
      assert (8 * (runit * k) * (Rabs c * Rabs z) <= 8 * (runit * k) * (M * h)) by (apply Rmult_le_compat_l; lra). assert (Rabs c * tiny <= M * tiny) by (apply Rmult_le_compat_r; lra). lra. }
    destruct (P _ _ Ba Bx) as [P1 P2]. destruct (P _ _ Bb By) as [P3 P4].
    assert (RK : 8 * (runit * k) * (M * h) <= 8 * / 64 * (M * h)) by (apply Rmult_le_compat_r; lra).
    assert (MT : M * tiny <= 1) by lra.
    assert (MG : M * h <= huge / 64) by (assert (g <= M * (g + 1 + 1)) by (rewrite <- (Rmult_1_l g) at 1; apply Rmult_le_compat; lra); lra).
    assert (H8 : 64 <= huge) by (unfold huge; change 64 with (bpow radix2 6); apply bpow_le; lia).
    destruct (dot2 a b p s x y _ _ Fa Fb Hp Hs) as [K _]; [rewrite Rmult_plus_distr_l; lra|rewrite Rmult_plus_distr_l; lra|]. cbv zeta in K. eapply apx_weak; [exact K|].
    set (s0 := Rabs (toR a) * Rabs x + Rabs (toR b) * Rabs y) in *. assert (S1 : s0 <= g) by (unfold s0; lra).
    assert (Q1 : runit * s0 <= runit * g) by (apply Rmult_le_compat_l; lra).
    assert (Q2 : 16 * (runit * k) * (M * h) <= 8 * (runit * g * g)).
    { replace (16 * (runit * k) * (M * h)) with (8 * (runit * k * (2 * (M * h)))) by ring. rewrite EH. apply Rmult_le_compat_l; [lra|]. apply Rmult_le_compat_r; lra. }
    assert (0 <= M * tiny) by (apply Rmult_le_pos; lra). lra.
  Qed.
  (** translation of the inverse *)
  Lemma tr_size c f x y : Rabs c <= M -> Rabs f <= M -> Rabs x <= g / (2 * M) -> Rabs y <= g / (2 * M) -> 
    0 <= Rabs c * Rabs x + Rabs f * Rabs y <= g.
  Proof using All.
    intros Hc Hf Hx Hy. destruct g_half as [G0 G1]. set (h := g / (2 * M)) in *. assert (EH : 2 * (M * h) = g) by (unfold h; field; lra).
    pose proof (Rabs_pos c). pose proof (Rabs_pos f). pose proof (Rabs_pos x). pose proof (Rabs_pos y).
    assert (0 <= Rabs c * Rabs x <= M * h) by (split; [apply Rmult_le_pos; lra|apply Rmult_le_compat; lra]). assert (0 <= Rabs f * Rabs y <= M * h) by (split; [apply Rmult_le_pos; lra|apply Rmult_le_compat; lra]). lra.
  Qed.
  Lemma wt : (Rabs (ac q) <= g /\ Rabs (af q) <= g) /\ apx (ac w) (ac q) (13 * (runit * g * g)) /\ apx (af w) (af q) (13 * (runit * g * g)).
  Proof using All.
    destruct wq as (_ & _ & K1 & K2). destruct q_size as (Q1 & Q2 & Q3 & Q4). pose proof Bm as (_ & _ & C & _ & _ & F). unfold affR in C, F. cbn [ac af] in C, F.
    pose proof (tr_size _ _ _ _ C F Q1 Q2) as S1. pose proof (tr_size _ _ _ _ C F Q3 Q4) as S2. destruct ug2 as [[U1 U2] U3]. pose proof tinyM as TM. pose proof tiny_pos as T0. pose proof runit_pos as U0. pose proof k1. pose proof k_g.
    assert (G : forall s, 0 <= s <= g -> 12 * (runit * k) * s + (2 * (Rabs (toR (ac m)) + Rabs (toR (af m))) + 3) * tiny <= 13 * (runit * g * g)).
    { intros s Hs. assert (0 <= runit * k) by (apply Rmult_le_pos; lra). assert (A1 : runit * k * s <= runit * g * g) by (apply Rmult_le_compat; lra).
      assert ((2 * (Rabs (toR (ac m)) + Rabs (toR (af m))) + 3) * tiny <= (2 * (M + M) + 3) * tiny) by (apply Rmult_le_compat_r; lra). lra. }
    split; [|split; eapply apx_weak; [exact K1|apply G, S1|exact K2|apply G, S2]].
    assert (A : forall c f x y, Rabs (- c * x - f * y) <= Rabs c * Rabs x + Rabs f * Rabs y). { intros c f x y. unfold Rminus. eapply Rle_trans; [apply Rabs_triang|]. rewrite Rabs_Ropp, !Rabs_mult, Rabs_Ropp. lra. }
    split; (eapply Rle_trans; [apply A|]); [apply S1|apply S2].
  Qed.
  Lemma tr_prod a b c x y p s d : finite a -> finite b -> finite c -> Rabs (toR a) <= M -> Rabs (toR b) <= M -> Rabs x <= g -> Rabs y <= g -> d <= 13 * (runit * g * g) ->
    apx p x d -> apx s y d -> toR a * x + toR b * y + toR c = 0 -> apx (a * p + b * s + c) 0 (36 * (runit * g * g) * M).
  Proof using All.
    intros Fa Fb Fc Ba Bb Bx By Hd Hp Hs E. pose proof k1 as K1. pose proof k_g as K2. pose proof ug as U. destruct ug2 as [[U1 U2] U3]. pose proof runit_pos as U0. pose proof tiny_pos as T0. pose proof tiny_small as T1. pose proof runit_small as R1. pose proof tinyM as TM. pose proof huge_pos as HP. pose proof big_MG as BG.
    pose proof (apx_pos _ _ _ Hp) as D0. assert (UG : runit * g * g <= / 64 * g) by (apply Rmult_le_compat_r; lra).
    set (z := runit * g * g) in *. assert (H8 : 64 <= huge) by (unfold huge; change 64 with (bpow radix2 6); apply bpow_le; lia).
    assert (MG : M * g <= huge / 64) by (assert (M * g <= M * (g + 1 + 1)) by (apply Rmult_le_compat_l; lra); lra). assert (MG0 : 0 <= M * g) by (apply Rmult_le_pos; lra).
    assert (MZ : M * z <= / 64 * (M * g)). { replace (/ 64 * (M * g)) with (M * (/ 64 * g)) by ring. apply Rmult_le_compat_l; lra. }
    assert (MZ0 : 0 < z /\ z <= M * z) by (split; [lra|rewrite <- (Rmult_1_l z) at 1; apply Rmult_le_compat_r; lra]).
    assert (P : forall e y, Rabs e <= M -> Rabs y <= g -> 0 <= Rabs e * Rabs y <= M * g /\ 0 <= Rabs e * d <= 13 * (M * z)).
    { intros e y' He Hy. pose proof (Rabs_pos e). pose proof (Rabs_pos y'). split; (split; [apply Rmult_le_pos; lra|]); [apply Rmult_le_compat; lra|]. replace (13 * (M * z)) with (M * (13 * z)) by ring. apply Rmult_le_compat; lra. }
    destruct (P _ _ Ba Bx) as [P1 P2]. destruct (P _ _ Bb By) as [P3 P4].
    destruct (dot2 a b p s x y _ _ Fa Fb Hp Hs) as [K _]; [rewrite Rmult_plus_distr_l; lra|rewrite Rmult_plus_distr_l; lra|]. cbv zeta in K.
    assert (K' : apx (a * p + b * s) (toR a * x + toR b * y) (34 * (M * z))).
    { eapply apx_weak; [exact K|]. set (s0 := Rabs (toR a) * Rabs x + Rabs (toR b) * Rabs y) in *. assert (runit * s0 <= runit * (2 * (M * g))) by (apply Rmult_le_compat_l; unfold s0; lra).
      assert (runit * (2 * (M * g)) <= 2 * (M * z)). { replace (runit * (2 * (M * g))) with (2 * (M * (runit * g))) by ring. apply Rmult_le_compat_l; [lra|]. apply Rmult_le_compat_l; lra. } assert (0 <= M * tiny) by (apply Rmult_le_pos; lra). lra. }
    pose proof (apx_add _ _ _ _ _ _ (34 * (M * z)) K' (apx_exact c Fc)) as K3. rewrite E, Rabs_R0 in K3. eapply apx_weak; [apply K3; lra|].
    assert (runit * (34 * (M * z)) <= / 1048576 * (34 * (M * z))) by (apply Rmult_le_compat_r; lra). lra.
  Qed.
  (** [m * ~m] *)
  Lemma prod_close : let t := amul (N := FNum L) m w in let b := 36 * (runit * g * g) * M in
    apx (aa t) 1 b /\ apx (ab t) 0 b /\ apx (ac t) 0 b /\ apx (ad t) 0 b /\ apx (ae t) 1 b /\ apx (af t) 0 b.
  Proof using All.
    destruct wq as (_ & (Wa & Wb & Wd & We) & _). destruct wt as ((Qc & Qf) & Wc & Wf). destruct q_size as (Q1 & Q2 & Q3 & Q4). destruct q_ok as (I1 & I2 & I3 & I4 & I5 & I6).
    pose proof Fm as (Fa & Fb & Fc & Fd & Fe & Ff). pose proof Bm as (Ba & Bb & Bc & Bd & Be & Bf). unfold affR in Ba, Bb, Bc, Bd, Be, Bf, I1, I2, I3, I4, I5, I6. cbn [aa ab ac ad ae af] in Ba, Bb, Bc, Bd, Be, Bf, I1, I2, I3, I4, I5, I6.
    destruct ug2 as [[U1 U2] U3]. pose proof runit_pos as U0. assert (MZ : runit * g * g <= runit * g * g * M) by (rewrite <- (Rmult_1_r (runit * g * g)) at 1; apply Rmult_le_compat_l; lra).
    cbv zeta. unfold amul. cbn [aa ab ac ad ae af nadd nmul FNum]. repeat match goal with |- _ /\ _ => split end.
    - rewrite <- I1. eapply apx_weak; [apply lin_prod; assumption|lra].
    - rewrite <- I2. eapply apx_weak; [apply lin_prod; assumption|lra].
    - apply (tr_prod _ _ _ _ _ _ _ _ Fa Fb Fc Ba Bb Qc Qf (Rle_refl _) Wc Wf I3).
    - rewrite <- I4. eapply apx_weak; [apply lin_prod; assumption|lra].
    - rewrite <- I5. eapply apx_weak; [apply lin_prod; assumption|lra].
    - apply (tr_prod _ _ _ _ _ _ _ _ Fd Fe Ff Bd Be Qc Qf (Rle_refl _) Wc Wf I6).
  Qed.

  (** application to a point, translation approximating 0 *)
  Lemma lin_apply a b p s c x y dx dy dc : finite a -> finite b -> apx p x dx -> apx s y dy -> apx c 0 dc ->
    Rabs (toR a) * (Rabs x + dx) <= huge / 64 -> Rabs (toR b) * (Rabs y + dy) <= huge / 64 -> dc <= 1 ->
    let s0 := Rabs (toR a) * Rabs x + Rabs (toR b) * Rabs y in let t := Rabs (toR a) * dx + Rabs (toR b) * dy in
    apx (a * p + b * s + c) (toR a * x + toR b * y) (9 / 8 * t + 5 * runit * s0 + 4 * tiny + 2 * dc).
  Proof using.
    intros Fa Fb Hp Hs Hc B1 B2 Bc s0 t. pose proof huge_pos as HP. destruct (dot2 a b p s x y dx dy Fa Fb Hp Hs) as [K _]; [lra|lra|]. cbv zeta in K. fold s0 t in K.
    pose proof (apx_pos _ _ _ Hp) as P1. pose proof (apx_pos _ _ _ Hs) as P2. pose proof (apx_pos _ _ _ Hc) as P3. pose proof (apx_pos _ _ _ K) as P4. pose proof runit_pos as U0. pose proof runit_small as U1. pose proof tiny_pos as T0. pose proof tiny_small as T1.
    assert (S0 : 0 <= s0) by (unfold s0; pose proof (Rmult_le_pos _ _ (Rabs_pos (toR a)) (Rabs_pos x)); pose proof (Rmult_le_pos _ _ (Rabs_pos (toR b)) (Rabs_pos y)); lra).
    assert (T2 : 0 <= t) by (unfold t; pose proof (Rmult_le_pos _ _ (Rabs_pos (toR a)) P1); pose proof (Rmult_le_pos _ _ (Rabs_pos (toR b)) P2); lra).
    assert (ST : s0 + t <= huge / 32) by (unfold s0, t; lra). assert (H8 : 64 <= huge) by (unfold huge; change 64 with (bpow radix2 6); apply bpow_le; lia).
    assert (R1 : 0 <= runit * s0 <= / 1048576 * s0) by (split; [apply Rmult_le_pos; lra|apply Rmult_le_compat_r; lra]).
    set (z := s0 + (17 / 16 * t + 3 * runit * s0 + 3 * tiny) + dc). assert (Z1 : z <= huge) by (unfold z; lra).
    assert (Q : Rabs (toR a * x + toR b * y) <= s0) by (eapply Rle_trans; [apply Rabs_triang|]; rewrite !Rabs_mult; unfold s0; lra).
    pose proof (apx_add _ _ _ _ _ _ z K Hc) as G. rewrite Rplus_0_r in G. eapply apx_weak; [apply G; [unfold z; lra|exact Z1]|].
    assert (Z2 : z <= 2 * s0 + 2 * t + 2 * dc + 4 * tiny - s0 / 2) by (unfold z; lra).
    assert (Z3 : runit * z <= runit * (3 / 2 * s0 + 2 * t + 2 * dc + 4 * tiny)) by (apply Rmult_le_compat_l; lra).
    assert (R2 : runit * t <= / 1048576 * t) by (apply Rmult_le_compat_r; lra). assert (R3 : runit * dc <= / 1048576 * dc) by (apply Rmult_le_compat_r; lra). assert (R4 : runit * tiny <= / 1048576 * tiny) by (apply Rmult_le_compat_r; lra). lra.
  Qed.
  Lemma undo_close v X : toR (ac m) = 0 -> toR (af m) = 0 -> finite_vec v -> / inv_size <= X <= inv_size -> Rabs (toR (vx v)) <= X -> Rabs (toR (vy v)) <= X ->
    let r := aapply (N := FNum L) w (aapply (N := FNum L) m v) in apx (vx r) (toR (vx v)) (64 * (runit * g * g) * X) /\ apx (vy r) (toR (vy v)) (64 * (runit * g * g) * X).
  Proof using All.
    intros Zc Zf [Fx Fy] HX Bx By. destruct wq as (_ & (Wa & Wb & Wd & We) & (Wc & Wf)). destruct q_size as (Q1 & Q2 & Q3 & Q4). destruct q_ok as (I1 & I2 & I3 & I4 & I5 & I6).
    pose proof Fm as (Fa & Fb & Fc & Fd & Fe & Ff). pose proof Bm as (Ba & Bb & Bc & Bd & Be & Bf). unfold affR in Ba, Bb, Bc, Bd, Be, Bf, I1, I2, I3, I4, I5, I6. cbn [aa ab ac ad ae af] in Ba, Bb, Bc, Bd, Be, Bf, I1, I2, I3, I4, I5, I6.
    rewrite Zc, Zf, Rabs_R0 in Wc, Wf. assert (qc : ac q = 0 /\ af q = 0). { unfold q, qinv. cbn [ac af]. rewrite Zc, Zf. split; ring. } destruct qc as [qc qf]. rewrite qc in Wc. rewrite qf in Wf.
    assert (Wc' : apx (ac w) 0 (3 * tiny)) by (eapply apx_weak; [exact Wc|lra]). assert (Wf' : apx (af w) 0 (3 * tiny)) by (eapply apx_weak; [exact Wf|lra]).
    assert (Mc : apx (ac m) 0 0) by (pose proof (apx_exact _ Fc) as Q; rewrite Zc in Q; exact Q). assert (Mf : apx (af m) 0 0) by (pose proof (apx_exact _ Ff) as Q; rewrite Zf in Q; exact Q).
    pose proof k1 as K1. pose proof k_g as K2. pose proof ug as U. destruct ug2 as [[U1 U2] U3]. pose proof runit_pos as U0. pose proof tiny_pos as T0. pose proof tiny_small as T1. pose proof runit_small as R1. destruct g_half as [G0 G1]. pose proof tinyM as TM. pose proof huge_pos as HP. pose proof big_MG as BG. pose proof inv_size_ge as IG.
    set (h := g / (2 * M)) in *. assert (EH : 2 * (M * h) = g) by (unfold h; field; lra).
    assert (XP : 0 < X) by (assert (0 < / inv_size) by (apply Rinv_0_lt_compat; lra); lra).
    assert (TX : tiny <= / 1024 * (runit * X)).
    { assert (tiny <= / 1024 * (runit * / inv_size)). { unfold tiny, runit, inv_size. rewrite <- bpow_opp, <- bpow_plus. replace (/ 1024) with (bpow radix2 (-10)) by (cbn; lra). rewrite <- bpow_plus. apply bpow_le. lia. }
      assert (runit * / inv_size <= runit * X) by (apply Rmult_le_compat_l; lra). lra. }
    assert (UX : 0 <= runit * X <= / 1048576 * X) by (split; [apply Rmult_le_pos; lra|apply Rmult_le_compat_r; lra]).
    assert (MX : X <= M * X) by (rewrite <- (Rmult_1_l X) at 1; apply Rmult_le_compat_r; lra).
    assert (UMX : runit * X <= runit * (M * X) <= / 1048576 * (M * X)) by (split; [apply Rmult_le_compat_l; lra|apply Rmult_le_compat_r; lra]).
    assert (BMX : M * X <= huge / 1048576 / bpow radix2 60).
    { assert (M * X <= inv_size * inv_size) by (apply Rmult_le_compat; lra). assert (inv_size * inv_size <= huge / 1048576 / bpow radix2 60); [|lra]. unfold inv_size, huge. rewrite <- bpow_plus. change 1048576 with (bpow radix2 20). unfold Rdiv. rewrite <- !bpow_opp, <- !bpow_plus. apply bpow_le. lia. }
    assert (B60 : 1048576 * bpow radix2 47 <= bpow radix2 60 * bpow radix2 7). { change 1048576 with (bpow radix2 20). rewrite <- !bpow_plus. apply bpow_le. lia. }
    assert (G60 : 1 <= bpow radix2 60) by (change 1 with (bpow radix2 0); apply bpow_le; lia).
    assert (BMX1 : M * X <= huge / 1048576). { eapply Rle_trans; [exact BMX|]. apply (Rmult_le_reg_r (bpow radix2 60)); [lra|]. replace (huge / 1048576 / bpow radix2 60 * bpow radix2 60) with (huge / 1048576 * 1) by (field; lra). apply Rmult_le_compat_l; lra. }
    (* the image *)
    assert (Pm : forall a b, Rabs a <= X -> Rabs b <= M -> 0 <= Rabs a * Rabs b <= M * X). { intros a b Ha Hb. pose proof (Rabs_pos a). pose proof (Rabs_pos b). split; [apply Rmult_le_pos; lra|]. rewrite (Rmult_comm M). apply Rmult_le_compat; lra. }
    assert (IMG : forall e1 e2 c, finite e1 -> finite e2 -> Rabs (toR e1) <= M -> Rabs (toR e2) <= M -> apx c 0 0 ->
      apx (vx v * e1 + vy v * e2 + c) (toR (vx v) * toR e1 + toR (vy v) * toR e2) (11 * (runit * (M * X))) /\ Rabs (toR (vx v) * toR e1 + toR (vy v) * toR e2) <= 2 * (M * X)).
    { intros e1 e2 c F1 F2 B1 B2 Hc. pose proof (Pm _ _ Bx B1). pose proof (Pm _ _ By B2). split.
      - pose proof (lin_apply (vx v) (vy v) e1 e2 c _ _ _ _ _ Fx Fy (apx_exact _ F1) (apx_exact _ F2) Hc) as K. cbv zeta in K. eapply apx_weak; [apply K; lra|].
        set (s0 := Rabs (toR (vx v)) * Rabs (toR e1) + Rabs (toR (vy v)) * Rabs (toR e2)). assert (runit * s0 <= runit * (2 * (M * X))) by (apply Rmult_le_compat_l; unfold s0; lra). lra.
      - eapply Rle_trans; [apply Rabs_triang|]. rewrite !Rabs_mult. lra. }
    destruct (IMG (aa m) (ad m) (ac m) Fa Fd Ba Bd Mc) as [PX SX]. destruct (IMG (ab m) (ae m) (af m) Fb Fe Bb Be Mf) as [PY SY]. clear IMG.
    set (px := (vx v * aa m + vy v * ad m + ac m)%float) in *. set (py := (vx v * ab m + vy v * ae m + af m)%float) in *.
    set (rx := toR (vx v) * toR (aa m) + toR (vy v) * toR (ad m)) in *. set (ry := toR (vx v) * toR (ab m) + toR (vy v) * toR (ae m)) in *.
    assert (MP : Rabs (toR px) <= 3 * (M * X) /\ Rabs (toR py) <= 3 * (M * X)) by (pose proof (apx_mag _ _ _ PX); pose proof (apx_mag _ _ _ PY); lra). destruct MP as [MPX MPY].
    assert (UK0 : 0 < runit * k) by (apply Rmult_lt_0_compat; lra).
    assert (HX1 : M * X * h = g * X / 2). { replace (g * X / 2) with (M * h * X) by (rewrite <- EH; field). ring. }
    assert (GX : X <= g * X) by (rewrite <- (Rmult_1_l X) at 1; apply Rmult_le_compat_r; lra).
    assert (GXH : g * X <= huge / 1048576).
    { assert (X <= M * X) by lra. assert (A : g * X <= bpow radix2 47 * (huge / 1048576 / bpow radix2 60)) by (apply Rmult_le_compat; lra).
      assert (bpow radix2 47 * (huge / 1048576 / bpow radix2 60) = huge / 1048576 * (bpow radix2 47 / bpow radix2 60)) by (field; pose proof (bpow_gt_0 radix2 60); lra).
      assert (bpow radix2 47 / bpow radix2 60 <= 1). { apply (Rmult_le_reg_r (bpow radix2 60)); [apply bpow_gt_0|]. replace (bpow radix2 47 / bpow radix2 60 * bpow radix2 60) with (bpow radix2 47) by (field; pose proof (bpow_gt_0 radix2 60); lra). rewrite Rmult_1_l. apply bpow_le. lia. }
      assert (huge / 1048576 * (bpow radix2 47 / bpow radix2 60) <= huge / 1048576 * 1) by (apply Rmult_le_compat_l; lra). lra. }
    assert (BACK : forall e1 e2 c x y z, Rabs x <= h -> Rabs y <= h -> apx e1 x (8 * (runit * k) * Rabs x + tiny) -> apx e2 y (8 * (runit * k) * Rabs y + tiny) -> apx c 0 (3 * tiny) -> rx * x + ry * y = z ->
      apx (px * e1 + py * e2 + c) z (64 * (runit * g * g) * X)).
    { intros e1 e2 c x y z Hx Hy A1 A2 Hc Ez. destruct PX as [FX DX], PY as [FY DY].
      assert (P : forall a b, Rabs a <= 3 * (M * X) -> Rabs b <= h -> 0 <= Rabs a * Rabs b <= 3 / 2 * (g * X) /\ Rabs a * (8 * (runit * k) * Rabs b + tiny) <= 12 * (runit * g * g) * X + 3 / 1024 * (runit * X)).
      { intros a b Ha Hb. pose proof (Rabs_pos a). pose proof (Rabs_pos b). assert (Q : 0 <= Rabs a * Rabs b <= 3 / 2 * (g * X)). { split; [apply Rmult_le_pos; lra|]. replace (3 / 2 * (g * X)) with (3 * (M * X) * h) by (rewrite (Rmult_assoc 3), HX1; field). apply Rmult_le_compat; lra. } split; [exact Q|].
        replace (Rabs a * (8 * (runit * k) * Rabs b + tiny)) with (8 * (runit * k) * (Rabs a * Rabs b) + Rabs a * tiny) by ring.
        assert (S1 : runit * k * (Rabs a * Rabs b) <= runit * g * (3 / 2 * (g * X))) by (apply Rmult_le_compat; lra).
        assert (S2 : Rabs a * tiny <= 3 * (M * X) * tiny) by (apply Rmult_le_compat_r; lra). assert (S3 : M * tiny * X <= / 1024 * runit * X) by (apply Rmult_le_compat_r; lra). lra. }
      destruct (P _ _ MPX Hx) as [P1 P2]. destruct (P _ _ MPY Hy) as [P3 P4].
      assert (ZG : 0 <= runit * g * g * X) by (apply Rmult_le_pos; lra). assert (ZS : runit * g * g * X <= / 64 * (g * X)). { replace (/ 64 * (g * X)) with (/ 64 * g * X) by ring. apply Rmult_le_compat_r; [lra|]. apply Rmult_le_compat_r; lra. }
      assert (ZU : runit * X <= runit * g * X <= runit * g * g * X) by (split; apply Rmult_le_compat_r; lra).
      pose proof (lin_apply px py e1 e2 c _ _ _ _ _ FX FY A1 A2 Hc) as K. cbv zeta in K. rewrite !Rmult_plus_distr_l in K. assert (H8 : 1048576 <= huge) by (unfold huge; change 1048576 with (bpow radix2 20); apply bpow_le; lia).
      rewrite <- !Rmult_plus_distr_l in K. destruct K as [KF KV]; [rewrite Rmult_plus_distr_l; lra|rewrite Rmult_plus_distr_l; lra|lra|]. split; [exact KF|].
      replace (toR (px * e1 + py * e2 + c) - z) with ((toR (px * e1 + py * e2 + c) - (toR px * x + toR py * y)) + ((toR px - rx) * x + (toR py - ry) * y)) by (rewrite <- Ez; ring).
      eapply Rle_trans; [apply Rabs_triang|].
      assert (V1 : Rabs ((toR px - rx) * x + (toR py - ry) * y) <= 11 * (runit * g * X)).
      { eapply Rle_trans; [apply Rabs_triang|]. rewrite !Rabs_mult.
        assert (A : Rabs (toR px - rx) * Rabs x <= 11 * (runit * (M * X)) * h) by (apply Rmult_le_compat; try apply Rabs_pos; assumption). assert (B : Rabs (toR py - ry) * Rabs y <= 11 * (runit * (M * X)) * h) by (apply Rmult_le_compat; try apply Rabs_pos; assumption).
        replace (11 * (runit * (M * X)) * h) with (11 * runit * (M * X * h)) in A, B by ring. rewrite HX1 in A, B. lra. }
      set (s0 := Rabs (toR px) * Rabs x + Rabs (toR py) * Rabs y) in *. assert (runit * s0 <= runit * (3 * (g * X))) by (apply Rmult_le_compat_l; unfold s0; lra). lra. }
    unfold aapply, vec2. cbn [vx vy nadd nmul FNum]. change (@n1 _ (FNum L)) with 1%float. rewrite !fmul1. fold px py.
    change (apx (px * aa w + py * ad w + ac w) (toR (vx v)) (64 * (runit * g * g) * X) /\ apx (px * ab w + py * ae w + af w) (toR (vy v)) (64 * (runit * g * g) * X)). split.
    - apply (BACK _ _ _ (aa q) (ad q)); auto. unfold rx, ry. replace ((toR (vx v) * toR (aa m) + toR (vy v) * toR (ad m)) * aa q + (toR (vx v) * toR (ab m) + toR (vy v) * toR (ae m)) * ad q) with (toR (vx v) * (toR (aa m) * aa q + toR (ab m) * ad q) + toR (vy v) * (toR (ad m) * aa q + toR (ae m) * ad q)) by ring. rewrite I1, I4. ring.
    - apply (BACK _ _ _ (ab q) (ae q)); auto. unfold rx, ry. replace ((toR (vx v) * toR (aa m) + toR (vy v) * toR (ad m)) * ab q + (toR (vx v) * toR (ab m) + toR (vy v) * toR (ae m)) * ae q) with (toR (vx v) * (toR (aa m) * ab q + toR (ab m) * ae q) + toR (vy v) * (toR (ad m) * ab q + toR (ae m) * ae q)) by ring. rewrite I2, I5. ring.
  Qed.
End Inv2.
