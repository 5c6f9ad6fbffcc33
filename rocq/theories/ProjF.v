(** * Projections and reflections on doubles: lemmas for C119 *)
From Coq Require Import ZArith List Bool Reals Lra Lia Psatz Floats.
From Flocq Require Import Core IEEE754.PrimFloat IEEE754.BinarySingleNaN.
From Verif Require Import Num NumFloat Vec Affine Line OrdLaws SpecGeom RBase SpecLine SpecErr VecFacts2 LineFacts LineFacts2 FloatFacts FloatFacts2 FloatFacts3 FloatVec SpecExact FloatExact FloatErr FloatErr2 FloatErr3 FloatErr4 FloatErr5 FloatErr6 FloatErr7 IdealLib ScaleF.
Import ListNotations.
Local Open Scope R_scope.

Lemma abs_prod a b A B : Rabs a <= A -> Rabs b <= B -> Rabs (a * b) <= A * B.
Proof. intros. rewrite Rabs_mult. apply Rmult_le_compat; auto; apply Rabs_pos. Qed.
Lemma pdot_unit U T X : norm U = 1 -> norm T <= X -> Rabs (pdot U T) <= X.
Proof.
  intros HU HT. pose proof (cauchy U T) as C1. pose proof (cauchy U (pscale (-1) T)) as C2. rewrite HU in C1, C2.
  assert (N : norm (pscale (-1) T) = norm T) by (unfold norm, pscale; cbn [vx vy]; f_equal; ring). rewrite N in C2.
  assert (P : pdot U (pscale (-1) T) = - pdot U T) by (unfold pdot, pscale; cbn [vx vy]; ring). rewrite P in C2. apply Rabs_le. lra.
Qed.

Section Pert.
  Variables (u M : R).
  Hypothesis Hu : 0 < u <= / 1048576.
  Hypothesis HM : 0 < M.
  Variables (U D T t : pt).
  Hypothesis NU : norm U = 1.
  Hypothesis Dx : Rabs (vx D - vx U) <= 20 * u.
  Hypothesis Dy : Rabs (vy D - vy U) <= 20 * u.
  Hypothesis tx : Rabs (vx t - vx T) <= 2 * (u * M).
  Hypothesis ty : Rabs (vy t - vy T) <= 2 * (u * M).
  Hypothesis Tx : Rabs (vx T) <= 2 * M.
  Hypothesis Ty : Rabs (vy T) <= 2 * M.
  Lemma norm_T : norm T <= 3 * M.
  Proof using HM Tx Ty. apply norm_le_iff; [lra|]. apply abs_le2 in Tx, Ty. nra. Qed.
  Lemma n2_near : Rabs (norm D * norm D - 1) <= 81 * u.
  Proof using Hu NU Dx Dy.
    pose proof (norm_sq U) as Q. rewrite NU in Q. rewrite norm_sq. destruct (coord_norm U) as [C1 C2]. rewrite NU in C1, C2.
    set (a := vx D - vx U) in *. set (b := vy D - vy U) in *.
    replace (vx D * vx D + vy D * vy D - 1) with (2 * (vx U * a) + 2 * (vy U * b) + (a * a + b * b)) by (unfold a, b; lra).
    pose proof (abs_prod _ _ _ _ C1 Dx) as P1. pose proof (abs_prod _ _ _ _ C2 Dy) as P2. pose proof (abs_prod _ _ _ _ Dx Dx) as P3. pose proof (abs_prod _ _ _ _ Dy Dy) as P4.
    apply abs_le2 in P1, P2, P3, P4. assert (u * u <= / 1048576 * u) by (apply Rmult_le_compat_r; lra). apply Rabs_le. lra.
  Qed.
  Lemma proj_pert : let s := pdot D t / (norm D * norm D) in
    Rabs (s * vx D - pdot U T * vx U) <= 391 * (u * M) /\ Rabs (s * vy D - pdot U T * vy U) <= 391 * (u * M).
  Proof using All.
    cbv zeta. pose proof n2_near as N2. pose proof norm_T as NT. pose proof (pdot_unit U T _ NU NT) as X. destruct (coord_norm U) as [C1 C2]. rewrite NU in C1, C2.
    assert (UM : 0 < u * M) by (apply Rmult_lt_0_compat; lra). assert (UM1 : u * M <= / 1048576 * M) by (apply Rmult_le_compat_r; lra).
    assert (YX : Rabs (pdot D t - pdot U T) <= 85 * (u * M)).
    { replace (pdot D t - pdot U T) with ((vx D - vx U) * vx t + (vy D - vy U) * vy t + (vx U * (vx t - vx T) + vy U * (vy t - vy T))) by (unfold pdot; ring).
      assert (A1 : Rabs (vx t) <= 2.01 * M) by (apply abs_le2 in tx, Tx; apply Rabs_le; lra). assert (A2 : Rabs (vy t) <= 2.01 * M) by (apply abs_le2 in ty, Ty; apply Rabs_le; lra).
      pose proof (abs_prod _ _ _ _ Dx A1) as P1. pose proof (abs_prod _ _ _ _ Dy A2) as P2. pose proof (abs_prod _ _ _ _ C1 tx) as P3. pose proof (abs_prod _ _ _ _ C2 ty) as P4.
      apply abs_le2 in P1, P2, P3, P4. apply Rabs_le. lra. }
    set (x := pdot U T) in *. set (y := pdot D t) in *. set (n := norm D * norm D) in *. clearbody x y n.
    assert (NP : / 2 < n) by (apply abs_le2 in N2; lra).
    assert (G : Rabs (y / n - x) <= 329 * (u * M)).
    { replace (y / n - x) with (((y - x) + x * (1 - n)) / n) by (field; lra).
      assert (N2' : Rabs (1 - n) <= 81 * u) by (rewrite Rabs_minus_sym; exact N2). pose proof (abs_prod _ _ _ _ X N2') as P.
      assert (B : Rabs ((y - x) + x * (1 - n)) <= 328 * (u * M)) by (apply abs_le2 in YX, P; apply Rabs_le; lra).
      unfold Rdiv. rewrite Rabs_mult, Rabs_inv, (Rabs_pos_eq n) by lra. apply Rmult_le_reg_r with n; [lra|]. rewrite Rmult_assoc, Rinv_l, Rmult_1_r by lra.
      apply Rle_trans with (1 := B). apply abs_le2 in N2. assert (/ 1048576 * 81 * (u * M) >= u * (u * M) * 81) by nra. nra. }
    assert (F : forall d c, Rabs (d - c) <= 20 * u -> Rabs c <= 1 -> Rabs (y / n * d - x * c) <= 391 * (u * M)).
    { intros d c Hd Hc. replace (y / n * d - x * c) with ((y / n - x) * d + x * (d - c)) by ring.
      assert (D1 : Rabs d <= 1.001) by (apply abs_le2 in Hd, Hc; apply Rabs_le; lra).
      pose proof (abs_prod _ _ _ _ G D1) as P1. pose proof (abs_prod _ _ _ _ X Hd) as P2. apply abs_le2 in P1, P2. apply Rabs_le. lra. }
    split; apply F; auto.
  Qed.
End Pert.

Section Proj.
  Variable L : FloatLib.
  Let NL : Num PrimFloat.float := FNum L.
  Local Existing Instance NL.
  Variable M : R.
  Hypothesis HM : room M.
  Variable E : PrimFloat.float.
  Hypothesis HE : eps_ok L E.
  Variable v : pt.
  Hypothesis Hv : 0 < norm v.
  Let m := runit * M.
  Let U := punit v.

  Lemma par_near d t (T : pt) : near_dirn d v -> near_vec t T (2 * m) -> Rabs (vx T) <= 2 * M -> Rabs (vy T) <= 2 * M ->
    exists par, vec_project E (ddir d) t = Ok par /\ near_vec par (pscale (pdot U T) U) (426 * m).
  Proof using HM HE Hv.
    intros [[Dx Dy] _] [Ax Ay] Tx Ty. pose proof (m_pos M HM) as MP. pose proof (m_small M HM) as MS. destruct (room_small M HM) as [M0 SM]. fold m in MP, MS, SM.
    pose proof runit_pos as U0. pose proof runit_small as U1. pose proof tiny_pos as T0. assert (NU : norm U = 1) by (apply norm_punit; auto).
    assert (RU : 0 < runit <= / 1048576) by lra.
    pose proof (n2_near runit RU U (vecR (ddir d)) NU (proj2 Dx) (proj2 Dy)) as N2.
    pose proof (proj_pert runit M RU M0 U (vecR (ddir d)) T (vecR t) NU (proj2 Dx) (proj2 Dy) (proj2 Ax) (proj2 Ay) Tx Ty) as [PX PY]. fold m in PX, PY.
    pose proof (norm_near U (vecR (ddir d)) (20 * runit) ltac:(lra) (proj2 Dx) (proj2 Dy)) as ND. rewrite NU in ND.
    pose proof (norm_T M M0 T Tx Ty) as NT. pose proof (norm_near T (vecR t) (2 * m) ltac:(lra) (proj2 Ax) (proj2 Ay)) as Nt.
    destruct lo_hi as (L0 & LH & H1). assert (LO : lo <= / 2) by (unfold lo; change (/ 2) with (bpow radix2 (-1)); apply bpow_le; lia). assert (HI : 2 <= hi) by (unfold hi; change 2 with (bpow radix2 1) at 1; apply bpow_le; lia).
    assert (HN : lo <= norm (vecR (ddir d)) <= hi) by (apply abs_le2 in ND; lra).
    assert (HT : norm (vecR t) <= hi).
    { destruct HM as [_ H2]. assert (4 * bpow radix2 395 <= hi) by (unfold hi; change 4 with (bpow radix2 2); rewrite <- bpow_plus; apply bpow_le; lia). apply abs_le2 in Nt. lra. }
    assert (Fd : finite_vec (ddir d)) by (split; [exact (proj1 Dx)|exact (proj1 Dy)]). assert (Ft : finite_vec t) by (split; [exact (proj1 Ax)|exact (proj1 Ay)]).
    pose proof (length2_rel L (ddir d) Fd HN) as KL.
    destruct (project_err L E (ddir d) t Fd Ft HN HT) as (par & Hp & [BX BY]).
    { destruct HE as (_ & _ & F2 & E2). apply (apx_lt _ _ _ _ _ _ (apx_exact _ F2) KL). apply abs_le2 in N2. nra. }
    exists par. split; [exact Hp|]. assert (SMM : sm <= m).
    { unfold sm. apply Rle_trans with (runit * bpow radix2 (-400)); [unfold runit; rewrite <- bpow_plus; apply bpow_le; lia|apply Rmult_le_compat_l; [lra|apply HM]]. }
    assert (ER : 11 * runit * norm (vecR t) + sm <= 35 * m).
    { assert (runit * norm (vecR t) <= runit * (3.01 * M)) by (apply Rmult_le_compat_l; [lra|]; apply abs_le2 in Nt; lra). unfold m in *. lra. }
    unfold pscale in *. cbn [vx vy] in *. split; [destruct BX as [F B]|destruct BY as [F B]]; (split; [exact F|]); apply abs_le2 in B, PX, PY; apply Rabs_le; cbn [vx vy]; lra.
  Qed.
  (** the scalar product with the direction *)
  Lemma along_par d par x : near_dirn d v -> near_vec par (pscale x U) (426 * m) -> Rabs x <= 3 * M -> apx (dot par (ddir d)) x (1000 * m).
  Proof using HM Hv.
    intros [[Dx Dy] _] [Ax Ay] X. pose proof (m_pos M HM) as MP. pose proof (m_small M HM) as MS. destruct (room_small M HM) as [M0 SM]. fold m in MP, MS, SM.
    pose proof runit_pos as U0. pose proof runit_small as U1. pose proof tiny_pos as T0. assert (SR : 0 < small_root) by apply bpow_gt_0. assert (NU : norm U = 1) by (apply norm_punit; auto).
    destruct (coord_norm U) as [C1 C2]. rewrite NU in C1, C2. pose proof (norm_sq U) as Q. rewrite NU in Q. fold U in Dx, Dy. cbn [pscale vx vy] in Ax, Ay.
    pose proof (abs_prod _ _ _ _ X C1) as X1. pose proof (abs_prod _ _ _ _ X C2) as X2.
    assert (P1 : Rabs (toR (vx par)) <= 3.01 * M) by (destruct Ax as [_ A]; apply abs_le2 in A, X1; apply Rabs_le; lra).
    assert (P2 : Rabs (toR (vy par)) <= 3.01 * M) by (destruct Ay as [_ A]; apply abs_le2 in A, X2; apply Rabs_le; lra).
    assert (D1 : Rabs (toR (vx (ddir d))) <= 1.001) by (destruct Dx as [_ A]; apply abs_le2 in A, C1; apply Rabs_le; lra).
    assert (D2 : Rabs (toR (vy (ddir d))) <= 1.001) by (destruct Dy as [_ A]; apply abs_le2 in A, C2; apply Rabs_le; lra).
    pose proof (dot_mag_le (vecR par) (vecR (ddir d)) (3.01 * M) 1.001 P1 P2 D1 D2) as DM. pose proof (big_room M (proj2 (within_room M HM))) as BR.
    assert (Fd : finite_vec (ddir d)) by (split; [exact (proj1 Dx)|exact (proj1 Dy)]). assert (Fp : finite_vec par) by (split; [exact (proj1 Ax)|exact (proj1 Ay)]).
    destruct (dot_err L par (ddir d) Fp Fd ltac:(lra)) as [F K]. split; [exact F|].
    assert (RM : runit * dot_mag (vecR par) (vecR (ddir d)) <= 6.03 * m) by (unfold m; apply Rle_trans with (runit * (2 * (3.01 * M * 1.001))); [apply Rmult_le_compat_l; lra|nra]).
    assert (G : Rabs (pdot (vecR par) (vecR (ddir d)) - x) <= 975 * m).
    { unfold pdot. cbn [vecR vx vy]. set (px := toR (vx par)) in *. set (py := toR (vy par)) in *. set (dx := toR (vx (ddir d))) in *. set (dy := toR (vy (ddir d))) in *.
      replace (px * dx + py * dy - x) with ((px - x * vx U) * dx + (py - x * vy U) * dy + x * (vx U * (dx - vx U) + vy U * (dy - vy U))) by (rewrite <- (Rmult_1_r x) at 4; replace 1 with (vx U * vx U + vy U * vy U) by lra; ring).
      pose proof (abs_prod _ _ _ _ (proj2 Ax) D1) as Q1. pose proof (abs_prod _ _ _ _ (proj2 Ay) D2) as Q2. fold px dx in Q1. fold py dy in Q2.
      assert (Q3 : Rabs (vx U * (dx - vx U) + vy U * (dy - vy U)) <= 40 * runit).
      { pose proof (abs_prod _ _ _ _ C1 (proj2 Dx)) as R1. pose proof (abs_prod _ _ _ _ C2 (proj2 Dy)) as R2. fold dx in R1. fold dy in R2. apply abs_le2 in R1, R2. apply Rabs_le. lra. }
      pose proof (abs_prod _ _ _ _ X Q3) as Q4. apply abs_le2 in Q1, Q2, Q4. unfold m in *. apply Rabs_le. lra. }
    fold NL in K. apply abs_le2 in K, G. apply Rabs_le. lra.
  Qed.
  (** sum of a projection and an anchor *)
  Lemma shift_near par a x : near_vec par (pscale x U) (426 * m) -> Rabs x <= 3 * M -> within M a ->
    near_vec (vadd par a) (padd (vecR a) (pscale x U)) (432 * m).
  Proof using HM Hv.
    intros [Ax Ay] X ([Fx Fy] & A1 & A2). pose proof (m_pos M HM) as MP. pose proof (m_small M HM) as MS. destruct (room_small M HM) as [M0 SM]. fold m in MP, MS, SM.
    pose proof runit_pos as U0. assert (NU : norm U = 1) by (apply norm_punit; auto). destruct (coord_norm U) as [C1 C2]. rewrite NU in C1, C2.
    pose proof (big_room M (proj2 (within_room M HM))) as BR. pose proof huge_pos. pose proof (abs_prod _ _ _ _ X C1) as X1. pose proof (abs_prod _ _ _ _ X C2) as X2.
    assert (G : forall f g y, apx f y (426 * m) -> finite g -> Rabs (toR g) <= M -> Rabs y <= 3 * M * 1 -> apx (f + g) (toR g + y) (432 * m)).
    { intros f g y A Fg Hg Hy. eapply apx_weak; [eapply apx_eq; [apply (apx_add _ _ _ _ _ _ (4.1 * M) A (apx_exact _ Fg))|ring]|].
      - assert (Rabs (y + toR g) <= 4 * M) by (eapply Rle_trans; [apply Rabs_triang|]; lra). lra.
      - lra.
      - unfold m in *. lra. }
    split; unfold vadd, padd, pscale, vecR; cbn [vx vy nadd NL FNum]; apply G; auto.
  Qed.
  Lemma to_point q a : within M q -> within M a ->
    near_vec (vsub q a) (psub (vecR q) (vecR a)) (2 * m) /\ Rabs (vx (psub (vecR q) (vecR a))) <= 2 * M /\ Rabs (vy (psub (vecR q) (vecR a))) <= 2 * M.
  Proof using HM.
    intros ([Fx Fy] & Q1 & Q2) ([Gx Gy] & A1 & A2). destruct (room_small M HM) as [M0 SM]. pose proof (big_room M (proj2 (within_room M HM))) as BR. pose proof huge_pos. pose proof runit_pos.
    assert (G : forall f g, finite f -> finite g -> Rabs (toR f) <= M -> Rabs (toR g) <= M -> apx (f - g) (toR f - toR g) (2 * m) /\ Rabs (toR f - toR g) <= 2 * M).
    { intros f g F1 F2 B1 B2. assert (B : Rabs (toR f - toR g) <= 2 * M) by (apply abs_le2 in B1, B2; apply Rabs_le; lra). split; [|exact B].
      eapply apx_weak; [apply apx_diff; auto; lra|]. unfold m. assert (runit * Rabs (toR f - toR g) <= runit * (2 * M)) by (apply Rmult_le_compat_l; lra). lra. }
    destruct (G _ _ Fx Gx Q1 A1). destruct (G _ _ Fy Gy Q2 A2). unfold vsub, psub, vecR. cbn [vx vy nsub NL FNum]. split; [split; assumption|split; assumption].
  Qed.
  Lemma x_range q a : within M q -> within M a -> Rabs (pos_al v a q) <= 3 * M.
  Proof using HM Hv L.
    intros Hq Ha. destruct (to_point q a Hq Ha) as (_ & T1 & T2). destruct (room_small M HM) as [M0 _]. apply pdot_unit; [apply norm_punit; auto|]. apply norm_T; auto.
  Qed.

  (** ** Rays *)
  Lemma ray_proj r q : near_dirn (rdn r) v -> within M (ranchor r) -> within M q ->
    let a := vecR (ranchor r) in let x := offset_along a v (vecR q) in
    exists b w, ray_project E r q = Ok (if b : bool then w else ranchor r) /\ correct_beyond b (x + toR E) (margin (-43) M) /\
      near_vec w (padd a (pscale x U)) (432 * m).
  Proof using HM HE Hv.
    intros Hd Ha Hq a x. destruct (to_point q (ranchor r) Hq Ha) as (NT & T1 & T2). destruct (par_near (rdn r) _ _ Hd NT T1 T2) as (par & Hp & NP).
    pose proof (x_range q _ Hq Ha) as XR. change (pdot U (psub (vecR q) (vecR (ranchor r)))) with (pos_al v (ranchor r) q) in NP. rewrite (al_off v Hv) in XR, NP. fold a in XR, NP. fold x in XR, NP.
    pose proof (along_par (rdn r) par x Hd NP XR) as KX. unfold ray_project. rewrite (vid L). fold NL. rewrite Hp. cbn [bind nltb nopp NL FNum]. fold NL.
    exists (PrimFloat.ltb (- E) (dot par (ddir (rdn r)))), (vadd par (ranchor r)). split; [destruct (PrimFloat.ltb (- E) (dot par (ddir (rdn r)))); reflexivity|].
    split; [|apply shift_near; auto]. pose proof (m0 M HM) as MP. fold m in MP. rewrite (M43 M). fold m.
    eapply beyond_weak; [apply (beyond_lt _ _ _ _ _ _ (AnE L E HE) KX)|]. match goal with |- Rabs ?t + _ <= _ => replace t with 0 by ring end. rewrite Rabs_R0. lra.
  Qed.

  (** ** Segments *)
  Lemma seg_proj s q : near_dirn (sdn s) v -> within M (sanchor s) -> within M q -> norm v <= 4 * M -> toR E <= 4 * M -> apx (slength s) (norm v) (40 * m) ->
    let a := vecR (sanchor s) in let x := offset_along a v (vecR q) in
    exists b c w, seg_project E s q = Ok (if b : bool then sanchor s else if c : bool then seg_end s else w) /\
      correct_beyond b (- x - toR E) (margin (-43) M) /\ correct_beyond c (x - norm v - toR E) (1056 * m) /\
      near_vec w (padd a (pscale x U)) (432 * m).
  Proof using HM HE Hv.
    intros Hd Ha Hq Hn HE4 KS a x. destruct (to_point q (sanchor s) Hq Ha) as (NT & T1 & T2). destruct (par_near (sdn s) _ _ Hd NT T1 T2) as (par & Hp & NP).
    pose proof (x_range q _ Hq Ha) as XR. change (pdot U (psub (vecR q) (vecR (sanchor s)))) with (pos_al v (sanchor s) q) in NP. rewrite (al_off v Hv) in XR, NP. fold a in XR, NP. fold x in XR, NP.
    pose proof (along_par (sdn s) par x Hd NP XR) as KX. unfold seg_project. rewrite (vid L). fold NL. rewrite Hp. cbn [bind nleb nltb nadd nopp NL FNum]. fold NL.
    pose proof (m0 M HM) as MP. fold m in MP. destruct (room_small M HM) as [M0 SM].
    assert (KE : apx (slength s + E) (norm v + toR E) (49 * m)).
    { pose proof (m_small M HM) as MS. fold m in MS. pose proof (big_room M (proj2 (within_room M HM))). pose proof huge_pos. destruct HE as (FE & PE & _).
      eapply apx_weak; [apply (apx_add _ _ _ _ _ _ (8.5 * M) KS (AE L E HE))|]; [rewrite Rabs_pos_eq by lra; lra|lra|]. unfold m in *. lra. }
    exists (PrimFloat.leb (dot par (ddir (sdn s))) (- E)), (PrimFloat.leb (slength s + E) (dot par (ddir (sdn s)))), (vadd par (sanchor s)).
    split; [|split; [|split; [|apply shift_near; auto]]].
    - destruct (PrimFloat.leb (dot par (ddir (sdn s))) (- E)); [reflexivity|]. destruct (PrimFloat.leb (slength s + E) (dot par (ddir (sdn s)))); reflexivity.
    - rewrite (M43 M). fold m. eapply beyond_weak; [apply (beyond_le _ _ _ _ _ _ KX (AnE L E HE))|]. match goal with |- Rabs ?t + _ <= _ => replace t with 0 by ring end. rewrite Rabs_R0. lra.
    - eapply beyond_weak; [apply (beyond_le _ _ _ _ _ _ KE KX)|]. match goal with |- Rabs ?t + _ <= _ => replace t with 0 by ring end. rewrite Rabs_R0. lra.
  Qed.

  (** ** Lines *)
  Lemma line_proj l a q : near_dirn (ldn l) v -> within M a -> within M q -> loffset l = dot a (dnormal (ldn l)) ->
    let x := offset_along (vecR a) v (vecR q) in let y := offset_right (vecR a) v (vecR q) in
    (exists w, line_project E l q = Ok w /\ near_vec w (padd (vecR a) (pscale x U)) (560 * m)) /\
    near_vec (line_reflect l q) (psub (vecR q) (pscale (2 * y) (right_normal v))) (500 * m).
  Proof using HM HE Hv.
    intros Hd Ha Hq Ho x y. pose proof (m_pos M HM) as MP. pose proof (m_small M HM) as MS. destruct (room_small M HM) as [M0 SM]. fold m in MP, MS, SM.
    pose proof runit_pos as U0. pose proof runit_small as U1. pose proof tiny_pos as T0. assert (SR : 0 < small_root) by apply bpow_gt_0. pose proof huge_pos. pose proof (big_room M (proj2 (within_room M HM))) as BR.
    destruct (right_normal_coords v Hv) as [C1 C2]. destruct (punit_coords v Hv) as [C3 C4]. fold U in C3, C4. pose proof Hd as [_ [Nx Ny]]. pose proof Ha as (Fa & A1 & A2). pose proof Hq as ([Fx Fy] & Q1 & Q2).
    assert (NN : Rabs (toR (vx (dnormal (ldn l)))) <= 1.001 /\ Rabs (toR (vy (dnormal (ldn l)))) <= 1.001).
    { destruct Nx as [_ B1], Ny as [_ B2]. apply abs_le2 in B1, B2, C1, C2. split; apply Rabs_le; lra. }
    destruct NN as [NX NY]. split.
    - assert (NQ : near_vec q (vecR q) (2 * m)) by (split; (eapply apx_weak; [apply apx_exact; assumption|lra])).
      destruct (par_near (ldn l) q (vecR q) Hd NQ) as (par & Hp & [PX PY]); [cbn [vecR vx]; lra|cbn [vecR vy]; lra|].
      unfold line_project. rewrite Hp. cbn [bind]. eexists. split; [reflexivity|].
      set (o := pdot (vecR a) (right_normal v)). set (z := pdot U (vecR q)) in *.
      assert (KO : apx (loffset l) o (50 * m) /\ Rabs o <= 2 * M).
      { rewrite Ho. destruct (near_dot _ _ _ (vecR a) M (conj Nx Ny) A1 A2) as [ND _]. pose proof (dot_mag_le (vecR a) (vecR (dnormal (ldn l))) M 1.001 A1 A2 NX NY) as DM.
        assert (Fn : finite_vec (dnormal (ldn l))) by (split; [exact (proj1 Nx)|exact (proj1 Ny)]).
        destruct (dot_err L a (dnormal (ldn l)) Fa Fn ltac:(lra)) as [F K]. split.
        - split; [exact F|]. assert (runit * dot_mag (vecR a) (vecR (dnormal (ldn l))) <= runit * (2 * (M * 1.001))) by (apply Rmult_le_compat_l; lra).
          fold o in ND. fold NL in K. unfold m in *. apply abs_le2 in ND, K. apply Rabs_le. lra.
        - unfold o, pdot. cbn [vecR vx vy]. pose proof (abs_prod _ _ _ _ A1 C1) as P1. pose proof (abs_prod _ _ _ _ A2 C2) as P2. apply abs_le2 in P1, P2. apply Rabs_le. lra. }
      destruct KO as [KO OB].
      assert (ZB : Rabs z <= 2 * M).
      { unfold z, pdot. cbn [vecR vx vy]. pose proof (abs_prod _ _ _ _ C3 Q1) as P1. pose proof (abs_prod _ _ _ _ C4 Q2) as P2. apply abs_le2 in P1, P2. apply Rabs_le. lra. }
      assert (G : forall f g p n w, apx f (z * p) (426 * m) -> Rabs p <= 1 -> apx g n (20 * runit) -> Rabs n <= 1 -> w = n * o + z * p -> apx (f + g * loffset l) w (560 * m)).
      { intros f g p n w Kf Hp1 Kg Hn1 ->. pose proof (abs_prod _ _ _ _ ZB Hp1) as ZP. pose proof (abs_prod _ _ _ _ Hn1 OB) as NO.
        assert (KP : apx (g * loffset l) (n * o) (100 * m)).
        { eapply apx_weak; [apply (apx_mul _ _ _ _ _ _ 1.001 (2.001 * M) Kg KO)|]; try lra. unfold m in *. lra. }
        eapply apx_weak; [eapply apx_eq; [apply (apx_add _ _ _ _ _ _ (4.1 * M) Kf KP)|ring]|].
        - assert (Rabs (z * p + n * o) <= 4 * M) by (apply abs_le2 in ZP, NO; apply Rabs_le; lra). lra.
        - lra.
        - unfold m in *. lra. }
      pose proof (frame_decomp (ideal_dirn v) (vecR a) (mkV 0 0) (ideal_frame v Hv)) as FD.
      assert (W : forall i, i = x -> padd (vecR a) (pscale i U) = mkV (vx (right_normal v) * o + z * vx U) (vy (right_normal v) * o + z * vy U)).
      { intros i ->. pose proof (norm_sq U) as Q. assert (NU : norm U = 1) by (apply norm_punit; auto). rewrite NU in Q.
        unfold x. rewrite <- (al_off v Hv a q). unfold pos_al. fold U. unfold o, z, right_normal. fold U. unfold padd, pscale, pdot, psub. cbn [vecR vx vy].
        set (c := vx U) in *. set (s := vy U) in *. clearbody c s. f_equal.
        + transitivity (toR (vx a) * (c * c + s * s) + (c * (toR (vx q) - toR (vx a)) + s * (toR (vy q) - toR (vy a))) * c); [replace (c * c + s * s) with 1 by lra; ring|ring].
        + transitivity (toR (vy a) * (c * c + s * s) + (c * (toR (vx q) - toR (vx a)) + s * (toR (vy q) - toR (vy a))) * s); [replace (c * c + s * s) with 1 by lra; ring|ring]. }
      rewrite (W x eq_refl). unfold vadd, vscale. cbn [vx vy nadd nmul NL FNum]. split; [apply (G _ _ (vx U) (vx (right_normal v)))|apply (G _ _ (vy U) (vy (right_normal v)))]; auto; cbn [vx vy]; ring.
    - pose proof (line_dist_near L M HM v Hv l a q Hd Ha Hq Ho) as KD. rewrite (ac_off v Hv) in KD. fold y m NL in KD.
      assert (YB : Rabs y <= 3 * M).
      { unfold y. rewrite <- (ac_off v Hv). unfold pos_ac. destruct (to_point q a Hq Ha) as (_ & T1 & T2). apply pdot_unit; [|apply norm_T; auto].
        assert (NU : norm U = 1) by (apply norm_punit; auto). apply norm_unique; [lra|]. pose proof (norm_sq U) as Q. rewrite NU in Q. unfold right_normal. fold U. cbn [vx vy]. lra. }
      assert (G : forall p g n, finite p -> Rabs (toR p) <= M -> apx g n (20 * runit) -> Rabs n <= 1 -> Rabs (toR g) <= 1.001 -> apx (p - g * 2 * line_distance_to l q) (toR p - 2 * y * n) (500 * m)).
      { intros p g n Fp Hp1 Kg Hn1 Hg1. assert (T2 : toR 2 = 2) by (vm_compute; lra).
        assert (K2 : apx (g * 2) (2 * n) (43 * runit)).
        { eapply apx_weak; [eapply apx_eq; [apply (apx_mul _ _ _ _ _ _ 1.001 2 Kg (apx_exact 2 eq_refl))|rewrite T2; ring]|]; try (rewrite ?T2; try rewrite (Rabs_pos_eq 2) by lra; lra).
          - assert (1 <= huge / 4) by (unfold huge; replace (bpow radix2 1000 / 4) with (bpow radix2 998); [change 1 with (bpow radix2 0); apply bpow_le; lia|]; change 1000%Z with (998 + 2)%Z; rewrite bpow_plus; change (bpow radix2 2) with 4; field). lra.
          - pose proof tiny_runit. lra. }
        assert (N2B : Rabs (2 * n) <= 2) by (apply abs_le2 in Hn1; apply Rabs_le; lra). pose proof (abs_prod _ _ _ _ YB N2B) as YN.
        assert (K3 : apx (g * 2 * line_distance_to l q) (2 * n * y) (370 * m)).
        { eapply apx_weak; [apply (apx_mul _ _ _ _ _ _ 2.001 (3.001 * M) K2 KD)|]; try lra. unfold m in *. lra. }
        eapply apx_weak; [eapply apx_eq; [apply (apx_sub _ _ _ _ _ _ (7.1 * M) (apx_exact _ Fp) K3)|ring]|].
        - assert (Rabs (toR p - 2 * n * y) <= 7 * M) by (replace (2 * n * y) with (y * (2 * n)) by ring; apply abs_le2 in YN, Hp1; apply Rabs_le; lra). lra.
        - lra.
        - unfold m in *. lra. }
      assert (ED : line_distance_to l q = (dot q (dnormal (ldn l)) - loffset l)%float) by (unfold line_distance_to; rewrite (vid L); reflexivity). rewrite ED in G.
      unfold line_reflect. rewrite (vid L). unfold vsub, vscale, psub, pscale, vecR. cbn [vx vy nsub nmul NL FNum]. fold NL. change n2 with 2%float. split; cbn [vx vy]; apply G; auto.
  Qed.
End Proj.
