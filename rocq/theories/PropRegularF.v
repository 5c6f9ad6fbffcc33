(** * C122: containment in regular polygons on doubles *)
From Coq Require Import ZArith List Bool Reals Lra Lia Psatz Floats SpecFloat.
From Flocq Require Import Core IEEE754.PrimFloat IEEE754.BinarySingleNaN.
From Verif Require Import Num NumFloat Vec Affine Box Seq Polygon Tangent PolyOps OrdLaws SpecGeom SpecRegular SpecTangent SpecExtreme SpecErr RBase VecFacts VecFacts2 RegularFacts SettledFacts PolyCache PolyCache2
  FloatFacts FloatFacts2 FloatFacts3 FloatVec SpecExact RelPoly FloatExact IntExact FloatErr FloatErr2 FloatErr3 FloatErr4 FloatErr6 SpecRot RotFacts IdealLib SpecRing RingF RingConvex PropRot PropTurn PropRegular PropRing PropCentroid.
Import ListNotations.
Local Open Scope R_scope.

(** What a regular polygon stores. *)
Lemma regular_stored {T} {N : Num T} n r c a : (3 <= n)%nat -> neqb (nlit (Z.of_nat n)) n0 = false ->
  exists p v0 v1, poly_regular n r c a = Ok p /\ length (pverts p) = n /\ nth_error (pverts p) 0 = Some v0 /\ nth_error (pverts p) 1 = Some v1 /\ settled p /\
    pcentroid p = Some (Some (vec2_of c)) /\ pmaxr2 p = Some (nmul r r) /\
    let m := vlength (vsub (vscale (vadd v0 v1) nhalf) c) in pminr2 p = Some (nmul m m).
Proof.
  intros Hn H. unfold poly_regular, pydiv. rewrite H. cbn [bind]. set (vs := regular_verts _ _ _ _ _). assert (LV : length vs = n) by apply regular_len.
  destruct (new_true vs) as [pl E]; [lia|]. rewrite E. cbn [bind pverts].
  assert (LM : length (map vec2_of vs) = n) by (rewrite map_length; exact LV). set (ws := map vec2_of vs) in *. clearbody ws.
  destruct ws as [|x [|y l]]; cbn [length] in LM; try lia. change 0%Z with (Z.of_nat 0). change 1%Z with (Z.of_nat 1). rewrite !py_get_nat. cbn [nth_error bind].
  eexists. exists x, y. split; [reflexivity|]. cbn [pverts pcentroid pmaxr2 pminr2 length nth_error]. repeat split; auto; discriminate.
Qed.
Lemma mid_norm n r c a : (3 <= n)%nat -> let P k := polar_at c r (a + INR k * (360 / INR n)) in
  norm (mkV ((vx (P 0%nat) + vx (P 1%nat)) * / 2 - vx c) ((vy (P 0%nat) + vy (P 1%nat)) * / 2 - vy c)) = Rabs r * cos (PI / INR n).
Proof.
  intros Hn P. assert (C : 0 < cos (PI / INR n)) by (apply cos_half; lia).
  apply Rsqr_inj; [apply norm_nonneg|apply Rmult_le_pos; [apply Rabs_pos|lra]|]. unfold Rsqr. rewrite VecFacts2.norm_sq. cbn [vx vy]. unfold P. rewrite !polar_xy, !(w_deg n a Hn). cbn [vx vy]. fold (half n).
  set (h := half n). cbn [INR]. replace (deg a + 0 * (2 * h)) with ((deg a + h) - h) by ring. replace (deg a + 1 * (2 * h)) with ((deg a + h) + h) by ring. set (m := deg a + h). clearbody m h.
  rewrite !cos_plus, !sin_plus, !cos_minus, !sin_minus. pose proof (sin2_cos2 m) as S2. unfold Rsqr in S2. pose proof (Rsqr_abs r) as A. unfold Rsqr in A.
  transitivity (r * r * (cos h * cos h) * (sin m * sin m + cos m * cos m)); [field|]. rewrite S2, A. ring.
Qed.

Lemma dist_0 v : dist v (mkV 0 0) = norm v.
Proof. unfold dist. f_equal. destruct v as [a b]. unfold psub. cbn [vx vy]. f_equal; ring. Qed.

Section Reg.
  Context (L : FloatLib) (HT : trig_ok L) (HS : sqrt_ok L).
  Let NL : Num PrimFloat.float := FNum L.
  Existing Instance NL.
  Context (M : R) (HM : mid_scale M).
  Let u := runit.

  Lemma um_small : 0 < u /\ u <= / 1048576 /\ 0 < M /\ 0 < u * M /\ u * M <= M / 1048576 /\ 1024 * tiny <= u * M /\ 1024 * small_root <= u * M /\ 1024 * tiny <= u * M * (u * M).
  Proof using HM.
    destruct (um_facts M HM) as (U0 & U1 & U2 & _ & _ & U5 & _). destruct (m_tiny M HM) as (_ & _ & T3). pose proof (M_pos M HM). destruct HM as [H1 _].
    assert (K : bpow radix2 (-353) <= u * M). { unfold u, runit. replace (-353)%Z with (-53 + -300)%Z by lia. rewrite bpow_plus. apply Rmult_le_compat_l; [apply bpow_ge_0|exact H1]. }
    repeat split; auto.
    - unfold small_root. change 1024 with (bpow radix2 10). rewrite <- bpow_plus. eapply Rle_trans; [|exact K]. apply bpow_le. lia.
    - apply Rle_trans with (bpow radix2 (-353) * bpow radix2 (-353)); [|apply Rmult_le_compat; auto using bpow_ge_0]. unfold tiny. change 1024 with (bpow radix2 10). rewrite <- !bpow_plus. apply bpow_le. lia.
  Qed.
  Lemma scale_huge : 1024 * M <= huge /\ 1024 * M <= bpow radix2 400 /\ 1024 * (M * M) <= huge /\ M <= bpow radix2 990.
  Proof using HM.
    pose proof (M_pos M HM). destruct HM as [_ H2]. change 1024 with (bpow radix2 10). unfold huge.
    assert (K : bpow radix2 10 * M <= bpow radix2 310) by (replace 310%Z with (10 + 300)%Z by lia; rewrite bpow_plus; apply Rmult_le_compat_l; [apply bpow_ge_0|exact H2]).
    assert (K2 : bpow radix2 10 * (M * M) <= bpow radix2 610).
    { replace 610%Z with (10 + (300 + 300))%Z by lia. rewrite !bpow_plus. apply Rmult_le_compat_l; [apply bpow_ge_0|]. apply Rmult_le_compat; lra. }
    repeat split; (eapply Rle_trans; [eassumption|apply bpow_le; lia]).
  Qed.

  (** Squares of numbers that are far apart compare as the numbers do. *)
  Lemma sq_gap x y : 0 <= x -> x + 40 * (u * M) <= y -> y <= 4 * M -> x * x + 4 * u * (x * x) + 4 * u * (y * y) + 4 * tiny < y * y.
  Proof using HM.
    intros H0 H1 H2. destruct um_small as (U0 & U1 & PM & U2 & U3 & T1 & _ & T2). pose proof tiny_pos.
    assert (xx : x * x <= y * y) by nra. assert (A : 40 * (u * M) * y <= (y - x) * (y + x)) by (apply Rmult_le_compat; nra).
    assert (B : 8 * u * (y * y) <= 32 * (u * M) * y) by (replace (32 * (u * M) * y) with (8 * u * (4 * M * y)) by ring; apply Rmult_le_compat_l; [lra|]; apply Rmult_le_compat_r; lra).
    assert (C : 8 * (u * M) * (40 * (u * M)) <= 8 * (u * M) * y) by (apply Rmult_le_compat_l; lra).
    assert (D : 4 * u * (x * x) <= 4 * u * (y * y)) by (apply Rmult_le_compat_l; lra). nra.
  Qed.

  Lemma ring_small n a r c : (Z.of_nat n <= 65536)%Z -> Rabs a <= 65536 -> 0 <= r <= M -> norm c <= 2 * M -> ring_err n a r c <= M / 1024 /\ 0 <= ring_err n a r c.
  Proof using HM.
    intros Hn Ha Hr Hc. destruct um_small as (U0 & U1 & PM & U2 & U3 & T1 & _ & T2). unfold ring_err. fold runit u. fold tiny.
    pose proof (pos_INR n). assert (N1 : INR n <= 65536) by (rewrite INR_IZR_INZ; apply IZR_le; lia). pose proof (Rabs_pos a). pose proof (norm_nonneg c). pose proof tiny_pos.
    assert (B : 0 <= (INR n + 2) * (Rabs a + 361) <= 65538 * 65897) by (split; [apply Rmult_le_pos; lra|apply Rmult_le_compat; lra]).
    set (k := 90 + 2 * (INR n + 2) * (Rabs a + 361) / 45). assert (Bk : 0 <= k <= 268435456) by (unfold k; replace (2 * (INR n + 2) * (Rabs a + 361) / 45) with (2 / 45 * ((INR n + 2) * (Rabs a + 361))) by field; lra).
    assert (kr : 0 <= k * r <= 268435456 * M) by (split; [apply Rmult_le_pos; lra|apply Rmult_le_compat; lra]).
    assert (UK : u * 268435456 <= / 16777216). { unfold u, runit. change 268435456 with (bpow radix2 28). rewrite <- bpow_plus. cbn. lra. }
    assert (E1 : u * (k * r + 2 * norm c) <= u * (268435456 * M + 4 * M)) by (apply Rmult_le_compat_l; lra).
    assert (E2 : u * 268435456 * M <= / 16777216 * M) by (apply Rmult_le_compat_r; lra).
    split; [replace (u * (268435456 * M + 4 * M)) with (u * 268435456 * M + 4 * (u * M)) in E1 by ring; lra|]. assert (0 <= u * (k * r + 2 * norm c)) by (apply Rmult_le_pos; lra). lra.
  Qed.

  Lemma norm_coord v B : Rabs (vx v) <= B -> Rabs (vy v) <= B -> norm v <= 2 * B.
  Proof using. intros H1 H2. apply norm_le_iff; [pose proof (Rabs_pos (vx v)); lra|]. pose proof (Rabs_pos (vx v)). pose proof (Rabs_pos (vy v)). assert (vx v * vx v <= B * B) by (rewrite <- (Rabs_pos_eq (vx v * vx v)), Rabs_mult by nra; apply Rmult_le_compat; lra). assert (vy v * vy v <= B * B) by (rewrite <- (Rabs_pos_eq (vy v * vy v)), Rabs_mult by nra; apply Rmult_le_compat; lra). nra. Qed.

  Lemma apx_le_t f x d y : apx f x d -> Rabs (x - y) <= 0 -> apx f y d.
  Proof using. intros [F H] Hx. split; auto. replace (toR f - y) with ((toR f - x) + (x - y)) by ring. eapply Rle_trans; [apply Rabs_triang|]. lra. Qed.
  (** The stored inner radius. *)
  Lemma min_near n r c a v0 v1 e : (3 <= n)%nat -> Rabs r <= M -> within M c -> 0 <= e <= M / 1024 -> let P k := polar_at (vecR c) r (a + INR k * (360 / INR n)) in
    close_vec v0 (P 0%nat) e -> close_vec v1 (P 1%nat) e ->
    apx (vlength (vsub (vscale (vadd v0 v1) nhalf) c)) (Rabs r * cos (PI / INR n)) (2 * e + 24 * (u * M)).
  Proof using HS HM.
    intros Hn Hr ((Fcx & Fcy) & Bcx & Bcy) He P ([F0x F0y] & K0) ([F1x F1y] & K1).
    pose proof um_small as (U0 & U1 & PM & U2 & U3 & T1 & T3 & T2). destruct scale_huge as (G1 & G2 & G3 & G4). pose proof tiny_pos.
    assert (DP : forall k, dist (P k) (vecR c) = Rabs r).
    { intro k. apply Rsqr_inj; [apply dist_pos|apply Rabs_pos|]. rewrite <- Rsqr_abs. unfold Rsqr. rewrite dist_sq. unfold P. rewrite polar_xy. cbn [vx vy]. set (t := deg _). pose proof (sin2_cos2 t) as S2. unfold Rsqr in S2. cbn [vecR vx vy].
      transitivity (r * r * (sin t * sin t + cos t * cos t)); [ring|]. rewrite S2. ring. }
    assert (CO : forall p q d, dist p q <= d -> Rabs (vx p - vx q) <= d /\ Rabs (vy p - vy q) <= d).
    { intros p q d H'. unfold dist, psub in H'. destruct (coord_norm (psub p q)) as [Q1 Q2]. unfold psub in Q1, Q2. cbn [vx vy] in Q1, Q2. split; lra. }
    destruct (CO _ _ _ K0) as [A0 A1], (CO _ _ _ K1) as [B0 B1]. destruct (CO _ _ _ (Req_le _ _ (DP 0%nat))) as [C0 C1], (CO _ _ _ (Req_le _ _ (DP 1%nat))) as [D0 D1].
    assert (HF : apx (nhalf (Num := NL)) (/ 2) 0). { split; [vm_compute; reflexivity|]. assert (Q : toR (nhalf (Num := NL)) = / 2) by (vm_compute; lra). rewrite Q. unfold Rminus. rewrite Rplus_opp_r, Rabs_R0. lra. }
    assert (GO : forall x0 x1 y0 y1 f, finite x0 -> finite x1 -> finite f -> Rabs (toR f) <= M -> Rabs (toR x0 - y0) <= e -> Rabs (toR x1 - y1) <= e -> Rabs (y0 - toR f) <= M -> Rabs (y1 - toR f) <= M ->
      apx ((x0 + x1) * nhalf (Num := NL) - f)%float ((y0 + y1) * / 2 - toR f) (e + 8 * (u * M))).
    { intros x0 x1 y0 y1 f Fx0 Fx1 Ff Bf E0 E1 E2 E3.
      assert (S1 : Rabs (y0 + y1) <= 4 * M /\ Rabs ((y0 + y1) * / 2 - toR f) <= M).
      { clear - Bf E2 E3. split; revert Bf E2 E3; unfold Rabs; repeat destruct Rcase_abs; lra. }
      destruct S1 as [S1 S3].
      assert (AS : apx (x0 + x1)%float (y0 + y1) (2 * e + 4.01 * (u * M))).
      { eapply apx_weak; [apply (apx_add x0 x1 y0 y1 e e (4.01 * M) (conj Fx0 E0) (conj Fx1 E1)); lra|]. fold u. replace (u * (4.01 * M)) with (4.01 * (u * M)) by lra. lra. }
      assert (AM : apx ((x0 + x1) * nhalf (Num := NL))%float ((y0 + y1) * / 2) (e + 4.1 * (u * M))).
      { eapply apx_weak; [apply (apx_mul _ _ _ _ _ _ (4.01 * M) (/ 2) AS HF); try lra|].
        - rewrite Rabs_pos_eq; lra.
        - fold u. replace (u * (4.01 * M * / 2)) with (2.005 * (u * M)) by lra. lra. }
      eapply apx_weak; [apply (apx_sub _ _ _ _ _ _ (1.01 * M) AM (apx_exact _ Ff)); lra|]. fold u. replace (u * (1.01 * M)) with (1.01 * (u * M)) by lra. lra. }
    set (w := vsub (vscale (vadd v0 v1) nhalf) c).
    assert (W1 : apx (vx w) ((vx (P 0%nat) + vx (P 1%nat)) * / 2 - toR (vx c)) (e + 8 * (u * M))) by (apply GO; auto; unfold vecR in *; cbn [vx vy] in *; lra).
    assert (W2 : apx (vy w) ((vy (P 0%nat) + vy (P 1%nat)) * / 2 - toR (vy c)) (e + 8 * (u * M))) by (apply GO; auto; unfold vecR in *; cbn [vx vy] in *; lra).
    pose proof (mid_norm n r (vecR c) a Hn) as MN. cbv zeta in MN. fold (P 0%nat) (P 1%nat) in MN. set (o := mkV _ _) in MN.
    destruct (near_dist w o (e + 8 * (u * M)) W1 W2) as [Fw Dw].
    assert (C1' : 0 < cos (PI / INR n) <= 1) by (split; [apply cos_half; lia|apply COS_bound]).
    pose proof (Rabs_pos r). set (rho := Rabs r * cos (PI / INR n)) in *. assert (R1 : 0 <= rho <= M) by (unfold rho; split; [apply Rmult_le_pos; lra|]; apply Rle_trans with (Rabs r * 1); [apply Rmult_le_compat_l; lra|lra]).
    assert (NW : Rabs (norm (vecR w) - rho) <= 2 * e + 16 * (u * M)).
    { rewrite <- MN. assert (Q1 : norm (vecR w) <= norm o + dist (vecR w) o). { pose proof (dist_triangle (vecR w) o (mkV 0 0)) as Q. rewrite !dist_0 in Q. lra. }
      assert (Q2 : norm o <= norm (vecR w) + dist (vecR w) o). { pose proof (dist_triangle o (vecR w) (mkV 0 0)) as Q. rewrite !dist_0, (dist_sym o) in Q. lra. }
      apply Rabs_le. lra. }
    assert (NB : norm (vecR w) <= 1.01 * M) by (revert NW; unfold Rabs; destruct Rcase_abs; lra).
    destruct (length_err L HS w Fw ltac:(lra)) as [Fl Kl]. fold NL in Fl, Kl. split; [exact Fl|].
    assert (UN : u * norm (vecR w) <= u * (1.01 * M)) by (apply Rmult_le_compat_l; lra). replace (u * (1.01 * M)) with (1.01 * (u * M)) in UN by lra.
    replace (toR (vlength w) - rho) with ((toR (vlength w) - norm (vecR w)) + (norm (vecR w) - rho)) by ring. eapply Rle_trans; [apply Rabs_triang|]. fold u in Kl. lra.
  Qed.
  (** The squared distance to the centre. *)
  Lemma d2_near c q : within M c -> within M q -> exists t, 0 <= t <= 3 * M /\ Rabs (t - dist (vecR q) (vecR c)) <= 4 * (u * M) /\ apx (length2 (vsub c q)) (t * t) (3 * u * (t * t) + 3 * tiny).
  Proof using HM.
    intros ((Fcx & Fcy) & Bcx & Bcy) ((Fqx & Fqy) & Bqx & Bqy). pose proof um_small as (U0 & U1 & PM & U2 & U3 & T1 & T3 & T2). destruct scale_huge as (G1 & G2 & G3 & G4).
    assert (GO : forall f g, finite f -> finite g -> Rabs (toR f) <= M -> Rabs (toR g) <= M -> apx (f - g)%float (toR f - toR g) (2 * (u * M)) /\ Rabs (toR f - toR g) <= 2 * M).
    { intros f g Ff Fg Bf Bg. assert (B : Rabs (toR f - toR g) <= 2 * M) by (clear - Bf Bg; revert Bf Bg; unfold Rabs; repeat destruct Rcase_abs; lra). split; [|exact B].
      eapply apx_weak; [apply (apx_sub _ _ _ _ _ _ (2 * M) (apx_exact _ Ff) (apx_exact _ Fg)); lra|]. fold u. lra. }
    destruct (GO _ _ Fcx Fqx Bcx Bqx) as [X1 X2], (GO _ _ Fcy Fqy Bcy Bqy) as [Y1 Y2].
    set (w := vsub c q). set (o := psub (vecR c) (vecR q)). destruct (near_dist w o (2 * (u * M)) X1 Y1) as [Fw Dw].
    assert (NO : norm o = dist (vecR q) (vecR c)) by (rewrite dist_sym; reflexivity).
    assert (BO : norm o <= 2.9 * M).
    { apply norm_le_iff; [lra|]. unfold o, psub, vecR. cbn [vx vy]. set (x := toR (vx c) - toR (vx q)) in *. set (y := toR (vy c) - toR (vy q)) in *.
      assert (x * x <= 2 * M * (2 * M)) by (rewrite <- (Rabs_pos_eq (x * x)), Rabs_mult by nra; apply Rmult_le_compat; auto using Rabs_pos). assert (y * y <= 2 * M * (2 * M)) by (rewrite <- (Rabs_pos_eq (y * y)), Rabs_mult by nra; apply Rmult_le_compat; auto using Rabs_pos). nra. }
    assert (NW : Rabs (norm (vecR w) - norm o) <= 4 * (u * M)).
    { assert (Q1 : norm (vecR w) <= norm o + dist (vecR w) o). { pose proof (dist_triangle (vecR w) o (mkV 0 0)) as Q. rewrite !dist_0 in Q. lra. }
      assert (Q2 : norm o <= norm (vecR w) + dist (vecR w) o). { pose proof (dist_triangle o (vecR w) (mkV 0 0)) as Q. rewrite !dist_0, (dist_sym o) in Q. lra. }
      apply Rabs_le. lra. }
    exists (norm (vecR w)). pose proof (norm_nonneg (vecR w)). assert (NB : norm (vecR w) <= 3 * M) by (revert NW; unfold Rabs; destruct Rcase_abs; lra).
    split; [lra|]. rewrite <- NO. split; [exact NW|]. exact (proj1 (length2_err L w Fw ltac:(lra))).
  Qed.
End Reg.

(** ** Spec *)
(** What is lost to rounding: twice the error of a vertex and 128 roundings. *)
Definition band (n : nat) (a r : R) (c : pt) (M : R) : R := 2 * ring_err n a r c + margin (-46) M.

Section Query.
  Context (L : FloatLib) (HT : trig_ok L) (HS : sqrt_ok L).
  Let NL : Num PrimFloat.float := FNum L.
  Existing Instance NL.
  Context (M : R) (HM : mid_scale M).
  Let u := runit.
  Lemma ltb_apx a b x y da db : apx a x da -> apx b y db -> x + da + db < y -> PrimFloat.ltb a b = true.
  Proof using. intros [Fa Ha] [Fb Hb] H. rewrite toR_lt by auto. apply Rltb_true. revert Ha Hb. unfold Rabs. repeat destruct Rcase_abs; lra. Qed.
  Lemma ltb_apx_no a b x y da db : apx a x da -> apx b y db -> x + da + db < y -> PrimFloat.ltb b a = false.
  Proof using. intros [Fa Ha] [Fb Hb] H. rewrite toR_lt by auto. apply Rltb_false. revert Ha Hb. unfold Rabs. repeat destruct Rcase_abs; lra. Qed.

  (** The comparisons of the radius shortcuts. *)
  Lemma regular_query_near n r c a (qs : list (pread PrimFloat.float)) E q : (5 <= n)%nat -> (Z.of_nat n <= 65536)%Z -> finite r -> Rabs (toR r) <= M -> within M c -> finite a -> Rabs (toR a) <= 65536 -> within M q ->
    exists p, poly_regular n r c a = Ok p /\
     (dist (vecR q) (vecR c) + band n (toR a) (Rabs (toR r)) (vecR c) M <= Rabs (toR r) * cos (PI / INR n) -> fst (contains_point E q (preads p qs)) = Ok true) /\
     (Rabs (toR r) + band n (toR a) (Rabs (toR r)) (vecR c) M <= dist (vecR q) (vecR c) -> fst (contains_point E q (preads p qs)) = Ok false).
  Proof using HT HS HM.
    intros H1 H2 Fr Br Wc Fa Ba Wq. destruct (lit_pos n ltac:(lia) H2) as (Fn & Vn & En).
    destruct (scale_huge M HM) as (G1 & G2 & G3 & G4). pose proof (um_small M HM) as (U0 & U1 & PM & U2 & U3 & T1 & T3 & T2). fold u in U0, U1, U2, U3, T1, T3, T2.
    assert (Hc : mid_vec c) by (destruct Wc as (F & B1 & B2); split; [exact F|split; lra]).
    destruct (C115_regular L n r c a HT ltac:(lia) H2 Fr ltac:(lra) Hc Fa Ba) as (p & EP & HF & _ & _).
    destruct (regular_stored (N := NL) n r c a ltac:(lia) En) as (p' & v0 & v1 & EP' & LN & N0 & N1 & ST & SC & SX & SM). cbv zeta in SM.
    fold NL in EP. rewrite EP in EP'. injection EP' as <-. exists p. split; [exact EP|].
    set (e := ring_err n (toR a) (Rabs (toR r)) (vecR c)) in *.
    assert (Bn : norm (vecR c) <= 2 * M) by (destruct Wc as (_ & B1 & B2); apply norm_coord; assumption).
    assert (Be : e <= M / 1024 /\ 0 <= e) by (apply ring_small; auto; split; [apply Rabs_pos|exact Br]).
    assert (CV : forall k v, (k < n)%nat -> nth_error (pverts p) k = Some v -> close_vec v (polar_at (vecR c) (toR r) (toR a + INR k * (360 / INR n))) e).
    { intros k v Hk Hv. assert (HQ : nth_error (regular_points n (toR r) (vecR c) (toR a)) k = Some (polar_at (vecR c) (toR r) (toR a + INR k * (360 / INR n)))) by (apply regular_nth_error; exact Hk).
      set (z := polar_at _ _ _) in *. clearbody z. clear - HF Hv HQ. revert k Hv HQ. induction HF as [|x y l l' Hx HF IH]; intros [|k] Hv HQ; cbn [nth_error] in *; try discriminate; [injection Hv as <-; injection HQ as <-; exact Hx|eapply IH; eauto]. }
    pose proof (min_near L HS M HM n (toR r) c (toR a) v0 v1 e ltac:(lia) Br Wc ltac:(lra) (CV 0%nat v0 ltac:(lia) N0) (CV 1%nat v1 ltac:(lia) N1)) as MN. fold NL u in MN.
    set (g := vlength (vsub (vscale (vadd v0 v1) nhalf) c)) in *. set (rho := Rabs (toR r) * cos (PI / INR n)) in *.
    destruct (d2_near L M HM c q Wc Wq) as (t & Bt & Dt & D2). fold NL u in D2, Dt.
    assert (CC : fst (contains_point E q (preads p qs)) = if PrimFloat.ltb (length2 (vsub c q)) (g * g) then Ok true else if PrimFloat.ltb (r * r) (length2 (vsub c q)) then Ok false else fst (contains_point E q (preads p qs))).
    { pose proof (same_reads qs p ST) as SS. destruct SS. set (s := preads p qs) in *.
      assert (RS : radial_shortcut s q = Ok (if PrimFloat.ltb (length2 (vsub c q)) (g * g) then Some true else if PrimFloat.ltb (r * r) (length2 (vsub c q)) then Some false else None)).
      { unfold radial_shortcut. rewrite sc_verts, LN, sc_centroid, SC, sc_max, SX, sc_min, SM. destruct (Nat.ltb_spec 4 n); [|lia]. unfold NL. rewrite (vec2_of_id L). reflexivity. }
      unfold contains_point. rewrite sc_verts, LN. destruct (Nat.eqb_spec n 3); [lia|]. rewrite RS. destruct (PrimFloat.ltb (length2 (vsub c q)) (g * g)); [reflexivity|]. destruct (PrimFloat.ltb (r * r) (length2 (vsub c q))); reflexivity. }
    assert (BD : band n (toR a) (Rabs (toR r)) (vecR c) M = 2 * e + 128 * (u * M)).
    { unfold band. fold e. change (margin (-46) M) with (margin (7 - 53) M). rewrite margin_unit by lia. change (IZR (2 ^ 7)) with 128. reflexivity. }
    rewrite BD. clear BD CV HF. assert (Rabs (toR g - rho) <= 2 * e + 24 * (u * M)) as Kg by apply MN. destruct MN as [Fg _].
    assert (C1 : 0 < cos (PI / INR n) <= 1) by (split; [apply cos_half; lia|apply COS_bound]).
    pose proof (Rabs_pos (toR r)). assert (R1 : 0 <= rho <= Rabs (toR r)) by (unfold rho; split; [apply Rmult_le_pos; lra|]; apply Rle_trans with (Rabs (toR r) * 1); [apply Rmult_le_compat_l; lra|lra]).
    assert (Bg : Rabs (toR g) <= 2 * M) by (clear - Kg R1 Br Be U3; revert Kg; unfold Rabs; repeat destruct Rcase_abs; lra).
    assert (SQ : forall f, finite f -> Rabs (toR f) <= 2 * M -> apx (f * f)%float (Rabs (toR f) * Rabs (toR f)) (u * (Rabs (toR f) * Rabs (toR f)) + tiny)).
    { intros f Ff Bf. assert (Q : toR f * toR f = Rabs (toR f) * Rabs (toR f)) by (rewrite <- Rabs_mult, Rabs_pos_eq; [reflexivity|nra]).
      rewrite <- Q. eapply apx_weak; [apply apx_prod; auto|].
      - rewrite Rabs_mult. apply Rle_trans with (2 * M * (2 * M)); [apply Rmult_le_compat; auto using Rabs_pos|]. nra.
      - fold u. rewrite Rabs_mult, <- Q. lra. }
    pose proof (SQ g Fg Bg) as Ag. pose proof (SQ r Fr ltac:(lra)) as Ar. clear SQ. pose proof tiny_pos.
    assert (Gg : rho - (2 * e + 24 * (u * M)) <= Rabs (toR g) <= rho + (2 * e + 24 * (u * M))) by (clear - Kg R1 Be U2; revert Kg; unfold Rabs; repeat destruct Rcase_abs; lra).
    assert (Dt' : t <= dist (vecR q) (vecR c) + 4 * (u * M) /\ dist (vecR q) (vecR c) <= t + 4 * (u * M)) by (clear - Dt; revert Dt; unfold Rabs; destruct Rcase_abs; lra). destruct Dt' as [Dt1 Dt2].
    assert (tt : 0 <= u * (t * t)) by (apply Rmult_le_pos; nra). assert (gg : 0 <= u * (Rabs (toR g) * Rabs (toR g))) by (apply Rmult_le_pos; [lra|pose proof (Rabs_pos (toR g)); nra]). assert (rr : 0 <= u * (Rabs (toR r) * Rabs (toR r))) by (apply Rmult_le_pos; nra).
    split; intro Hd; rewrite CC; clear CC.
    - rewrite (ltb_apx _ _ _ _ _ _ D2 Ag); [reflexivity|].
      pose proof (sq_gap M HM t (Rabs (toR g)) ltac:(lra) ltac:(fold u; lra) ltac:(lra)) as Q. fold u in Q. lra.
    - rewrite (ltb_apx_no _ _ _ _ _ _ Ag D2), (ltb_apx _ _ _ _ _ _ Ar D2); [reflexivity| |].
      + pose proof (sq_gap M HM (Rabs (toR r)) t ltac:(lra) ltac:(fold u; lra) ltac:(lra)) as Q. fold u in Q. lra.
      + pose proof (sq_gap M HM (Rabs (toR g)) t (Rabs_pos _) ltac:(fold u; lra) ltac:(lra)) as Q. fold u in Q. lra.
  Qed.
End Query.

(** ** C122 *)
(** Whatever was read before: clearly inside the inscribed circle a point is
    reported inside, and is strictly inside the exact polygon. *)
Theorem C122_inner : forall (L : FloatLib) (M : R) (n : nat) (r : PrimFloat.float) (c : vec PrimFloat.float) (a : PrimFloat.float) (qs : list (pread PrimFloat.float)) (E : PrimFloat.float) (q : vec PrimFloat.float),
  trig_ok L -> sqrt_ok L -> mid_scale M -> (5 <= n)%nat -> (Z.of_nat n <= 65536)%Z -> finite r -> Rabs (toR r) <= M -> within M c -> finite a -> Rabs (toR a) <= 65536 -> within M q -> let N := FNum L in
  dist (vecR q) (vecR c) + band n (toR a) (Rabs (toR r)) (vecR c) M <= Rabs (toR r) * cos (PI / INR n) ->
  exists p, poly_regular n r c a = Ok p /\ fst (contains_point E q (preads p qs)) = Ok true /\ strictly_inside 1 (regular_points n (toR r) (vecR c) (toR a)) (vecR q).
Proof.
  intros L M n r c a qs E q HT HS HM H1 H2 Fr Br Wc Fa Ba Wq N HD. destruct (regular_query_near L HT HS M HM n r c a qs E q H1 H2 Fr Br Wc Fa Ba Wq) as (p & EP & K & _). exists p. split; [exact EP|]. split; [exact (K HD)|].
  apply inner_inside; [lia|]. eapply Rlt_le_trans; [|exact HD]. assert (0 < band n (toR a) (Rabs (toR r)) (vecR c) M); [|lra].
  pose proof (M_pos M HM) as PM. assert (Bn : norm (vecR c) <= 2 * M) by (destruct Wc as (_ & B1 & B2); apply norm_coord; assumption).
  destruct (ring_small M HM n (toR a) (Rabs (toR r)) (vecR c)) as [_ P]; auto; [split; [apply Rabs_pos|exact Br]|]. unfold band, margin. pose proof (Rmult_lt_0_compat _ _ (bpow_gt_0 radix2 (-46)) PM). lra.
Qed.
Print Assumptions C122_inner.

(** Clearly outside the circumscribed circle it is reported outside, and is
    strictly outside an edge of the exact polygon. *)
Theorem C122_outer : forall (L : FloatLib) (M : R) (n : nat) (r : PrimFloat.float) (c : vec PrimFloat.float) (a : PrimFloat.float) (qs : list (pread PrimFloat.float)) (E : PrimFloat.float) (q : vec PrimFloat.float),
  trig_ok L -> sqrt_ok L -> mid_scale M -> (5 <= n)%nat -> (Z.of_nat n <= 65536)%Z -> finite r -> Rabs (toR r) <= M -> toR r <> 0 -> within M c -> finite a -> Rabs (toR a) <= 65536 -> within M q -> let N := FNum L in
  Rabs (toR r) + band n (toR a) (Rabs (toR r)) (vecR c) M <= dist (vecR q) (vecR c) ->
  exists p, poly_regular n r c a = Ok p /\ fst (contains_point E q (preads p qs)) = Ok false /\
    exists x y, In (x, y) (cyc_pairs (regular_points n (toR r) (vecR c) (toR a))) /\ orient x y (vecR q) < 0.
Proof.
  intros L M n r c a qs E q HT HS HM H1 H2 Fr Br Nr Wc Fa Ba Wq N HD. destruct (regular_query_near L HT HS M HM n r c a qs E q H1 H2 Fr Br Wc Fa Ba Wq) as (p & EP & _ & K). exists p. split; [exact EP|]. split; [exact (K HD)|].
  apply outer_outside; [lia|exact Nr|]. eapply Rlt_le_trans; [|exact HD]. assert (0 < band n (toR a) (Rabs (toR r)) (vecR c) M); [|lra].
  pose proof (M_pos M HM) as PM. assert (Bn : norm (vecR c) <= 2 * M) by (destruct Wc as (_ & B1 & B2); apply norm_coord; assumption).
  destruct (ring_small M HM n (toR a) (Rabs (toR r)) (vecR c)) as [_ P]; auto; [split; [apply Rabs_pos|exact Br]|]. unfold band, margin. pose proof (Rmult_lt_0_compat _ _ (bpow_gt_0 radix2 (-46)) PM). lra.
Qed.
Print Assumptions C122_outer.

(** A hexagon of radius 2 around (1, 1), a point inside and a point outside. *)
Example C122_ex : trig_ok ideal_lib /\ sqrt_ok ideal_lib /\ mid_scale 4 /\ let c := (mkV 1 1)%float in let q := (mkV 1 2)%float in let o := (mkV 1 4)%float in
  within 4 c /\ within 4 q /\ within 4 o /\
  dist (vecR q) (vecR c) + band 6 (toR 0) (Rabs (toR 2)) (vecR c) 4 <= Rabs (toR 2) * cos (PI / INR 6) /\
  Rabs (toR 2) + band 6 (toR 0) (Rabs (toR 2)) (vecR c) 4 <= dist (vecR o) (vecR c).
Proof.
  split; [exact ideal_trig|]. split; [exact (fun x F P => ieee_sqrt_ok x F P)|]. split.
  { split; [apply Rle_trans with (bpow radix2 0); [apply bpow_le; lia|cbn; lra]|]. change 4 with (bpow radix2 2). apply bpow_le. lia. }
  cbv zeta. assert (V1 : toR 1 = 1) by (vm_compute; lra). assert (V2 : toR 2 = 2) by (vm_compute; lra). assert (V4 : toR 4 = 4) by (vm_compute; lra).
  assert (A1 : Rabs 1 = 1) by (apply Rabs_pos_eq; lra). assert (A2 : Rabs 2 = 2) by (apply Rabs_pos_eq; lra). assert (A4 : Rabs 4 = 4) by (apply Rabs_pos_eq; lra).
  split; [|split; [|split]]; [split; [split; reflexivity|]; cbn [vx vy]; rewrite ?V1, ?V2, ?V4, ?A1, ?A2, ?A4; lra ..|].
  unfold vecR. cbn [vx vy]. rewrite V1, V2, V4, toR_0, A2.
  assert (C : 3 / 2 < 2 * cos (PI / INR 6)).
  { replace (PI / INR 6) with (PI / 6) by (cbn [INR]; field). rewrite cos_PI6. assert (3 / 2 < R_sqrt.sqrt 3); [|lra]. rewrite <- (sqrt_Rsqr (3 / 2)) by lra. apply sqrt_lt_1; unfold Rsqr; lra. }
  assert (D1 : dist (mkV 1 2) (mkV 1 1) = 1) by (apply norm_unique; [lra|]; cbn; lra).
  assert (D3 : dist (mkV 1 4) (mkV 1 1) = 3) by (apply norm_unique; [lra|]; cbn; lra).
  assert (NC : norm (mkV 1 1) <= 2 * 1) by (apply norm_coord; cbn [vx vy]; lra).
  assert (B : band 6 0 2 (mkV 1 1) 4 <= / 4).
  { unfold band, ring_err, margin. rewrite Rabs_R0. replace (INR 6) with 6 by (cbn; lra). assert (U : bpow radix2 (-53) <= / 1048576) by exact runit_small. assert (U' : bpow radix2 (-46) <= / 1048576) by (cbn; lra). assert (T0 : bpow radix2 (-1075) <= bpow radix2 (-53)) by (apply bpow_le; lia).
    pose proof (bpow_gt_0 radix2 (-53)). assert (bpow radix2 (-53) * ((90 + 2 * (6 + 2) * (0 + 361) / 45) * 2 + 2 * norm (mkV 1 1)) <= bpow radix2 (-53) * 1000) by (apply Rmult_le_compat_l; lra). lra. }
  rewrite D1, D3. lra.
Qed.
