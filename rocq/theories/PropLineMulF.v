(** * C120: transforming lines, rays and segments on doubles *)
From Coq Require Import ZArith List Bool Reals Lra Lia Psatz Floats.
From Flocq Require Import Core IEEE754.PrimFloat IEEE754.BinarySingleNaN.
From Verif Require Import Num NumFloat Vec Affine Line OrdLaws SpecGeom SpecAffine SpecLine SpecErr SpecRot RBase VecFacts2 AffineFacts LineFacts LineFacts2 FloatFacts FloatFacts2 FloatFacts3 FloatVec SpecExact FloatExact FloatErr FloatErr2 FloatErr3 FloatErr4 FloatErr5 FloatErr6 FloatErr7 RotFacts PropErr ProjF PropProj.
Import ListNotations.
Local Open Scope R_scope.

(** The terms added up in the image of [p] under [m] sum to at most [X] in
    absolute value. *)
Definition terms_within (X : R) (m : affine PrimFloat.float) (p : vec PrimFloat.float) : Prop :=
  Rabs (toR (vx p) * toR (aa m)) + Rabs (toR (vy p) * toR (ad m)) + Rabs (toR (ac m)) <= X /\
  Rabs (toR (vx p) * toR (ab m)) + Rabs (toR (vy p) * toR (ae m)) + Rabs (toR (af m)) <= X.

(** ** Facts *)
Lemma seg_hausdorff (A B A' B' q : pt) e d d' : dist A A' <= e -> dist B B' <= e ->
  set_distance (along_seg A (psub B A) 1) q d -> set_distance (along_seg A' (psub B' A') 1) q d' -> Rabs (d' - d) <= e.
Proof.
  assert (G : forall A B A' B' d d', dist A A' <= e -> dist B B' <= e ->
    set_distance (along_seg A (psub B A) 1) q d -> set_distance (along_seg A' (psub B' A') 1) q d' -> d' <= d + e).
  { clear. intros A B A' B' d d' HA HB (n & [(t & Ht & ->) _] & <-) (n' & [_ H'] & <-).
    set (n := padd A (pscale t (psub B A))). set (k := padd A' (pscale t (psub B' A'))).
    assert (K : dist q n' <= dist q k) by (apply H'; exists t; split; [lra|reflexivity]).
    pose proof (dist_triangle q n k) as TR. assert (NK : dist n k <= e); [|lra].
    unfold dist in *. replace (psub n k) with (padd (pscale (1 - t) (psub A A')) (pscale t (psub B B'))) by (unfold n, k, padd, pscale, psub; cbn [vx vy]; f_equal; ring).
    eapply Rle_trans; [apply norm_triangle|]. rewrite !VecFacts2.norm_scale, !Rabs_pos_eq by lra. nra. }
  intros HA HB S1 S2. pose proof (G _ _ _ _ _ _ HA HB S1 S2) as K1.
  assert (HA' : dist A' A <= e) by (rewrite dist_sym; exact HA). assert (HB' : dist B' B <= e) by (rewrite dist_sym; exact HB).
  pose proof (G _ _ _ _ _ _ HA' HB' S2 S1) as K2. apply Rabs_le. lra.
Qed.
Lemma unit_close (a b : pt) e : 0 < norm a -> 0 < norm b -> norm (psub a b) <= e -> norm (psub (punit a) (punit b)) <= 2 * (e / norm b).
Proof.
  intros Ha Hb He. set (al := norm a) in *. set (bl := norm b) in *.
  assert (D : Rabs (al - bl) <= e).
  { pose proof (norm_triangle (psub a b) b) as T1. pose proof (norm_triangle (psub b a) a) as T2.
    replace (padd (psub a b) b) with a in T1 by (destruct a; unfold padd, psub; cbn; f_equal; ring). replace (padd (psub b a) a) with b in T2 by (destruct b; unfold padd, psub; cbn; f_equal; ring).
    assert (S1 : norm (psub b a) = norm (psub a b)) by (unfold norm, psub; cbn [vx vy]; f_equal; ring). fold al bl in T1, T2. apply Rabs_le. lra. }
  replace (psub (punit a) (punit b)) with (padd (pscale (/ bl) (psub a b)) (pscale ((bl - al) * / bl * / al) a)).
  - eapply Rle_trans; [apply norm_triangle|]. rewrite !VecFacts2.norm_scale. fold al. rewrite !Rabs_mult. assert (IA : 0 < / al) by (apply Rinv_0_lt_compat; auto). assert (IB : 0 < / bl) by (apply Rinv_0_lt_compat; auto).
    rewrite (Rabs_pos_eq (/ bl)), (Rabs_pos_eq (/ al)) by lra. rewrite Rmult_assoc, Rinv_l, Rmult_1_r by lra. rewrite Rabs_minus_sym in D. unfold Rdiv.
    assert (/ bl * norm (psub a b) <= / bl * e) by (apply Rmult_le_compat_l; lra). assert (Rabs (bl - al) * / bl <= e * / bl) by (apply Rmult_le_compat_r; lra). lra.
  - unfold punit. fold al bl. unfold padd, psub, pscale. cbn [vx vy]. f_equal; field; lra.
Qed.

Section Images.
  Variable L : FloatLib.
  Let NL : Num PrimFloat.float := FNum L.
  Local Existing Instance NL.
  Variable M : R.
  Hypothesis HM : room M.
  Let m := runit * M.
  Variable t : affine PrimFloat.float.
  Hypothesis Ft : finite_aff t.
  Definition image (p : vec PrimFloat.float) : pt := img (affR t) (vecR p).
  Lemma image_near p : finite_vec p -> terms_within (M / 2) t p ->
    near_vec (aapply t p) (image p) (3 * m) /\ within M (aapply t p) /\ Rabs (vx (image p)) <= M / 2 /\ Rabs (vy (image p)) <= M / 2.
  Proof using HM Ft.
    intros Fp [TX TY]. pose proof (m_pos M HM) as MP. pose proof (m_small M HM) as MS. destruct (room_small M HM) as [M0 SM]. fold m in MP, MS, SM.
    pose proof (big_room M (proj2 (within_room M HM))) as BR. pose proof runit_pos as U0. pose proof tiny_pos. assert (0 < small_root) by apply bpow_gt_0.
    destruct (aapply_err L t p Ft Fp) as [KX KY]; [unfold dot_mag; cbn [row1 vecR affR vx vy aa ab ac ad ae af]; lra|unfold dot_mag; cbn [row2 vecR affR vx vy aa ab ac ad ae af]; lra|].
    rewrite aapply_R in KX, KY. fold NL in KX, KY.
    assert (IX : Rabs (vx (image p)) <= M / 2).
    { unfold image, img. cbn [vecR affR vx vy aa ab ac ad ae af]. eapply Rle_trans; [|exact TX]. eapply Rle_trans; [apply Rabs_triang|]. apply Rplus_le_compat_r. eapply Rle_trans; [apply Rabs_triang|]. apply Rplus_le_compat; apply Req_le; f_equal; ring. }
    assert (IY : Rabs (vy (image p)) <= M / 2).
    { unfold image, img. cbn [vecR affR vx vy aa ab ac ad ae af]. eapply Rle_trans; [|exact TY]. eapply Rle_trans; [apply Rabs_triang|]. apply Rplus_le_compat_r. eapply Rle_trans; [apply Rabs_triang|]. apply Rplus_le_compat; apply Req_le; f_equal; ring. }
    assert (NX : apx (vx (aapply t p)) (vx (image p)) (3 * m)).
    { eapply apx_weak; [exact KX|]. unfold dot_mag. cbn [row1 vecR affR vx vy aa ab ac ad ae af].
      match goal with |- 5 * runit * ?k + _ <= _ => assert (runit * k <= runit * (M / 2)) by (apply Rmult_le_compat_l; lra) end. unfold m in *. lra. }
    assert (NY : apx (vy (aapply t p)) (vy (image p)) (3 * m)).
    { eapply apx_weak; [exact KY|]. unfold dot_mag. cbn [row2 vecR affR vx vy aa ab ac ad ae af].
      match goal with |- 5 * runit * ?k + _ <= _ => assert (runit * k <= runit * (M / 2)) by (apply Rmult_le_compat_l; lra) end. unfold m in *. lra. }
    split; [split; assumption|]. split; [|auto]. split; [split; [apply NX|apply NY]|].
    destruct NX as [_ NX], NY as [_ NY]. apply abs_le2 in NX, NY, IX, IY. split; apply Rabs_le; lra.
  Qed.
  Variables (p1 p2 : vec PrimFloat.float) (E : PrimFloat.float).
  Hypothesis F1 : finite_vec p1.
  Hypothesis F2 : finite_vec p2.
  Hypothesis T1 : terms_within (M / 2) t p1.
  Hypothesis T2 : terms_within (M / 2) t p2.
  Let A := image p1.
  Let B := image p2.
  Hypothesis HL : toR E + margin (-46) M < dist A B.
  Hypothesis H0 : 0 < toR E.
  Hypothesis HB : bpow radix2 (-398) <= dist A B.
  Let dl := delta (aapply t p1) (aapply t p2).
  Lemma ends_near : dist A (vecR (aapply t p1)) <= 6 * m /\ dist B (vecR (aapply t p2)) <= 6 * m /\ norm (psub dl (psub B A)) <= 12 * m.
  Proof using HM Ft F1 F2 T1 T2.
    destruct (image_near p1 F1 T1) as ([X1 Y1] & _). destruct (image_near p2 F2 T2) as ([X2 Y2] & _).
    destruct (near_dist _ _ _ X1 Y1) as [_ D1]. destruct (near_dist _ _ _ X2 Y2) as [_ D2]. fold A in D1. fold B in D2. rewrite dist_sym in D1. rewrite dist_sym in D2. split; [lra|]. split; [lra|].
    pose proof (norm_triangle (psub A (vecR (aapply t p1))) (psub (vecR (aapply t p2)) B)) as TR. rewrite (dist_sym B) in D2. unfold dist in D1, D2.
    replace (psub dl (psub B A)) with (padd (psub A (vecR (aapply t p1))) (psub (vecR (aapply t p2)) B)) by (unfold dl, delta, padd, psub; cbn [vx vy]; f_equal; ring). lra.
  Qed.
  Lemma delta_good : good_length E (norm dl) /\ 0 < norm (psub B A) /\ norm (psub B A) = dist A B.
  Proof using HM Ft F1 F2 T1 T2 HL HB H0.
    destruct ends_near as (_ & _ & D). pose proof (m_pos M HM) as MP. pose proof (m_small M HM) as MS. fold m in MP, MS. rewrite (M46 M) in HL. fold m in HL. pose proof runit_pos as U0. pose proof runit_small as U1.
    assert (DN : norm (psub B A) = dist A B) by (unfold dist, norm, psub; cbn [vx vy]; f_equal; ring). set (l := dist A B) in *.
    destruct (image_near p1 F1 T1) as (_ & W1 & _). destruct (image_near p2 F2 T2) as (_ & W2 & _). pose proof (delta_bound M _ _ W1 W2) as D4. fold dl in D4.
    assert (LO : l - 12 * m <= norm dl).
    { pose proof (norm_triangle dl (psub (psub B A) dl)) as TR. replace (padd dl (psub (psub B A) dl)) with (psub B A) in TR by (unfold padd, psub; cbn [vx vy]; f_equal; ring).
      assert (S1 : norm (psub (psub B A) dl) = norm (psub dl (psub B A))) by (unfold norm, psub; cbn [vx vy]; f_equal; ring). lra. }
    assert (B1 : bpow radix2 (-398) = 2 * bpow radix2 (-399)) by (change (-398)%Z with (1 + -399)%Z; rewrite bpow_plus; reflexivity). pose proof (bpow_gt_0 radix2 (-399)).
    split; [|split; [lra|exact DN]]. split; [split|].
    - lra.
    - destruct HM as [_ H2]. assert (4 * bpow radix2 395 <= bpow radix2 399) by (change 4 with (bpow radix2 2); rewrite <- bpow_plus; apply bpow_le; lia). lra.
    - assert (runit * norm dl <= runit * (4 * M)) by (apply Rmult_le_compat_l; lra). unfold m in *. lra.
  Qed.
  (** directions *)
  Lemma dirs_near : norm (psub (punit dl) (punit (psub B A))) <= 24 * m / dist A B.
  Proof using HM Ft F1 F2 T1 T2 HL HB H0.
    destruct ends_near as (_ & _ & D). destruct delta_good as (G & P & DN). pose proof (good_pos _ _ G) as Q. eapply Rle_trans; [apply (unit_close _ _ _ Q P D)|]. rewrite DN. unfold Rdiv. lra.
  Qed.
End Images.

(** ** Segments *)
(** [segment * T] and [segment *= T] on doubles: the start is the image of the
    start as [T * start] computes it, both ends are close to the exact images,
    and distances are those to the exact image of the segment between the
    reported ends, within 2^-42 of the coordinate range. *)
Theorem C120_segment : forall (L : FloatLib) (E : PrimFloat.float) (M : R) (t : affine PrimFloat.float) (s : segment PrimFloat.float),
  sqrt_ok L -> eps_ok L E -> room M -> margin (-43) M < toR E -> finite_aff t ->
  let N := FNum L in finite_vec (sanchor s) -> finite_vec (seg_end s) -> terms_within (M / 2) t (sanchor s) -> terms_within (M / 2) t (seg_end s) ->
  let A := img (affR t) (vecR (sanchor s)) in let B := img (affR t) (vecR (seg_end s)) in
  bpow radix2 (-398) <= dist A B -> toR E + margin (-46) M < dist A B ->
  exists s', seg_mul E s t = Ok s' /\ seg_imul E s t = Ok s' /\
  sanchor s' = aapply t (sanchor s) /\ close_vec (sanchor s') A (margin (-50) M) /\ close_vec (seg_end s') B (margin (-43) M) /\
  forall q, within M q -> forall d, set_distance (along_seg A (psub B A) 1) (vecR q) d ->
    apx (seg_distance_to s' q) d (margin (-42) M) /\ correct_beyond (seg_contains E s' q) (toR E - d) (margin (-42) M).
Proof.
  intros L E M t s HS HE HM HEm Ft N F1 F2 T1 T2 A B HB HL. pose proof HE as (FE & E0 & _). pose proof (m_pos M HM) as MP. pose proof (m_small M HM) as MS.
  destruct (image_near L M HM t Ft _ F1 T1) as (K1 & W1 & _). destruct (image_near L M HM t Ft _ F2 T2) as (K2 & W2 & _).
  destruct (ends_near L M HM t Ft _ _ F1 F2 T1 T2) as (D1 & D2 & _). destruct (delta_good L M HM t Ft _ _ E F1 F2 T1 T2 HL (proj1 E0) HB) as (G & P & DN).
  fold N in K1, K2, W1, W2, D1, D2, G. change (image t (sanchor s)) with A in *. change (image t (seg_end s)) with B in *.
  destruct (C90_seg_from_points L E M _ _ HS HE HM W1 W2 G HEm) as (s' & Hs & Ha & Hl & He & _ & _ & Hd). fold N in Hs, Hd, He. exists s'.
  split; [exact Hs|]. split; [|split; [exact Ha|]].
  - unfold seg_imul. cbn [seg_points]. unfold seg_from_points in Hs. rewrite (vid L) in Hs. fold N in Hs. cbn [fold_left] in Hs. unfold furthest_step in Hs. cbn [fst] in Hs. rewrite !(vid L) in Hs. fold N in Hs.
    assert (NE : forall x, finite_vec x -> vec_neb (N := N) x x = false).
    { intros x Fx. unfold vec_neb. rewrite <- negb_andb. change (negb (vec_eqb (N := N) x x) = false). pose proof (fin_eqb_refl L x Fx) as Q. fold N in Q. rewrite Q. reflexivity. }
    assert (LZ : forall c d, (if c : bool then Ok (mkSeg d (aapply t (sanchor s)) n0) else Err ValueError) <> Ok s').
    { intros [] d K; [|discriminate]. injection K as <-. cbn [slength] in Hl. destruct Hl as [_ Hl]. change (toR n0) with (toR 0) in Hl. rewrite toR_0 in Hl.
      destruct G as [_ G]. pose proof runit_pos as U0. pose proof runit_small. rewrite (M45 M) in Hl. rewrite (M43 M) in HEm.
      unfold delta in G. set (n := norm (psub (vecR (aapply t (seg_end s))) (vecR (aapply t (sanchor s))))) in *. assert (0 <= n) by apply norm_nonneg. apply abs_le2 in Hl. nra. }
    destruct (nltb n0 (length2 (vsub (aapply t (seg_end s)) (aapply t (sanchor s))))).
    + destruct (vec_neb (aapply t (seg_end s)) (aapply t (sanchor s))).
      * destruct (seg_vector_setter E (vsub (aapply t (seg_end s)) (aapply t (sanchor s)))) as [[d len]|]; cbn [bind] in Hs |- *; [|discriminate Hs].
        match type of Hs with (if ?c then _ else _) = _ => destruct c end; [|discriminate Hs]. exact Hs.
      * exfalso. destruct (set_direction E (mkV n1 n0)) as [d|]; cbn [bind] in Hs; [|discriminate Hs]. exact (LZ _ _ Hs).
    + exfalso. rewrite (NE _ (proj1 W1)) in Hs. destruct (set_direction E (mkV n1 n0)) as [d|]; cbn [bind] in Hs; [|discriminate Hs]. exact (LZ _ _ Hs).
  - change (margin (-50) M) with (margin (3 - 53) M). change (margin (-42) M) with (margin (11 - 53) M). rewrite (M43 M), !margin_unit by lia. change (IZR (2 ^ 3)) with 8. change (IZR (2 ^ 11)) with 2048. set (m := runit * M) in *.
    split; [rewrite Ha; split; [apply W1|]; rewrite dist_sym; lra|]. split.
    + destruct He as [HX HY]. rewrite (M45 M) in HX, HY. fold m in HX, HY. destruct (near_dist _ _ _ HX HY) as [Fe De]. split; [exact Fe|].
      pose proof (dist_triangle (vecR (seg_end s')) (vecR (aapply t (seg_end s))) B) as TR. rewrite (dist_sym (vecR (aapply t (seg_end s))) B) in TR. lra.
    + intros q Hq d Sd. assert (Sd' : exists d', set_distance (along_seg (vecR (aapply t (sanchor s))) (psub (vecR (aapply t (seg_end s))) (vecR (aapply t (sanchor s)))) 1) (vecR q) d').
      { pose proof (good_pos _ _ G) as Q. destruct (seg_near_spec (ideal_seg (delta (aapply t (sanchor s)) (aapply t (seg_end s))) (aapply t (sanchor s)) (norm (delta (aapply t (sanchor s)) (aapply t (seg_end s))))) (vecR q) (ideal_frame _ Q)) as [Z1 Z2]; [cbn [slength ideal_seg]; lra|].
        eexists. eapply set_distance_ext; [|eexists; split; [exact Z1|reflexivity]]. intro z. unfold seg_set, ideal_seg. cbn [sanchor slength sdn ideal_dirn ddir]. apply along_seg_unit; auto. }
      destruct Sd' as [d' Sd']. pose proof (seg_hausdorff _ _ _ _ _ _ _ _ D1 D2 Sd Sd') as HD. destruct (Hd q Hq d' Sd') as [[FD KD] [C1 C2]]. rewrite (M43 M) in KD, C1, C2. fold m in KD, C1, C2.
      apply abs_le2 in HD. split; [split; [exact FD|]; apply abs_le2 in KD; apply Rabs_le; lra|]. split; intro K; [apply C1|apply C2]; lra.
Qed.
Print Assumptions C120_segment.

(** ** Rays *)
Lemma ray_perturb (A V A' V' q : pt) e f d d' : 0 < norm V -> dist A A' <= e -> norm (psub (punit V) (punit V')) <= f -> 0 < norm V' ->
  set_distance (along_ray A V) q d -> set_distance (along_ray A' V') q d' -> d' <= d + e + norm (psub q A) * f.
Proof.
  intros HV HA HU HV' S1 (n' & [_ H'] & <-). pose proof (foot_ray A V q HV) as F. set (x := offset_along A V q) in *. set (k := Rmax 0 x) in *.
  assert (S2 : set_distance (along_ray A V) q (dist q (padd A (pscale k (punit V))))) by (eexists; split; [exact F|reflexivity]).
  rewrite (set_distance_inj _ _ _ _ S1 S2). assert (K : 0 <= k <= norm (psub q A)).
  { unfold k. split; [apply Rmax_l|]. apply Rmax_lub; [apply norm_nonneg|]. unfold x. rewrite (proj1 (offsets A V q HV)).
    eapply Rle_trans; [apply Rle_abs|]. apply pdot_unit; [apply norm_punit; auto|lra]. }
  set (z := padd A' (pscale k (punit V'))). assert (Z : dist q n' <= dist q z) by (apply H'; apply along_ray_unit; auto; exists k; split; [apply K|reflexivity]).
  pose proof (dist_triangle q (padd A (pscale k (punit V))) z) as TR. assert (NZ : dist (padd A (pscale k (punit V))) z <= e + norm (psub q A) * f); [|lra].
  unfold dist in *. replace (psub (padd A (pscale k (punit V))) z) with (padd (psub A A') (pscale k (psub (punit V) (punit V')))) by (unfold z, padd, pscale, psub; cbn [vx vy]; f_equal; ring).
  eapply Rle_trans; [apply norm_triangle|]. rewrite VecFacts2.norm_scale, Rabs_pos_eq by lra. apply Rplus_le_compat; [exact HA|]. apply Rmult_le_compat; try lra. apply norm_nonneg.
Qed.
Lemma norm_swap (a b : pt) : norm (psub a b) = norm (psub b a).
Proof. exact (dist_sym a b). Qed.
Lemma far_bound M (q : vec PrimFloat.float) (a : pt) : 0 < M -> within M q -> Rabs (vx a) <= M -> Rabs (vy a) <= M -> norm (psub (vecR q) a) <= 3 * M.
Proof.
  intros HM (_ & Q1 & Q2) A1 A2. apply norm_le_iff; [lra|]. unfold psub. cbn [vecR vx vy]. apply abs_le2 in Q1, Q2, A1, A2. nra.
Qed.
(** [ray * T] and [ray *= T]: the anchor is the image of the anchor as
    [T * anchor] computes it, the direction and the distances are right up to
    roundings magnified by the ratio of the coordinate range to the length of
    the image of the unit direction. *)
Theorem C120_ray : forall (L : FloatLib) (E : PrimFloat.float) (M : R) (t : affine PrimFloat.float) (r : ray PrimFloat.float),
  sqrt_ok L -> eps_ok L E -> room M -> finite_aff t ->
  let N := FNum L in let p1 := fst (ray_points r) in let p2 := snd (ray_points r) in
  finite_vec p1 -> finite_vec p2 -> terms_within (M / 2) t p1 -> terms_within (M / 2) t p2 ->
  let A := img (affR t) (vecR p1) in let B := img (affR t) (vecR p2) in
  bpow radix2 (-398) <= dist A B -> toR E + margin (-46) M < dist A B ->
  exists r', ray_mul E r t = Ok r' /\ ray_imul E r t = Ok r' /\
  ranchor r' = aapply t (ranchor r) /\ close_vec (ranchor r') A (margin (-50) M) /\
  close_vec (ddir (rdn r')) (pscale (/ dist A B) (psub B A)) (margin (-47) (1 + M / dist A B)) /\
  forall q, within M q -> forall d, set_distance (along_ray A (psub B A)) (vecR q) d ->
    apx (ray_distance_to r' q) d (margin (-44) M * (1 + M / dist A B)).
Proof.
  intros L E M t r HS HE HM Ft N p1 p2 F1 F2 T1 T2 A B HB HL. pose proof HE as (FE & E0 & _). pose proof (m_pos M HM) as MP. pose proof (m_small M HM) as MS. destruct (room_small M HM) as [M0 _].
  destruct (image_near L M HM t Ft _ F1 T1) as (K1 & W1 & I1 & I2). destruct (image_near L M HM t Ft _ F2 T2) as (K2 & W2 & _).
  destruct (ends_near L M HM t Ft _ _ F1 F2 T1 T2) as (D1 & D2 & _). destruct (delta_good L M HM t Ft _ _ E F1 F2 T1 T2 HL (proj1 E0) HB) as (G & P & DN).
  pose proof (dirs_near L M HM t Ft _ _ E F1 F2 T1 T2 HL (proj1 E0) HB) as DD.
  fold N in K1, K2, W1, W2, D1, D2, G, DD. change (image t p1) with A in *. change (image t p2) with B in *.
  destruct (ray_points_built L HS M HM E HE _ _ 0 [] W1 W2 G) as (r' & Nd & Ha & Hr). cbn [repeat app forallb] in Hr. fold N in Hr. exists r'.
  set (a := aapply t p1) in *. set (b := aapply t p2) in *. set (dl := delta a b) in *. pose proof (good_pos _ _ G) as Q.
  split; [exact Hr|]. split; [|split; [exact Ha|]].
  - unfold ray_from_points, two_distinct in Hr. cbn [first_distinct] in Hr. rewrite !(vid L) in Hr. fold N in Hr. unfold ray_imul. change (ray_points r) with (p1, p2). cbv zeta beta iota. fold a b. rewrite (vid L). fold N.
    destruct (vec_eqb b a); cbn [bind] in Hr; [discriminate Hr|]. destruct (set_direction E (vsub b a)) as [d|]; cbn [bind] in Hr |- *; [|discriminate Hr]. rewrite ?(vid L) in Hr. fold N in Hr. exact Hr.
  - set (l := dist A B) in *. change (margin (-50) M) with (margin (3 - 53) M). change (margin (-44) M) with (margin (9 - 53) M). change (margin (-47) (1 + M / l)) with (margin (6 - 53) (1 + M / l)).
    rewrite !margin_unit by lia. change (IZR (2 ^ 3)) with 8. change (IZR (2 ^ 9)) with 512. change (IZR (2 ^ 6)) with 64. set (m := runit * M) in *.
    assert (IL : 0 < / l) by (apply Rinv_0_lt_compat; unfold l in *; lra). pose proof runit_pos as U0.
    assert (ML : 0 < m * / l) by (apply Rmult_lt_0_compat; lra). assert (ML2 : 0 < m * (M / l)) by (apply Rmult_lt_0_compat; [lra|]; unfold Rdiv; apply Rmult_lt_0_compat; lra).
    split; [rewrite Ha; split; [apply W1|]; rewrite dist_sym; fold a; lra|]. split.
    + destruct Nd as [[NX NY] _]. destruct (near_dist _ _ _ NX NY) as [Fd Dd]. split; [exact Fd|]. replace (pscale (/ l) (psub B A)) with (punit (psub B A)) by (unfold punit; rewrite DN; reflexivity).
      pose proof (dist_triangle (vecR (ddir (rdn r'))) (punit dl) (punit (psub B A))) as TR. unfold dist at 3 in TR. fold dl in Dd. replace (runit * (1 + M / l)) with (runit + m * / l) by (unfold m, Rdiv; ring). unfold Rdiv in DD. fold m in DD. lra.
    + intros q Hq d Sd. assert (Sd' : set_distance (along_ray (vecR a) dl) (vecR q) (ray_distance_to (ideal_ray dl a) (vecR q))).
      { apply (set_distance_ext (ray_set (ideal_ray dl a))).
        - intro z. unfold ray_set, ideal_ray. cbn [ranchor rdn ideal_dirn ddir]. apply along_ray_unit; auto.
        - destruct (ray_near_spec (ideal_ray dl a) (vecR q) (ideal_frame dl Q)). eexists. split; eauto. }
      assert (Wa : within M (ranchor r')) by (rewrite Ha; exact W1). pose proof (ray_dist_near L HS M HM dl Q r' q Nd Wa Hq) as [FD KD]. rewrite Ha in KD. fold a m N in KD, FD.
      set (d' := ray_distance_to (ideal_ray dl a) (vecR q)) in *.
      pose proof (ray_perturb _ _ _ _ _ _ _ _ _ P D1 ltac:(rewrite norm_swap; exact DD) Q Sd Sd') as H1.
      pose proof (ray_perturb _ _ _ _ _ _ _ _ _ Q ltac:(rewrite dist_sym; exact D1) DD P Sd' Sd) as H2.
      assert (N1 : norm (psub (vecR q) A) <= 3 * M) by (apply far_bound; auto; lra). assert (N2 : norm (psub (vecR q) (vecR a)) <= 3 * M) by (apply far_bound; auto; apply W1).
      assert (DP : 0 <= 24 * (runit * M) / l) by (unfold Rdiv; fold m; nra).
      assert (B1 : norm (psub (vecR q) A) * (24 * (runit * M) / l) <= 3 * M * (24 * (runit * M) / l)) by (apply Rmult_le_compat_r; auto).
      assert (B2 : norm (psub (vecR q) (vecR a)) * (24 * (runit * M) / l) <= 3 * M * (24 * (runit * M) / l)) by (apply Rmult_le_compat_r; auto).
      replace (3 * M * (24 * (runit * M) / l)) with (72 * (m * (M / l))) in B1, B2 by (unfold m, Rdiv; ring). fold m in H1, H2, B1, B2.
      split; [exact FD|]. apply abs_le2 in KD. apply Rabs_le. lra.
Qed.
Print Assumptions C120_ray.

(** ** Lines *)
Theorem C120_line : forall (L : FloatLib) (E : PrimFloat.float) (M : R) (t : affine PrimFloat.float) (l : line PrimFloat.float),
  sqrt_ok L -> eps_ok L E -> room M -> finite_aff t ->
  let N := FNum L in let p1 := fst (line_points l) in let p2 := snd (line_points l) in
  finite_vec p1 -> finite_vec p2 -> terms_within (M / 2) t p1 -> terms_within (M / 2) t p2 ->
  let A := img (affR t) (vecR p1) in let B := img (affR t) (vecR p2) in
  bpow radix2 (-398) <= dist A B -> toR E + margin (-46) M < dist A B ->
  exists l', line_mul E l t = Ok l' /\ line_imul E l t = Ok l' /\
  close_vec (ddir (ldn l')) (pscale (/ dist A B) (psub B A)) (margin (-47) (1 + M / dist A B)) /\
  forall q, within M q -> apx (line_distance_to l' q) (offset_right A (psub B A) (vecR q)) (margin (-45) M * (1 + M / dist A B)).
Proof.
  intros L E M t li HS HE HM Ft N p1 p2 F1 F2 T1 T2 A B HB HL. pose proof HE as (FE & E0 & _). pose proof (m_pos M HM) as MP. pose proof (m_small M HM) as MS. destruct (room_small M HM) as [M0 _].
  destruct (image_near L M HM t Ft _ F1 T1) as (K1 & W1 & I1 & I2). destruct (image_near L M HM t Ft _ F2 T2) as (K2 & W2 & _).
  destruct (ends_near L M HM t Ft _ _ F1 F2 T1 T2) as (D1 & D2 & _). destruct (delta_good L M HM t Ft _ _ E F1 F2 T1 T2 HL (proj1 E0) HB) as (G & P & DN).
  pose proof (dirs_near L M HM t Ft _ _ E F1 F2 T1 T2 HL (proj1 E0) HB) as DD.
  fold N in K1, K2, W1, W2, D1, D2, G, DD. change (image t p1) with A in *. change (image t p2) with B in *.
  destruct (line_points_built L HS M HM E HE _ _ 0 [] W1 W2 G) as (l' & Nd & Ho & Hr). cbn [repeat app forallb] in Hr. fold N in Hr, Ho. exists l'.
  set (a := aapply t p1) in *. set (b := aapply t p2) in *. set (dl := delta a b) in *. pose proof (good_pos _ _ G) as Q.
  split; [exact Hr|]. split.
  - unfold line_from_points, two_distinct in Hr. cbn [first_distinct] in Hr. rewrite !(vid L) in Hr. fold N in Hr. unfold line_imul. change (line_points li) with (p1, p2). cbv zeta beta iota. fold a b.
    destruct (vec_eqb b a); cbn [bind] in Hr; [discriminate Hr|]. destruct (set_direction E (vsub b a)) as [d|]; cbn [bind] in Hr |- *; [|discriminate Hr]. rewrite ?(vid L) in Hr. fold N in Hr. exact Hr.
  - set (l := dist A B) in *. change (margin (-45) M) with (margin (8 - 53) M). change (margin (-47) (1 + M / l)) with (margin (6 - 53) (1 + M / l)).
    rewrite !margin_unit by lia. change (IZR (2 ^ 8)) with 256. change (IZR (2 ^ 6)) with 64. set (m := runit * M) in *.
    assert (IL : 0 < / l) by (apply Rinv_0_lt_compat; unfold l in *; lra). pose proof runit_pos as U0.
    assert (ML : 0 < m * / l) by (apply Rmult_lt_0_compat; lra). assert (ML2 : 0 < m * (M / l)) by (apply Rmult_lt_0_compat; [lra|]; unfold Rdiv; apply Rmult_lt_0_compat; lra).
    split.
    + destruct Nd as [[NX NY] _]. destruct (near_dist _ _ _ NX NY) as [Fd Dd]. split; [exact Fd|]. replace (pscale (/ l) (psub B A)) with (punit (psub B A)) by (unfold punit; rewrite DN; reflexivity).
      pose proof (dist_triangle (vecR (ddir (ldn l'))) (punit dl) (punit (psub B A))) as TR. unfold dist at 3 in TR. fold dl in Dd. replace (runit * (1 + M / l)) with (runit + m * / l) by (unfold m, Rdiv; ring). unfold Rdiv in DD. fold m in DD. lra.
    + intros q Hq. pose proof (line_dist_near L M HM dl Q l' a q Nd W1 Hq Ho) as [FD KD]. fold m N in KD, FD. split; [exact FD|].
      rewrite (proj2 (offsets A (psub B A) (vecR q) P)). unfold pos_ac in KD.
      assert (N1 : norm (psub (vecR q) A) <= 3 * M) by (apply far_bound; auto; lra).
      set (U' := punit dl) in *. set (U := punit (psub B A)) in *.
      assert (H1 : Rabs (pdot (right_normal dl) (psub (vecR q) (vecR a)) - pdot (right_normal (psub B A)) (psub (vecR q) A)) <= 6 * m + 72 * (m * (M / l))).
      { assert (NR : norm (right_normal dl) = 1).
        { assert (NU : norm U' = 1) by (apply norm_punit; auto). apply norm_unique; [lra|]. pose proof (norm_sq U') as QQ. rewrite NU in QQ. unfold right_normal. fold U'. cbn [vx vy]. lra. }
        pose proof (pdot_unit _ (psub A (vecR a)) _ NR D1) as X1.
        set (W := psub (right_normal dl) (right_normal (psub B A))).
        assert (NW : norm W = norm (psub U' U)).
        { unfold W, right_normal. fold U U'. unfold norm, psub. cbn [vx vy]. f_equal. ring. }
        assert (X2 : Rabs (pdot W (psub (vecR q) A)) <= 24 * m / l * (3 * M)).
        { pose proof (cauchy W (psub (vecR q) A)) as C1. pose proof (cauchy W (pscale (-1) (psub (vecR q) A))) as C2. rewrite VecFacts2.norm_scale, (Rabs_left (-1)) in C2 by lra.
          assert (NP : norm W * norm (psub (vecR q) A) <= 24 * m / l * (3 * M)) by (apply Rmult_le_compat; try apply norm_nonneg; auto; rewrite NW; exact DD).
          assert (PS : pdot W (pscale (-1) (psub (vecR q) A)) = - pdot W (psub (vecR q) A)) by (unfold pdot, pscale; cbn [vx vy]; ring). apply Rabs_le. lra. }
        replace (24 * m / l * (3 * M)) with (72 * (m * (M / l))) in X2 by (unfold Rdiv; ring).
        match goal with |- Rabs ?g <= _ => replace g with (pdot (right_normal dl) (psub A (vecR a)) + pdot W (psub (vecR q) A)) by (unfold W, pdot, psub; cbn [vx vy]; ring) end.
        eapply Rle_trans; [apply Rabs_triang|]. lra. }
      apply abs_le2 in KD, H1. apply Rabs_le. lra.
Qed.
Print Assumptions C120_line.

(** The hypotheses hold for the segment from the origin to (5, 0), the ray and
    the line along it, and the transform (x, y) -> (2x + 1, 2y - 1). *)
Example C120_ex : sqrt_ok ieee_lib /\ eps_ok ieee_lib 0x1p-17 /\ room 1024 /\ margin (-43) 1024 < toR 0x1p-17 /\
  let N := FNum ieee_lib in let t := (mkA 2 0 1 0 2 (-1))%float in let d := mkD (mkV 1 0)%float (mkV 0 (-1))%float in
  let s := mkSeg d (mkV 0 0)%float 5%float in let r := mkRay d (mkV 0 0)%float in
  finite_aff t /\ finite_vec (sanchor s) /\ finite_vec (seg_end (N := N) s) /\ terms_within (1024 / 2) t (sanchor s) /\ terms_within (1024 / 2) t (seg_end (N := N) s) /\
  bpow radix2 (-398) <= 10 /\ dist (img (affR t) (vecR (sanchor s))) (img (affR t) (vecR (seg_end (N := N) s))) = 10 /\ toR 0x1p-17 + margin (-46) 1024 < 10 /\
  terms_within (1024 / 2) t (snd (ray_points (N := N) r)) /\
  dist (img (affR t) (vecR (fst (ray_points (N := N) r)))) (img (affR t) (vecR (snd (ray_points (N := N) r)))) = 2 /\
  seg_mul (N := N) 0x1p-17%float s t = Ok (mkSeg (mkD (mkV 1 0) (mkV 0 (-1))) (mkV 1 (-1)) 10)%float.
Proof.
  destruct C88_ex as (HS & HE & HM & HX & _). split; [exact HS|]. split; [exact HE|]. split; [exact HM|]. split; [exact HX|]. cbv zeta.
  assert (T1 : toR 1 = 1) by (vm_compute; lra). assert (T2 : toR 2 = 2) by (vm_compute; lra). assert (T5 : toR 5 = 5) by (vm_compute; lra). assert (Tm : toR (-1) = -1) by (vm_compute; lra).
  assert (TE : toR 0x1p-17 = / 131072) by (vm_compute; lra).
  set (s := mkSeg _ _ _). set (r := mkRay _ _). assert (SE : seg_end (N := FNum ieee_lib) s = (mkV 5 0)%float) by (vm_compute; reflexivity).
  assert (RP : ray_points (N := FNum ieee_lib) r = (mkV 0 0, mkV 1 0)%float) by (vm_compute; reflexivity). rewrite SE, RP. cbn [fst snd]. change (sanchor s) with (mkV 0 0)%float.
  split; [repeat split; reflexivity|]. split; [split; reflexivity|]. split; [split; reflexivity|].
  assert (AB : forall x, -10 <= x <= 10 -> Rabs x <= 10) by (intros; apply Rabs_le; lra).
  assert (TW : forall x y, 0 <= toR x <= 5 -> toR y = 0 -> terms_within (1024 / 2) (mkA 2 0 1 0 2 (-1))%float (mkV x y)).
  { intros x y Hx Hy. unfold terms_within. cbn [vx vy aa ab ac ad ae af]. rewrite T1, T2, Tm, Hy, toR_0, !Rmult_0_l, !Rmult_0_r, !Rabs_R0.
    pose proof (AB (toR x * 2) ltac:(lra)). pose proof (AB 1 ltac:(lra)). pose proof (AB (-1) ltac:(lra)). lra. }
  split; [apply TW; rewrite toR_0; lra|]. split; [apply TW; rewrite ?T5, ?toR_0; lra|].
  split; [apply Rle_trans with (bpow radix2 0); [apply bpow_le; lia|change (bpow radix2 0) with 1; lra]|].
  split; [unfold dist; apply norm_unique; [lra|]; unfold img, affR, vecR, psub; cbn [vx vy aa ab ac ad ae af]; rewrite T1, T2, T5, Tm, toR_0; ring|].
  split.
  { change (margin (-46) 1024) with (margin (7 - 53) 1024). rewrite margin_unit by lia. change (IZR (2 ^ 7)) with 128. pose proof runit_small. rewrite TE. lra. }
  split; [apply TW; rewrite ?T1, ?toR_0; lra|].
  split; [unfold dist; apply norm_unique; [lra|]; unfold img, affR, vecR, psub; cbn [vx vy aa ab ac ad ae af]; rewrite T1, T2, Tm, toR_0; ring|].
  vm_compute. reflexivity.
Qed.
