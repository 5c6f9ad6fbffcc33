(** * C125: parallels, perpendiculars, supporting lines and the points of segments on doubles *)
From Coq Require Import ZArith List Bool Reals Lra Lia Psatz Floats.
From Flocq Require Import Core IEEE754.PrimFloat IEEE754.BinarySingleNaN.
From Verif Require Import Num NumFloat Vec Line OrdLaws SpecGeom SpecLine SpecErr RBase VecFacts2 LineFacts LineFacts2 FloatFacts FloatFacts2 FloatFacts3 FloatVec SpecExact FloatExact FloatErr FloatErr2 FloatErr3 FloatErr4 FloatErr5 FloatErr6 FloatErr7 RotFacts PropErr PropLineMulF.
Import ListNotations.
Local Open Scope R_scope.

(** [v] turned by a quarter turn counter-clockwise. *)
Definition turned (v : pt) : pt := mkV (- vy v) (vx v).
(** [l] answers the point queries as the exact line through [p] along [v]
    does, up to [k]. *)
Definition answers_as (L : FloatLib) (E : PrimFloat.float) (M k : R) (l : line PrimFloat.float) (p v : pt) : Prop :=
  let N := FNum L in forall q, within M q -> let x := offset_right p v (vecR q) in
    apx (line_distance_to l q) x k /\
    correct_beyond (line_point_left E l q) (- x - toR E) k /\
    correct_beyond (line_point_right E l q) (x - toR E) k /\
    correct_beyond (line_contains E l q) (toR E - Rabs x) k.

(** ** Facts *)
Lemma punit_idem v : 0 < norm v -> punit (punit v) = punit v.
Proof.
  intro H. assert (U : norm (punit v) = 1) by (apply norm_punit; auto). unfold punit at 1. rewrite U. destruct (punit v) as [a b]. unfold pscale. cbn [vx vy]. f_equal; field.
Qed.
Lemma norm_turned v : norm (turned v) = norm v.
Proof. unfold norm, turned. cbn [vx vy]. f_equal. ring. Qed.
Lemma punit_turned v : punit (turned v) = turned (punit v).
Proof. unfold punit. rewrite norm_turned. unfold turned, pscale. cbn [vx vy]. f_equal; ring. Qed.
Lemma offset_close (p v w q : pt) e : 0 < norm v -> 0 < norm w -> norm (psub (punit w) (punit v)) <= e ->
  Rabs (offset_right p w q - offset_right p v q) <= e * norm (psub q p).
Proof.
  intros Hv Hw He. destruct (offsets p v q Hv) as [_ ->]. destruct (offsets p w q Hw) as [_ ->].
  set (z := psub (right_normal w) (right_normal v)). set (y := psub q p).
  assert (Z : norm z = norm (psub (punit w) (punit v))) by (unfold z, norm, right_normal, psub; cbn [vx vy]; f_equal; ring).
  replace (pdot (right_normal w) y - pdot (right_normal v) y) with (pdot z y) by (unfold pdot, z, psub; cbn [vx vy]; ring).
  pose proof (norm_pos y) as PY. pose proof (cauchy z y) as C1. pose proof (cauchy (pscale (-1) z) y) as C2.
  rewrite norm_scale, Rabs_left in C2 by lra. replace (pdot (pscale (-1) z) y) with (- pdot z y) in C2 by (unfold pdot, pscale; cbn [vx vy]; ring).
  rewrite <- Z in He. assert (norm z * norm y <= e * norm y) by (apply Rmult_le_compat_r; auto). apply Rabs_le. lra.
Qed.

Section Par.
  Variable L : FloatLib.
  Hypothesis HS : sqrt_ok L.
  Let NL : Num PrimFloat.float := FNum L.
  Local Existing Instance NL.
  Variable M : R.
  Hypothesis HM : room M.
  Variable E : PrimFloat.float.
  Hypothesis HE : eps_ok L E.
  Let m := runit * M.

  Lemma M44 : margin (-44) M = 512 * m.
  Proof using. exact (margin_unit 9 M ltac:(lia)). Qed.

  Lemma dir_good d v : near_vec d (punit v) (20 * runit) -> 0 < norm v ->
    finite_vec d /\ good_length E (norm (vecR d)) /\ norm (psub (punit (vecR d)) (punit v)) <= 80 * runit.
  Proof using HE.
    intros [[Fx Dx] [Fy Dy]] Hv. pose proof runit_pos as U0. pose proof runit_small as U1. assert (U : norm (punit v) = 1) by (apply norm_punit; auto).
    pose proof (norm_near (punit v) (vecR d) (20 * runit) ltac:(lra) Dx Dy) as K. rewrite U in K. apply abs_le2 in K.
    destruct HE as (_ & E1 & _). split; [split; auto|]. split.
    - split; [split|].
      + apply Rle_trans with (bpow radix2 (-1)); [apply bpow_le; lia|]. change (bpow radix2 (-1)) with (/ 2). lra.
      + apply Rle_trans with (bpow radix2 1); [|apply bpow_le; lia]. change (bpow radix2 1) with 2. lra.
      + assert (1 / 2 * (1 / 2) < norm (vecR d) * (1 - 8 * runit)) by nra. lra.
    - assert (S : norm (psub (vecR d) (punit v)) <= 40 * runit).
      { eapply Rle_trans; [apply norm_sum|]. unfold psub. cbn [vx vy vecR]. lra. }
      pose proof (unit_close (vecR d) (punit v) (40 * runit) ltac:(lra) ltac:(lra) S) as C. rewrite (punit_idem v Hv), U in C. lra.
  Qed.

  (** A line built again from a computed direction. *)
  Lemma line_again p d v : within M p -> near_vec d (punit v) (20 * runit) -> 0 < norm v ->
    exists l, line_new E p d = Ok l /\ answers_as L E M (margin (-44) M) l (vecR p) v.
  Proof using HS HM HE.
    intros Hp Nd Hv. destruct (dir_good d v Nd Hv) as (Fd & G & C). destruct (C88_line_new L E M p d HS HE HM Hp Fd G) as (l & Hl & A).
    exists l. split; [exact Hl|]. unfold answers_as. intros q Hq. set (x := offset_right (vecR p) v (vecR q)) in *. destruct (A q Hq) as (A1 & A2 & A3 & A4). clear A. fold NL in A1, A2, A3, A4 |- *.
    set (y := offset_right (vecR p) (vecR d) (vecR q)) in *. destruct (room_small M HM) as [M0 _]. pose proof (m_pos M HM) as MP. fold m in MP. pose proof runit_pos.
    assert (D : Rabs (x - y) <= 240 * m).
    { rewrite Rabs_minus_sym. eapply Rle_trans; [apply (offset_close _ _ _ _ _ Hv (good_pos _ _ G) C)|].
      assert (F : norm (psub (vecR q) (vecR p)) <= 3 * M) by (apply far_bound; auto; apply Hp).
      assert (80 * runit * norm (psub (vecR q) (vecR p)) <= 80 * runit * (3 * M)) by (apply Rmult_le_compat_l; lra). unfold m. lra. }
    rewrite (M46 M) in *. fold m in A1, A2, A3, A4. rewrite M44. clearbody x y. split; [|split; [|split]].
    - destruct A1 as [F A1]. split; [exact F|]. apply abs_le2 in A1. apply abs_le2 in D. apply Rabs_le. lra.
    - eapply beyond_weak; [exact A2|]. replace (- x - toR E - (- y - toR E)) with (- (x - y)) by ring. rewrite Rabs_Ropp. lra.
    - eapply beyond_weak; [exact A3|]. replace (x - toR E - (y - toR E)) with (x - y) by ring. lra.
    - eapply beyond_weak; [exact A4|]. replace (toR E - Rabs x - (toR E - Rabs y)) with (- (Rabs x - Rabs y)) by ring. rewrite Rabs_Ropp. pose proof (Rabs_triang_inv2 x y). lra.
  Qed.
  Lemma perp_near d v : near_vec d (punit v) (20 * runit) -> near_vec (perpendicular d) (punit (turned v)) (20 * runit).
  Proof using. intros [A B]. rewrite punit_turned. split; [apply apx_opp; exact B|exact A]. Qed.

  (** The points of a segment with a given frame and length. *)
  Lemma seg_parts s v : near_dirn (sdn s) v -> within M (sanchor s) -> 0 < norm v <= 4 * M -> apx (slength s) (norm v) (40 * m) ->
    near_vec (seg_end s) (padd (vecR (sanchor s)) v) (margin (-45) M) /\
    near_vec (seg_mid s) (padd (vecR (sanchor s)) (pscale (/ 2) v)) (margin (-45) M) /\
    near_vec (seg_vector s) v (margin (-45) M).
  Proof using HM.
    intros Nd Ha Hv Hl. pose proof (m_pos M HM) as MP. fold m in MP. rewrite (M45 M). fold m. destruct (room_small M HM) as [M0 SM]. fold m in SM.
    pose proof (big_room M (proj2 (within_room M HM))) as BR. pose proof runit_pos as U0. pose proof runit_small as U1. pose proof tiny_pos. assert (0 < small_root) by apply bpow_gt_0.
    pose proof (m_small M HM) as MS. fold m in MS. assert (V : forall t, pscale (t * norm v) (punit v) = pscale t v).
    { intro t. unfold punit, pscale. cbn [vx vy]. f_equal; field; lra. }
    split; [|split].
    - destruct (seg_end_near L M HM v (proj1 Hv) s (norm v) Nd Ha ltac:(lra) Hl) as [K _]. rewrite seg_end_R in K. unfold ideal_seg in K. cbn [sanchor slength sdn ideal_dirn ddir] in K.
      replace (pscale (norm v) (punit v)) with v in K by (rewrite <- (Rmult_1_l (norm v)), V; destruct v as [va vb]; unfold pscale; cbn; f_equal; ring). eapply near_weak; [exact K|fold m; lra].
    - assert (Hh : apx (slength s * 0.5) (norm v * / 2) (40 * m)).
      { assert (T : toR 0.5 = / 2) by (vm_compute; lra). assert (F : finite 0.5) by reflexivity. pose proof (apx_exact _ F) as K. rewrite T in K.
        eapply apx_weak; [apply (apx_mul _ _ _ _ _ _ (4.001 * M) (/ 2) Hl K)|].
        - rewrite Rabs_pos_eq by lra. lra. - rewrite Rabs_pos_eq by lra. lra. - lra. - unfold m in *. nra. }
      destruct (seg_end_near L M HM v (proj1 Hv) (mkSeg (sdn s) (sanchor s) (slength s * 0.5)%float) (norm v * / 2) Nd Ha ltac:(lra) Hh) as [K _]. rewrite seg_end_R in K. unfold ideal_seg in K. cbn [sanchor slength sdn ideal_dirn ddir] in K.
      rewrite (Rmult_comm (norm v)), V in K. eapply near_weak; [exact K|fold m; lra].
    - destruct Nd as [[Dx Dy] _]. destruct (punit_coords v (proj1 Hv)) as [C1 C2].
      assert (G : forall dx X, apx dx X (20 * runit) -> Rabs X <= 1 -> apx (dx * slength s) (X * norm v) (256 * m)).
      { intros dx X J2 J3. eapply apx_weak; [apply (apx_mul _ _ _ _ _ _ (1.001) (4.001 * M) J2 Hl)|].
        - lra. - rewrite Rabs_pos_eq by lra. lra. - nra. - unfold m in *. nra. }
      split; (eapply apx_eq; [apply G; eassumption|]); unfold punit, pscale; cbn [vx vy]; field; lra.
  Qed.
  (** The vector setter applied to a difference of points. *)
  Lemma set_end_built s b : within M (sanchor s) -> within M b -> good_length E (norm (psub (vecR b) (vecR (sanchor s)))) ->
    exists s', seg_set_end E s b = Ok s' /\ sanchor s' = sanchor s /\ near_dirn (sdn s') (psub (vecR b) (vecR (sanchor s))) /\
      apx (slength s') (norm (psub (vecR b) (vecR (sanchor s)))) (40 * m).
  Proof using HS HE HM.
    intros Ha Hb G. set (a := sanchor s) in *. destruct (diff_direction_err L HS E HE M a b (within_room M HM) Ha Hb G) as (d & Hd & N1 & N2 & Fv & Nv).
    fold NL in Hd, Fv, Nv. pose proof (delta_bound M a b Ha Hb) as D4. change (delta a b) with (psub (vecR b) (vecR a)) in D4. set (v := psub (vecR b) (vecR a)) in *. pose proof (good_pos _ _ G) as P.
    pose proof runit_small as U1. pose proof runit_pos as U0. pose proof (m_pos M HM) as MP. fold m in MP.
    assert (RN : runit * norm v <= / 1048576 * norm v) by (apply Rmult_le_compat_r; lra).
    assert (NB : bpow radix2 (-400) <= norm (vecR (vsub b a)) <= bpow radix2 400).
    { destruct G as [[G1 G2] _].
      assert (X1 : 2 * bpow radix2 (-400) = bpow radix2 (-399)) by (change (-399)%Z with (1 + -400)%Z; rewrite bpow_plus; reflexivity).
      assert (X2 : 2 * bpow radix2 399 = bpow radix2 400) by (change 400%Z with (1 + 399)%Z; rewrite bpow_plus; reflexivity). lra. }
    exists (mkSeg d a (vlength (vsub b a))). split.
    { unfold seg_set_end, seg_set_vector, seg_vector_setter. fold a. rewrite !(vid L). pose proof (length_truthy L HS (vsub b a) Fv NB) as LT. fold NL in LT. rewrite LT. cbn [negb]. rewrite Hd. reflexivity. }
    cbn [sanchor sdn slength]. split; [reflexivity|]. split; [split; (eapply near_weak; [eassumption|lra])|].
    destruct (length_rel L HS (vsub b a) Fv NB) as [F K]. fold NL in F, K. split; [exact F|]. apply abs_le2 in K.
    assert (runit * norm (vecR (vsub b a)) <= runit * (1.01 * norm v)) by (apply Rmult_le_compat_l; lra).
    assert (runit * norm v <= runit * (4 * M)) by (apply Rmult_le_compat_l; lra). apply Rabs_le. unfold m in *. nra.
  Qed.
  (** The normal setter. *)
  Lemma new_normal n : finite_vec n -> good_length E (norm (vecR n)) ->
    exists d, set_normal E n = Ok d /\ near_vec (dnormal d) (punit (vecR n)) (20 * runit).
  Proof using HS HE.
    intros Fn G. destruct (good_bounds E _ G) as [B1 B2]. destruct HE as (FE & PE & F2 & P2). pose proof runit_pos. pose proof (good_pos _ _ G) as P.
    destruct (normalized_err L HS E n Fn B1) as (w & Hw & Nw).
    { pose proof (length_rel L HS n Fn B1) as K. apply (apx_lt _ _ _ _ _ _ (apx_exact E FE) K). lra. }
    fold NL in Hw. destruct (norm_near_unit L w _ Nw (norm_punit _ P)) as [H1 H2]. fold NL in H1, H2.
    assert (HN : is_null E w = false).
    { unfold is_null. cbn [nltb npow2 NL FNum]. fold NL. rewrite toR_lt by auto. unfold Rltb. destruct (Rlt_dec _ _); auto. lra. }
    exists (mkD (perpendicular w) w). split; [|eapply near_weak; [exact Nw|lra]].
    unfold set_normal. rewrite (vid L), Hw. cbn [bind]. rewrite HN. reflexivity.
  Qed.
End Par.

(** ** Theorems *)
(** [parallel(p2)] and [perpendicular(p2)]: lines through [p2] that answer as
    the exact parallel and perpendicular of the requested direction do. *)
Theorem C125_parallel : forall (L : FloatLib) (E : PrimFloat.float) (M : R) (p v p2 : vec PrimFloat.float),
  sqrt_ok L -> eps_ok L E -> room M -> within M p -> within M p2 -> finite_vec v -> good_length E (norm (vecR v)) ->
  let N := FNum L in exists l l1 l2, line_new E p v = Ok l /\ line_parallel E l p2 = Ok l1 /\ line_perpendicular E l p2 = Ok l2 /\
    answers_as L E M (margin (-44) M) l1 (vecR p2) (vecR v) /\ answers_as L E M (margin (-44) M) l2 (vecR p2) (turned (vecR v)).
Proof.
  intros L E M p v p2 HS HE HM Hp Hp2 Fv G N. destruct (line_new_built L HS M E HE p v Hp Fv G) as (l & Hl & Nd & _). pose proof (good_pos _ _ G) as P.
  destruct (line_again L HS M HM E HE p2 (ddir (ldn l)) (vecR v) Hp2 (proj1 Nd) P) as (l1 & H1 & A1).
  destruct (line_again L HS M HM E HE p2 _ (turned (vecR v)) Hp2 (perp_near L _ _ (proj1 Nd)) ltac:(rewrite norm_turned; exact P)) as (l2 & H2 & A2).
  exists l, l1, l2. auto.
Qed.
Print Assumptions C125_parallel.

(** The [line] of a ray and of a segment. *)
Theorem C125_line : forall (L : FloatLib) (E : PrimFloat.float) (M : R) (a v : vec PrimFloat.float),
  sqrt_ok L -> eps_ok L E -> room M -> within M a -> finite_vec v -> good_length E (norm (vecR v)) -> norm (vecR v) <= 4 * M ->
  let N := FNum L in exists r s l1 l2, ray_new E a v = Ok r /\ ray_line E r = Ok l1 /\ seg_new E a v = Ok s /\ seg_line E s = Ok l2 /\
    answers_as L E M (margin (-44) M) l1 (vecR a) (vecR v) /\ answers_as L E M (margin (-44) M) l2 (vecR a) (vecR v).
Proof.
  intros L E M a v HS HE HM Ha Fv G H4 N. pose proof (good_pos _ _ G) as P.
  destruct (ray_new_built L HS E HE a v Fv G) as (r & Hr & Nr & Ar). destruct (seg_new_built L HS M HM E HE a v Ha Fv G H4) as (s & Hs & Ns & As & _).
  destruct (line_again L HS M HM E HE a _ (vecR v) Ha (proj1 Nr) P) as (l1 & H1 & A1). destruct (line_again L HS M HM E HE a _ (vecR v) Ha (proj1 Ns) P) as (l2 & H2 & A2).
  exists r, s, l1, l2. unfold ray_line, seg_line. rewrite Ar, As. auto 10.
Qed.
Print Assumptions C125_line.

(** [end], [mid] and [vector] of [LineSegment(a, v)]; assigning [end]. *)
Theorem C125_segment : forall (L : FloatLib) (E : PrimFloat.float) (M : R) (a v b : vec PrimFloat.float),
  sqrt_ok L -> eps_ok L E -> room M -> within M a -> finite_vec v -> good_length E (norm (vecR v)) -> norm (vecR v) <= 4 * M ->
  within M b -> good_length E (dist (vecR b) (vecR a)) ->
  let N := FNum L in exists s s', seg_new E a v = Ok s /\ sanchor s = a /\
    near_vec (seg_end s) (padd (vecR a) (vecR v)) (margin (-45) M) /\
    near_vec (seg_mid s) (padd (vecR a) (pscale (/ 2) (vecR v))) (margin (-45) M) /\
    near_vec (seg_vector s) (vecR v) (margin (-45) M) /\
    seg_set_end E s b = Ok s' /\ sanchor s' = a /\
    near_vec (seg_end s') (vecR b) (margin (-45) M) /\
    near_vec (seg_mid s') (pscale (/ 2) (padd (vecR a) (vecR b))) (margin (-45) M) /\
    apx (slength s') (dist (vecR b) (vecR a)) (margin (-45) M).
Proof.
  intros L E M a v b HS HE HM Ha Fv G H4 Hb Gb N. pose proof (good_pos _ _ G) as P. pose proof (m_pos M HM) as MP.
  destruct (seg_new_built L HS M HM E HE a v Ha Fv G H4) as (s & Hs & Ns & As & Ls). rewrite <- As in Ha, Gb.
  destruct (seg_parts L M HM s (vecR v) Ns Ha (conj P H4) Ls) as (K1 & K2 & K3).
  destruct (set_end_built L HS M HM E HE s b Ha Hb Gb) as (s' & Hs' & As' & Ns' & Ls').
  pose proof (delta_bound M _ _ Ha Hb) as D4. assert (Ha' : within M (sanchor s')) by (rewrite As'; exact Ha).
  destruct (seg_parts L M HM s' _ Ns' Ha' (conj (good_pos _ _ Gb) D4) Ls') as (J1 & J2 & _). rewrite As, As' in *. rewrite ?As in *.
  exists s, s'. split; [exact Hs|]. split; [exact As|]. split; [exact K1|]. split; [exact K2|]. split; [exact K3|]. split; [exact Hs'|]. split; [first [exact As'|reflexivity|congruence]|].
  split; [|split].
  - replace (vecR b) with (padd (vecR a) (psub (vecR b) (vecR a))) by (unfold padd, psub, vecR; cbn [vx vy]; f_equal; ring). exact J1.
  - replace (pscale (/ 2) (padd (vecR a) (vecR b))) with (padd (vecR a) (pscale (/ 2) (psub (vecR b) (vecR a)))) by (unfold padd, psub, pscale, vecR; cbn [vx vy]; f_equal; field). exact J2.
  - eapply apx_weak; [exact Ls'|]. rewrite (M45 M). lra.
Qed.
Print Assumptions C125_segment.

(** [from_normal(n, offset)]: the distance of a point is its coordinate along
    [n] less the offset. *)
Theorem C125_from_normal : forall (L : FloatLib) (E : PrimFloat.float) (M : R) (n : vec PrimFloat.float) (o : PrimFloat.float),
  sqrt_ok L -> eps_ok L E -> room M -> finite_vec n -> good_length E (norm (vecR n)) -> finite o -> Rabs (toR o) <= M ->
  let N := FNum L in exists l, line_from_normal E n o = Ok l /\
  forall q, within M q -> let x := pdot (vecR q) (vecR n) / norm (vecR n) - toR o in
    apx (line_distance_to l q) x (margin (-46) M) /\
    correct_beyond (line_point_left E l q) (- x - toR E) (margin (-46) M) /\
    correct_beyond (line_point_right E l q) (x - toR E) (margin (-46) M) /\
    correct_beyond (line_contains E l q) (toR E - Rabs x) (margin (-46) M).
Proof.
  intros L E M n o HS HE HM Fn G Fo Ho N. destruct (new_normal L HS E HE n Fn G) as (d & Hd & [Nx Ny]). fold N in Hd. pose proof (good_pos _ _ G) as P.
  exists (mkLine d (o * 1)%float). split; [unfold line_from_normal; rewrite Hd; reflexivity|].
  intros q ((Fx & Fy) & Q1 & Q2) x. pose proof (m_pos M HM) as MP. pose proof (m_small M HM) as MS. destruct (room_small M HM) as [M0 SM].
  pose proof (big_room M (proj2 (within_room M HM))) as BR. pose proof runit_pos as U0. pose proof runit_small as U1. pose proof tiny_pos. assert (0 < small_root) by apply bpow_gt_0.
  destruct (punit_coords _ P) as [C1 C2]. set (m := runit * M) in *.
  assert (K : apx (line_distance_to (mkLine d (o * 1)%float) q) x (128 * m)).
  { assert (A : forall a w W, finite a -> Rabs (toR a) <= M -> apx w W (20 * runit) -> Rabs W <= 1 -> apx (a * w) (toR a * W) (22 * m)).
    { intros a w W Fa Ba Aw BW. eapply apx_weak; [apply (apx_mul _ _ _ _ _ _ M (1.001) (apx_exact _ Fa) Aw)|]; try lra. unfold m in *. nra. }
    pose proof (A _ _ _ Fx Q1 Nx C1) as AX. pose proof (A _ _ _ Fy Q2 Ny C2) as AY.
    assert (B : forall a W, Rabs a <= M -> Rabs W <= 1 -> Rabs (a * W) <= M).
    { intros a W H1 H2. rewrite Rabs_mult. rewrite <- (Rmult_1_r M). apply Rmult_le_compat; auto using Rabs_pos. }
    pose proof (B _ _ Q1 C1) as BX. pose proof (B _ _ Q2 C2) as BY.
    assert (S : apx (dot q (dnormal d)) (toR (vx q) * vx (punit (vecR n)) + toR (vy q) * vy (punit (vecR n))) (47 * m)).
    { eapply apx_weak; [apply (apx_add _ _ _ _ _ _ (2.1 * M) AX AY)|]; [pose proof (Rabs_triang (toR (vx q) * vx (punit (vecR n))) (toR (vy q) * vy (punit (vecR n)))); lra|lra|]. unfold m in *. nra. }
    assert (O : apx (o * 1) (toR o) (2 * m)).
    { assert (T : toR 1 = 1) by (vm_compute; lra). assert (F1 : finite 1) by reflexivity. pose proof (apx_prod o 1 Fo F1) as K. rewrite T, Rmult_1_r in K. specialize (K ltac:(lra)).
      eapply apx_weak; [exact K|]. assert (runit * Rabs (toR o) <= runit * M) by (apply Rmult_le_compat_l; lra). unfold m in *. lra. }
    set (z := toR (vx q) * vx (punit (vecR n)) + toR (vy q) * vy (punit (vecR n))) in *.
    assert (Z : Rabs z <= 2 * M) by (unfold z; eapply Rle_trans; [apply Rabs_triang|]; lra).
    unfold line_distance_to. rewrite (vid L). cbn [ldn loffset].
    eapply apx_eq; [eapply apx_weak; [apply (apx_sub _ _ _ _ _ _ (3.1 * M) S O)|]|].
    - pose proof (Rabs_triang z (- toR o)) as TR. rewrite Rabs_Ropp in TR. unfold Rminus. lra.
    - lra. - unfold m in *. nra.
    - unfold x, z, pdot, punit, pscale. cbn [vx vy]. set (r := norm (vecR n)) in *. clearbody r. unfold vecR. cbn [vx vy]. field. lra. }
  rewrite (M46 M). fold m. split; [exact K|]. unfold line_point_left, line_point_right, line_contains. cbn [nleb nltb nopp nabs N FNum]. fold N.
  pose proof (AE L E HE) as KE. pose proof (AnE L E HE) as KN. clearbody x. split; [|split].
  - eapply beyond_weak; [apply (beyond_lt _ _ _ _ _ _ K KN) || apply (beyond_le _ _ _ _ _ _ K KN)|]. replace (- x - toR E - (- toR E - x)) with 0 by ring. rewrite Rabs_R0. lra.
  - eapply beyond_weak; [apply (beyond_lt _ _ _ _ _ _ KE K) || apply (beyond_le _ _ _ _ _ _ KE K)|]. replace (x - toR E - (x - toR E)) with 0 by ring. rewrite Rabs_R0. lra.
  - pose proof (apx_abs _ _ _ K) as KA. eapply beyond_weak; [apply (beyond_lt _ _ _ _ _ _ KA KE) || apply (beyond_le _ _ _ _ _ _ KA KE)|]. replace (toR E - Rabs x - (toR E - Rabs x)) with 0 by ring. rewrite Rabs_R0. lra.
Qed.
Print Assumptions C125_from_normal.

(** The line from the origin along (3, 4), its parallel and perpendicular
    through (7, 1), the segment to (3, 4), and a normal (3, 4) with offset 2. *)
Example C125_ex : sqrt_ok ieee_lib /\ eps_ok ieee_lib 0x1p-17 /\ room 1024 /\
  let a := (mkV 0 0)%float in let v := (mkV 3 4)%float in let p2 := (mkV 7 1)%float in let N := FNum ieee_lib in let E := 0x1p-17%float in
  within 1024 a /\ within 1024 p2 /\ within 1024 v /\ finite_vec v /\ good_length E (norm (vecR v)) /\ norm (vecR v) <= 4 * 1024 /\
  good_length E (dist (vecR v) (vecR a)) /\ finite 2%float /\ Rabs (toR 2) <= 1024 /\
  match (let* l := line_new (N := N) E a v in let* l1 := line_parallel (N := N) E l p2 in let* l2 := line_perpendicular (N := N) E l p2 in Ok (l1, l2)) with
  | Ok (l1, l2) => line_point_left (N := N) E l1 a = true /\ line_contains (N := N) E l1 (mkV 10 5)%float = true /\
      line_point_left (N := N) E l2 a = true /\ line_point_right (N := N) E l2 (mkV 10 5)%float = true /\ line_contains (N := N) E l2 (mkV 3 4)%float = true
  | Err _ => False end.
Proof.
  destruct C88_ex as (HS & HE & HM & _ & W0 & W3 & G & _). split; [exact HS|]. split; [exact HE|]. split; [exact HM|]. cbv zeta.
  assert (T3 : toR 3 = 3) by (vm_compute; lra). assert (T4 : toR 4 = 4) by (vm_compute; lra).
  assert (T7 : toR 7 = 7) by (vm_compute; lra). assert (T1 : toR 1 = 1) by (vm_compute; lra). assert (T2 : toR 2 = 2) by (vm_compute; lra).
  assert (NV : norm (vecR (mkV 3 4)%float) = 5) by (apply norm_unique; [lra|]; unfold vecR; cbn [vx vy]; rewrite T3, T4; lra).
  split; [exact W0|]. split; [split; [split; reflexivity|]; cbn [vx vy]; rewrite T7, T1, !Rabs_pos_eq by lra; lra|]. split; [exact W3|].
  split; [split; reflexivity|]. split.
  { replace (psub (vecR (mkV 3%float 4%float)) (vecR (mkV 0%float 0%float))) with (vecR (mkV 3%float 4%float)) in G; [exact G|].
    unfold psub, vecR. cbn [vx vy]. rewrite toR_0. f_equal; ring. }
  split; [rewrite NV; lra|]. split; [exact G|]. split; [reflexivity|]. split; [rewrite T2, Rabs_pos_eq by lra; lra|].
  vm_compute. repeat split.
Qed.
