(** * C110: transforms with integer entries are exact on doubles of limited size *)
From Coq Require Import ZArith List Bool Reals Lra Lia Floats.
From Flocq Require Import Core IEEE754.PrimFloat IEEE754.BinarySingleNaN.
From Verif Require Import Num NumFloat Vec Affine Box Seq Polygon Tangent Hull PolyOps SpecPoly SpecGeom SpecAffine SpecCycle SpecMass SpecWind SpecConvex SpecSimple SpecExtreme SpecSplit SpecExact SpecHullGrid SpecGrid RBase OrdLaws FloatFacts FloatFacts2 FloatFacts3 FloatExact FloatErr FloatVec GridOps RelPoly
  PolyCache PolyCache2 PolyCache3 NumHom RComp VecFacts2 HeapFacts AffineFacts PropPoly PropConvex PropPnp PropSimple PropSimple2 PropSplit PropExact PropExact2 MonoFacts5 PropAffine PropTrans PropMove.
Import ListNotations.
Local Open Scope R_scope.

(** [m * v] is the exact image, and it is in units again. *)
Theorem C110_points : forall (L : FloatLib) (K d C B e : Z) (m : affine PrimFloat.float) (v : vec PrimFloat.float),
  units_mat K d C (d + e) m -> units_pt B e v -> (2 * (K * B) + C <= 2 ^ 53)%Z -> (-1000 <= d + e <= 900)%Z -> let N := FNum L in
  vecR (aapply m v) = img (affR m) (vecR v) /\ units_pt (2 * (K * B) + C) (d + e) (aapply m v).
Proof.
  intros L K d C B e m v ((A & B1 & D & E) & (C1 & F)) (X & Y) H He N. apply units_gz in A, B1, D, E, C1, F, X, Y.
  pose proof (gz_dot3 _ _ _ _ _ _ _ _ _ _ _ _ _ _ _ X A Y D C1 H He) as GX. pose proof (gz_dot3 _ _ _ _ _ _ _ _ _ _ _ _ _ _ _ X B1 Y E F H He) as GY.
  unfold aapply, N. rewrite vec2_float. split; [|split; [exact (gz_units _ _ _ _ GX)|exact (gz_units _ _ _ _ GY)]].
  unfold vecR, img, affR. cbn [vx vy aa ab ac ad ae af]. f_equal; [exact (gz_val _ _ _ _ GX)|exact (gz_val _ _ _ _ GY)].
Qed.
Print Assumptions C110_points.

Lemma same_vecR l l' : Forall2 same_vec l l' -> map vecR l = map vecR l'.
Proof.
  assert (Z : forall x y, same_double x y -> toR x = toR y). { intros x y [->|[Hx Hy]]; [reflexivity|]. apply is_zero_B in Hx as (s & Hx). apply is_zero_B in Hy as (s' & Hy). unfold toR. rewrite Hx, Hy. reflexivity. }
  induction 1 as [|a b l l' [Ha Hb] _ IH]; [reflexivity|]. cbn [map]. f_equal; [|exact IH]. unfold vecR. f_equal; apply Z; assumption.
Qed.
(** The same for every vertex of a product with a sequence, and for the
    in-place product. *)
Theorem C110_sequences : forall (L : FloatLib) (K d C B e : Z) (m : affine PrimFloat.float) (l : list (vec PrimFloat.float)),
  units_mat K d C (d + e) m -> Forall (units_pt B e) l -> (2 * (K * B) + C <= 2 ^ 53)%Z -> (-1000 <= d + e <= 900)%Z -> let N := FNum L in
  map vecR (map (aapply m) l) = map (img (affR m)) (map vecR l) /\ map vecR (itransform m l) = map (img (affR m)) (map vecR l) /\
  Forall (units_pt (2 * (K * B) + C) (d + e)) (map (aapply m) l).
Proof.
  intros L K d C B e m l Hm Hl H He N.
  assert (EX : map vecR (map (aapply m) l) = map (img (affR m)) (map vecR l)).
  { rewrite !map_map. apply map_ext_in. intros v Hv. rewrite Forall_forall in Hl. apply (C110_points L K d C B e m v Hm (Hl v Hv) H He). }
  split; [exact EX|]. split.
  - rewrite <- EX. pose proof (itransform_float L m l) as IT. rewrite Forall_forall in Hl.
    assert (Fl : forall v, In v l -> finite_vec v). { intros v Hv. destruct (Hl v Hv) as [(F1 & _) (F2 & _)]. split; assumption. }
    specialize (IT Fl). fold N in IT. apply same_vecR, IT.
  - apply Forall_forall. intros w Hw. apply in_map_iff in Hw as (v & <- & Hv). rewrite Forall_forall in Hl. apply (C110_points L K d C B e m v Hm (Hl v Hv) H He).
Qed.
Print Assumptions C110_sequences.

(** Products of transforms. *)
Theorem C110_products : forall (L : FloatLib) (K d C K' d' C' e : Z) (m n : affine PrimFloat.float),
  units_mat K d C (d + e) m -> units_mat K' d' C' e n -> (2 * (K * K') <= 2 ^ 53)%Z -> (2 * (K * C') + C <= 2 ^ 53)%Z -> (-1000 <= d + d' <= 900)%Z -> (-1000 <= d + e <= 900)%Z -> let N := FNum L in
  affR (amul m n) = amul (affR m) (affR n) /\ units_mat (2 * (K * K')) (d + d') (2 * (K * C') + C) (d + e) (amul m n).
Proof.
  intros L K d C K' d' C' e m n ((A & B1 & D & E) & (C1 & F)) ((A' & B1' & D' & E') & (C1' & F')) H1 H2 He1 He2 N.
  apply units_gz in A, B1, D, E, C1, F, A', B1', D', E', C1', F'. rewrite (Z.add_comm d d') in He1 |- *. rewrite (Z.mul_comm K K') in H1 |- *.
  pose proof (gz_dot2 _ _ _ _ _ _ _ _ _ _ _ _ A A' B1 D' H1 He1) as G1. pose proof (gz_dot2 _ _ _ _ _ _ _ _ _ _ _ _ A B1' B1 E' H1 He1) as G2.
  pose proof (gz_dot2 _ _ _ _ _ _ _ _ _ _ _ _ D A' E D' H1 He1) as G4. pose proof (gz_dot2 _ _ _ _ _ _ _ _ _ _ _ _ D B1' E E' H1 He1) as G5.
  rewrite (Z.mul_comm K C') in H2 |- *. rewrite (Z.add_comm d e) in He2, C1, F |- *.
  pose proof (gz_dot3 _ _ _ _ _ _ _ _ _ _ _ _ _ _ _ A C1' B1 F' C1 H2 He2) as G3. pose proof (gz_dot3 _ _ _ _ _ _ _ _ _ _ _ _ _ _ _ D C1' E F' F H2 He2) as G6.
  split.
  - unfold amul, affR. cbn [aa ab ac ad ae af]. f_equal; eapply gz_val; eassumption.
  - repeat split; try (eapply gz_units; eassumption); cbn [aa ab ac ad ae af amul]; first [apply (gz_units _ _ _ _ G1)|apply (gz_units _ _ _ _ G2)|apply (gz_units _ _ _ _ G3)|apply (gz_units _ _ _ _ G4)|apply (gz_units _ _ _ _ G5)|apply (gz_units _ _ _ _ G6)].
Qed.
Print Assumptions C110_products.

(** With integer linear entries the determinant is exact, and is_degenerate
    means that it is zero. *)
Lemma det_gz K m : units K 0 (aa m) -> units K 0 (ab m) -> units K 0 (ad m) -> units K 0 (ae m) -> (2 * (K * K) <= 2 ^ 53)%Z ->
  gz (2 * (K * K)) 0 (aa m * ae m - ab m * ad m)%float (det (affR m)).
Proof.
  intros A B D E H. apply units_gz in A, B, D, E. pose proof (gz_pos _ _ _ _ A). replace (2 * (K * K))%Z with (K * K + K * K)%Z by ring. apply gz_sub; try lia.
  - apply (gz_mul K K 0 0); auto; nia.
  - apply (gz_mul K K 0 0); auto; nia.
Qed.
Theorem C110_determinant : forall (L : FloatLib) (K C e : Z) (E : PrimFloat.float) (m : affine PrimFloat.float),
  units_mat K 0 C e m -> (2 * (K * K) <= 2 ^ 53)%Z -> PrimFloat.is_finite E = true -> 0 < toR E <= 1 -> let N := FNum L in
  toR (determinant m) = det (affR m) /\ (is_degenerate E m = true <-> det (affR m) = 0) /\ (ainvert E m = Err TransformNotInvertibleError <-> det (affR m) = 0).
Proof.
  intros L K C e E m ((A & B & D & F) & _) H FE HE N. pose proof (det_gz K m A B D F H) as G. destruct G as (GF & GV & z & Hz & GE). rewrite Rmult_1_r in GE.
  assert (DG : is_degenerate E m = true <-> det (affR m) = 0).
  { unfold is_degenerate, determinant, N. cbn [FNum nltb nabs nmul nsub]. destruct (fabs_toR _ GF) as [AF AV]. rewrite toR_lt, AV, GV by auto. rewrite Rltb_true. rewrite GE. split.
    - intro X. destruct (Z.eq_dec z 0) as [->|Hn]; [reflexivity|exfalso]. assert (1 <= Rabs (IZR z)) by (rewrite <- abs_IZR; apply IZR_le; lia). lra.
    - intros ->. rewrite Rabs_R0. lra. }
  split; [exact GV|]. split; [exact DG|]. rewrite <- DG. unfold ainvert. destruct (is_degenerate E m) eqn:X; [tauto|]. split; [|discriminate]. unfold pydiv. destruct (neqb _ _); cbn [bind]; discriminate.
Qed.
Print Assumptions C110_determinant.

(** If the determinant is a power of two up to sign, the inverse is exact and
    both products with it compare equal to the identity. *)
Theorem C110_inverse : forall (L : FloatLib) (K C e k : Z) (E : PrimFloat.float) (m : affine PrimFloat.float),
  units_mat K 0 C e m -> (2 * (K * K) <= 2 ^ 53)%Z -> (6 * (K * K * C) <= 2 ^ 53)%Z -> (-900 <= e <= 900)%Z -> PrimFloat.is_finite E = true -> 0 < toR E <= 1 ->
  (0 <= k)%Z -> Rabs (det (affR m)) = bpow radix2 k -> let N := FNum L in
  exists r, ainvert E m = Ok r /\ ainvert (toR E) (affR m) = Ok (affR r) /\ affine_eqb (amul m r) aidentity = true /\ affine_eqb (amul r m) aidentity = true.
Proof.
  intros L K C e k E m Hm H H2 He FE HE Hk HD N. pose proof Hm as ((A & B & D & F) & (C1 & F1)). pose proof (det_gz K m A B D F H) as G.
  destruct (C110_determinant L K C e E m Hm H FE HE) as (_ & DG & _). pose proof (bpow_gt_0 radix2 k) as PK.
  assert (ND : det (affR m) <> 0) by (intro X; rewrite X, Rabs_R0 in HD; lra). assert (DG' : is_degenerate E m = false) by (destruct (is_degenerate E m) eqn:X; [exfalso; apply ND, DG; reflexivity|reflexivity]).
  assert (K0 : (0 <= K)%Z) by (eapply gz_pos, units_gz, A). assert (C0 : (0 <= C)%Z) by (eapply gz_pos, units_gz, C1).
  assert (P2 : (2 ^ k <= 2 * (K * K))%Z).
  { destruct G as (_ & _ & z & Hz & GE). rewrite Rmult_1_r in GE. rewrite GE, <- abs_IZR, <- IZR_Zpower in HD by lia. apply eq_IZR in HD. change (Zpower radix2 k) with (2 ^ k)%Z in HD. lia. }
  assert (K53 : (k <= 53)%Z) by (apply (Z.pow_le_mono_r_iff 2); lia).
  assert (K1 : (1 <= K)%Z) by (pose proof (Z.pow_pos_nonneg 2 k ltac:(lia) Hk); nia).
  set (dt := (aa m * ae m - ab m * ad m)%float) in *.
  assert (GI : gz 1 (- k) (1 / dt)%float (1 / det (affR m))).
  { assert (exists s : Z, (Z.abs s <= 1)%Z /\ 1 / det (affR m) = IZR s * bpow radix2 (- k)) as (s & Hs & V).
    { rewrite bpow_opp, <- HD. unfold Rabs. destruct (Rcase_abs (det (affR m))); [exists (-1)%Z|exists 1%Z]; (split; [lia|]); field; assumption. }
    destruct (grid_rnd s (- k)) as [R1 R2]; [lia|lia|]. destruct (fdiv_toR 1 dt) as [Q1 Q2]; [reflexivity|rewrite (gz_val _ _ _ _ G); exact ND|rewrite toR_1, (gz_val _ _ _ _ G), V; exact R2|].
    split; [exact Q1|]. split; [rewrite Q2, toR_1, (gz_val _ _ _ _ G), V; exact R1|]. exists s. auto. }
  apply units_gz in A, B, D, F, C1, F1. set (i := (1 / dt)%float) in *.
  assert (M : forall f x, gz K 0 f x -> gz K (- k) (f * i)%float (x * (1 / det (affR m)))).
  { intros f x Hf. replace K with (K * 1)%Z by ring. apply (gz_mul K 1 0 (- k)); auto; nia. }
  pose proof (M _ _ F) as Ga. pose proof (M _ _ (gz_opp _ _ _ _ B)) as Gb. pose proof (M _ _ (gz_opp _ _ _ _ D)) as Gd. pose proof (M _ _ A) as Ge.
  assert (X : forall f x g y, gz K (- k) f x -> gz K (- k) g y -> gz (2 * (K * C)) (- k + e) (- ac m * f - af m * g)%float (- toR (ac m) * x - toR (af m) * y)).
  { intros f x g y Hf Hg. replace (2 * (K * C))%Z with (C * K + C * K)%Z by ring. replace (- k + e)%Z with (e + - k)%Z by ring. apply gz_sub; try nia; apply gz_mul; auto; try nia; apply gz_opp; auto. }
  pose proof (X _ _ _ _ Ga Gb) as Gc. pose proof (X _ _ _ _ Gd Ge) as Gf.
  set (r := mkA (ae m * i)%float (- ab m * i)%float (- ac m * (ae m * i) - af m * (- ab m * i))%float (- ad m * i)%float (aa m * i)%float (- ac m * (- ad m * i) - af m * (aa m * i))%float).
  assert (AR : affR r = mkA (toR (ae m) * (1 / det (affR m))) (- toR (ab m) * (1 / det (affR m))) (- toR (ac m) * (toR (ae m) * (1 / det (affR m))) - toR (af m) * (- toR (ab m) * (1 / det (affR m))))
    (- toR (ad m) * (1 / det (affR m))) (toR (aa m) * (1 / det (affR m))) (- toR (ac m) * (- toR (ad m) * (1 / det (affR m))) - toR (af m) * (toR (aa m) * (1 / det (affR m))))).
  { unfold affR at 1, r. cbn [aa ab ac ad ae af]. f_equal; eapply gz_val; eassumption. }
  assert (ER : ainvert E m = Ok r).
  { unfold ainvert. rewrite DG'. unfold determinant, pydiv, N. cbn [FNum neqb nmul nsub ndiv]. fold dt. change (@n0 _ (FNum L)) with 0%float. change (@n1 _ (FNum L)) with 1%float.
    rewrite (toR_eq dt 0%float (gz_fin _ _ _ _ G) eq_refl). rewrite (gz_val _ _ _ _ G), toR_0. replace (Reqb (det (affR m)) 0) with false by (symmetry; apply Reqb_false; exact ND). reflexivity. }
  assert (EV : ainvert (toR E) (affR m) = Ok (affR r)).
  { unfold ainvert, is_degenerate, determinant, pydiv. rnum. fold (det (affR m)). assert (LD : 1 <= Rabs (det (affR m))) by (rewrite HD; change 1 with (bpow radix2 0); apply bpow_le; lia).
    replace (Rltb (Rabs (det (affR m))) (toR E)) with false by (symmetry; apply Rltb_false; lra). replace (Reqb (det (affR m)) 0) with false by (symmetry; apply Reqb_false; exact ND).
    cbn [bind]. f_equal. rewrite AR. reflexivity. }
  exists r. split; [exact ER|]. split; [exact EV|].
  assert (UR : units_mat K (- k) (2 * (K * C)) (- k + e) r) by (repeat split; cbn [r aa ab ac ad ae af]; first [apply (gz_units _ _ _ _ Ga)|apply (gz_units _ _ _ _ Gb)|apply (gz_units _ _ _ _ Gc)|apply (gz_units _ _ _ _ Gd)|apply (gz_units _ _ _ _ Ge)|apply (gz_units _ _ _ _ Gf)]).
  destruct (C17_inverse (toR E) (affR m)) as (i' & I1 & I2 & I3 & _); [lra|rewrite HD; apply Rle_trans with 1; [lra|change 1 with (bpow radix2 0); apply bpow_le; lia]|].
  rewrite EV in I1. injection I1 as <-.
  assert (EQ : forall n a b c d, units_mat a b c d n -> affR n = idmat -> affine_eqb n aidentity = true).
  { intros n a b c d ((U1 & U2 & U4 & U5) & (U3 & U6)) HI. unfold affine_eqb, aidentity, affine_new, N. cbn [FNum neqb nmul aa ab ac ad ae af].
    change (@n0 _ (FNum L)) with 0%float. change (@n1 _ (FNum L)) with 1%float. unfold affR, idmat in HI. injection HI as H1 H2' H3 H4 H5 H6.
    destruct U1 as [U1 _], U2 as [U2 _], U3 as [U3 _], U4 as [U4 _], U5 as [U5 _], U6 as [U6 _].
    change (1 * 1)%float with 1%float. change (0 * 1)%float with 0%float.
    rewrite !toR_eq by (auto; reflexivity). rewrite H1, H2', H3, H4, H5, H6, toR_0, toR_1. rewrite !andb_true_iff, !Reqb_true. repeat split. }
  assert (Hm' : units_mat K 0 (C * 2 ^ k) (0 + (- k + e)) m).
  { destruct Hm as (U & _). split; [exact U|]. replace (0 + (- k + e))%Z with (e - k)%Z by ring. split; (eapply gz_units, gz_shift; [eassumption|exact Hk]). }
  assert (KC : (K * C <= K * K * C)%Z) by (rewrite <- Z.mul_assoc; assert (0 <= K * C)%Z by nia; nia).
  split.
  - destruct (C110_products L K 0 (C * 2 ^ k) K (- k) (2 * (K * C)) (- k + e) m r Hm' UR) as (P & U); try lia; [nia|]. eapply EQ; [exact U|]. exact (eq_trans P I2).
  - destruct (C110_products L K (- k) (2 * (K * C)) K 0 C e r m UR) as (P & U); try lia; [exact Hm|]. eapply EQ; [exact U|]. exact (eq_trans P I3).
Qed.
Print Assumptions C110_inverse.

(** A product with a polygon, up to [2 ^ 25] units: after any further calls
    every answer is the one the exact image polygon gives. *)
Lemma units_grid B e v : (B <= 2 ^ 25)%Z -> units_pt B e v -> vec_on_grid e v.
Proof. intros H [(F1 & z1 & B1 & K1) (F2 & z2 & B2 & K2)]. split; (split; [assumption|]); [exists z1|exists z2]; (split; [lia|assumption]). Qed.
Theorem C110_polygon : forall (L : FloatLib) (K d C B e : Z) (m : affine PrimFloat.float) (p : poly PrimFloat.float) (os : list (pop PrimFloat.float)),
  units_mat K d C (d + e) m -> Forall (units_pt B e) (pverts p) -> (4 <= length (pverts p))%nat -> (2 * (K * B) + C <= 2 ^ 25)%Z -> (-537 <= d + e <= 485)%Z -> Forall (grid_op (d + e)) os ->
  let N := FNum L in let q := prun (poly_mul p m) os in let r := prun (poly_from_points (map (img (affR m)) (map vecR (pverts p)))) (map opR os) in
  map vecR (pverts q) = pverts r /\ fst (get_is_convex q) = fst (get_is_convex r) /\ fst (get_is_simple q) = fst (get_is_simple r) /\ rmap boxR (fst (get_bbox q)) = fst (get_bbox r) /\
  (forall E E' x, vec_on_grid (d + e) x -> fst (contains_point E x q) = fst (contains_point E' (vecR x) r)) /\
  (forall x, vec_on_grid (d + e) x -> rmap pairR (fst (tangents_to_point x q)) = fst (tangents_to_point (vecR x) r)).
Proof.
  intros L K d C B e m p os Hm Hp Hn HB He Hos N q r. destruct (C110_sequences L K d C B e m (pverts p) Hm Hp ltac:(lia) ltac:(lia)) as (EV & _ & U). fold N in EV, U.
  assert (G : Forall (vec_on_grid (d + e)) (map (aapply m) (pverts p))) by (eapply Forall_impl; [|exact U]; intros v; apply units_grid; exact HB).
  assert (Hn' : (4 <= length (map (aapply m) (pverts p)))%nat) by (rewrite map_length; exact Hn).
  pose proof (grid_from_points L (d + e) _ os He G Hn' Hos) as HP. cbv zeta in HP. fold N in HP. rewrite EV in HP. change (poly_from_points (map (aapply m) (pverts p))) with (poly_mul p m) in HP. fold q r in HP.
  pose proof (grid_laws L (d + e) (proj1 He) (proj2 He)) as RL. split; [apply (rvs_vecR (d + e)), HP|].
  split; [apply rres_eq, (r_get_convex (grid (d + e)) RL _ _ HP)|]. split; [apply rres_eq, (r_get_simple (grid (d + e)) RL _ _ HP)|].
  split; [|split].
  - eapply rres_map; [|apply (r_get_bbox (grid (d + e)) RL _ _ HP)]. intros a [b1 b2] [K1 K2]. unfold boxR. cbn [bmin bmax] in *. f_equal; apply (rv_vecR (d + e)); auto.
  - intros E E' x Hx. apply rres_eq. apply (r_contains (grid (d + e)) RL); auto. apply grid_rv; auto.
  - intros x Hx. eapply rres_map; [|apply (r_tangents (grid (d + e)) RL _ _ _ _ HP (grid_rv (d + e) x Hx))]. intros a [b1 b2] [K1 K2]. unfold pairR. cbn [fst snd] in *. f_equal; apply (rv_vecR (d + e)); auto.
Qed.
Print Assumptions C110_polygon.

(** So containment in a convex polygon moves with the transform on doubles. *)
Theorem C110_moves : forall (L : FloatLib) (K d C B e : Z) (s : R) (m : affine PrimFloat.float) (vs : list (vec PrimFloat.float)) (os os' : list (pop PrimFloat.float)) (E E' : PrimFloat.float) (x : vec PrimFloat.float),
  units_mat K d C (d + e) m -> Forall (units_pt B e) vs -> units_pt B e x -> (4 <= length vs)%nat -> (B <= 2 ^ 25)%Z -> (2 * (K * B) + C <= 2 ^ 25)%Z -> (-537 <= e <= 485)%Z -> (-537 <= d + e <= 485)%Z ->
  let N := FNum L in let l := map vecR vs in let ws := map (aapply m) vs in
  Forall (grid_op e) os -> Forall (grid_op (d + e)) os' -> writes vs os = vs -> writes ws os' = ws ->
  s = 1 \/ s = -1 -> NoDup l -> spread l -> det (affR m) <> 0 -> (forall a b v, In (a, b) (cyc_pairs l) -> In v l -> 0 <= s * orient a b v) ->
  ~ misread s l -> ~ misread (det (affR m) * s) (map vecR ws) -> off_edges (vecR x) l ->
  fst (contains_point E' (aapply m x) (prun (poly_mul (poly_from_points vs) m) os')) = fst (contains_point E x (prun (poly_from_points vs) os)).
Proof.
  intros L K d C B e s m vs os os' E E' x Hm Hv Hx Hn HB HC He Hde N l ws Ho Ho' W W' Ts ND Sp D Sd M1 M2 Off.
  destruct (C110_sequences L K d C B e m vs Hm Hv ltac:(lia) ltac:(lia)) as (EV & _ & U). fold N in EV, U. fold ws in EV, U. fold l in EV.
  destruct (C110_points L K d C B e m x Hm Hx ltac:(lia) ltac:(lia)) as (EX & UX). fold N in EX, UX.
  assert (G : Forall (vec_on_grid e) vs) by (eapply Forall_impl; [|exact Hv]; intros v; apply units_grid; exact HB).
  assert (G' : Forall (vec_on_grid (d + e)) ws) by (eapply Forall_impl; [|exact U]; intros v; apply units_grid; exact HC).
  assert (Hn' : (4 <= length ws)%nat) by (unfold ws; rewrite map_length; exact Hn).
  change (poly_mul (poly_from_points vs) m) with (poly_from_points ws).
  pose proof (twin_contains L e vs os He G Hn Ho E 0 x (units_grid _ _ _ HB Hx)) as T1. pose proof (twin_contains L (d + e) ws os' Hde G' Hn' Ho' E' 0 _ (units_grid _ _ _ HC UX)) as T2.
  fold N in T1, T2. rewrite T1, T2.
  pose proof (twin_verts L e vs os He G Hn Ho) as TV. pose proof (twin_verts L (d + e) ws os' Hde G' Hn' Ho') as TV'. rewrite !prun_verts in TV, TV'.
  change (pverts (poly_from_points vs)) with vs in TV. change (pverts (poly_from_points ws)) with ws in TV'. fold N in TV, TV'. rewrite W in TV. rewrite W' in TV'.
  fold l in TV |- *. rewrite EX. rewrite EV in TV', M2 |- *. rewrite <- map_aapply_img in TV', M2 |- *. rewrite <- aapply_R. 
  apply (proj2 (C98_convex_exact s l (affR m) Ts ltac:(unfold l; rewrite map_length; lia) ND Sp D Sd)); auto.
Qed.
Print Assumptions C110_moves.

(** The limit is needed: one unit added to [2 ^ 53] is lost. *)
Theorem C110_limit_needed : exists (m : affine PrimFloat.float) (v : vec PrimFloat.float), units_mat 1 0 1 0 m /\ units_pt (2 ^ 53) 0 v /\
  forall L : FloatLib, let N := FNum L in vecR (aapply m v) <> img (affR m) (vecR v).
Proof.
  set (m := mkA 1%float 0%float 1%float 0%float 1%float 0%float). set (v := fz (2 ^ 53, 0)%Z). exists m, v.
  assert (V : vecR v = zv (2 ^ 53, 0)%Z) by (apply fz_R; cbn [fst snd]; lia).
  assert (Z0 : forall B e, (0 <= B)%Z -> units B e 0%float). { intros B e H. split; [reflexivity|]. exists 0%Z. split; [lia|]. rewrite toR_0. ring. }
  assert (O1 : units 1 0 1%float). { split; [reflexivity|]. exists 1%Z. split; [lia|]. rewrite toR_1. cbn. ring. }
  split; [repeat split; cbn [m aa ab ac ad ae af]; first [apply O1|apply Z0; lia]|].
  split. { pose proof (f_equal vx V) as V1. pose proof (f_equal vy V) as V2. unfold vecR, zv in V1, V2. cbn [vx vy fst snd] in V1, V2. split; (split; [reflexivity|]); [exists (2 ^ 53)%Z|exists 0%Z]; (split; [lia|]); [rewrite V1|rewrite V2]; cbn [fst snd bpow]; ring. }
  intros L N X. assert (EA : aapply m v = v) by (unfold N, aapply; rewrite vec2_float; vm_compute; reflexivity). rewrite EA, V in X. unfold img, zv, affR, m in X. cbn [vx vy aa ab ac ad ae af fst snd] in X.
  rewrite toR_0, toR_1 in X. apply (f_equal vx) in X. cbn [vx] in X. lra.
Qed.
Print Assumptions C110_limit_needed.

(** ** Example: the square from its second corner under [x -> 2 x + 3],
    [y -> 2 y + 5]; the transform has an exact inverse. *)
Lemma fz_units B l : (B <= 2 ^ 53)%Z -> forallb (fun z => ((Z.abs (fst z) <=? B) && (Z.abs (snd z) <=? B))%Z) l = true -> Forall (units_pt B 0) (map fz l) /\ map vecR (map fz l) = map zv l.
Proof.
  intros HB H. rewrite forallb_forall in H. split.
  - apply Forall_forall. intros v Hv. apply in_map_iff in Hv as (z & <- & Hz). specialize (H z Hz). apply andb_prop in H as [H1 H2]. apply Z.leb_le in H1, H2.
    destruct (float_of_Z_exact (fst z)) as [F1 V1]; [lia|]. destruct (float_of_Z_exact (snd z)) as [F2 V2]; [lia|].
    split; (split; [assumption|]); [exists (fst z)|exists (snd z)]; (split; [assumption|]); cbn [fz vx vy bpow]; rewrite Rmult_1_r; assumption.
  - rewrite map_map. apply map_ext_in. intros z Hz. specialize (H z Hz). apply andb_prop in H as [H1 H2]. apply Z.leb_le in H1, H2. apply fz_R; lia.
Qed.
Definition ex_m : affine PrimFloat.float := mkA 2%float 0%float 3%float 0%float 2%float 5%float.
Lemma ex_m_units : units_mat 2 0 5 0 ex_m /\ affR ex_m = mkA 2 0 3 0 2 5.
Proof.
  assert (X : forall z, (Z.abs z <= 2 ^ 53)%Z -> PrimFloat.is_finite (float_of_Z z) = true /\ toR (float_of_Z z) = IZR z) by (intros z Hz; destruct (float_of_Z_exact z Hz); auto).
  assert (Y : forall z B, (Z.abs z <= B)%Z -> (B <= 2 ^ 53)%Z -> units B 0 (float_of_Z z)). { intros z B HB H. destruct (X z) as [F V]; [lia|]. split; [exact F|]. exists z. split; [exact HB|]. rewrite V. cbn. ring. }
  change ex_m with (mkA (float_of_Z 2) (float_of_Z 0) (float_of_Z 3) (float_of_Z 0) (float_of_Z 2) (float_of_Z 5)). split.
  - split; [split; [|split; [|split]]|split]; cbn [aa ab ac ad ae af]; apply Y; lia.
  - unfold affR. cbn [aa ab ac ad ae af]. f_equal; apply X; lia.
Qed.
Example C110_ex (L : FloatLib) : let N := FNum L in let vs := map fz sq2 in
  units_mat 2 0 5 0 ex_m /\ Forall (units_pt 10 0) vs /\ Rabs (det (affR ex_m)) = bpow radix2 2 /\ (exists r, ainvert 1%float ex_m = Ok r) /\
  fst (contains_point 0%float (aapply ex_m (fz (3, 4)%Z)) (prun (poly_mul (poly_from_points vs) ex_m) [PRead QSimple])) = fst (contains_point 0%float (fz (3, 4)%Z) (prun (poly_from_points vs) [PRead QConvex; PCopy])).
Proof.
  intros N vs. destruct ex_m_units as [U EM]. destruct (fz_units 10 sq2) as [V EV]; [lia|vm_compute; reflexivity|]. fold vs in V, EV. destruct (fz_units 10 [(3, 4)%Z]) as [W EW]; [lia|vm_compute; reflexivity|].
  assert (HD : det (affR ex_m) = 4) by (rewrite EM; unfold det; cbn [aa ab ad ae]; lra).
  assert (HB : Rabs (det (affR ex_m)) = bpow radix2 2) by (rewrite HD, Rabs_right by lra; cbn; lra).
  split; [exact U|]. split; [exact V|]. split; [exact HB|]. split.
  - destruct (C110_inverse L 2 5 0 2 1%float ex_m U) as (r & R1 & _); try lia; try reflexivity; [rewrite toR_1; lra|exact HB|]. exists r. exact R1.
  - destruct C98_exact_ex as (X1 & X2 & X3 & X4 & X5 & X6 & _). rewrite <- EV in *.
    apply (C110_moves L 2 0 5 10 0 1 ex_m vs); auto; try lia.
    + inversion W; auto.
    + repeat constructor.
    + repeat constructor.
    + rewrite HD. lra.
    + rewrite HD, misread_sign by lra. fold N. destruct (C110_sequences L 2 0 5 10 0 ex_m vs U V) as (ES & _); [lia|lia|]. fold N in ES. rewrite ES, EM, EV.
      assert (EI : map (img (mkA 2 0 3 0 2 5)) (map zv sq2) = map zv [(23, 5); (23, 25); (3, 25); (3, 5)]%Z). { cbn [map sq2]. unfold zv, img. cbn [vx vy fst snd aa ab ac ad ae af]. repeat (f_equal; try lra). }
      rewrite EI. set (l := map zv [(23, 5); (23, 25); (3, 25); (3, 5)]%Z). intros (le & ri & lo & hi & F1 & F2 & F3 & F4 & H).
      assert (le = zv (3, 25)%Z) as ->. { apply (first_unique vx l); auto. exists (map zv [(23, 5); (23, 25)]%Z), [zv (3, 5)%Z]. split; [reflexivity|]. split; intros w Hw; cbn in Hw; pick Hw; subst w; cbn; lra. }
      assert (lo = zv (23, 5)%Z) as ->. { apply (first_unique vy l); auto. exists [], (map zv [(23, 25); (3, 25); (3, 5)]%Z). split; [reflexivity|]. split; [intros w []|]; intros w Hw; cbn in Hw; pick Hw; subst w; cbn; lra. }
      assert (hi = zv (23, 25)%Z) as ->. { apply (first_unique (fun v => - vy v) l); auto. exists [zv (23, 5)%Z], (map zv [(3, 25); (3, 5)]%Z). split; [reflexivity|]. split; intros w Hw; cbn in Hw; pick Hw; subst w; cbn; lra. }
      destruct H as [[_ [H _]]|[_ H]]; apply zv_inj in H; discriminate.
    + rewrite EV. inversion EW as [E0]. assert (E1 : vecR (fz (3, 4)%Z) = zv (3, 4)%Z) by (apply fz_R; cbn; lia). rewrite E1. intros a b He (t & Ht & Eb). cbn in He. unfold between in Eb. pick He; injection He as <- <-; unfold zv in Eb; cbn [vx vy fst snd] in Eb; revert Eb; ug; cbn [vx vy fst snd]; intro Eb; pose proof (f_equal vx Eb); pose proof (f_equal vy Eb); cbn [vx vy] in *; lra.
Qed.
