(** * Property C109: convex hulls move with the transform *)
From Coq Require Import ZArith QArith List Bool Reals Lra Lia Permutation.
From Verif Require Import Num Vec Affine Box Seq Polygon BoxPoly Hull Tangent PolyOps OrdLaws SpecPoly SpecCycle SpecAffine SpecGeom SpecMass SpecWind SpecConvex SpecExtreme SpecSplit SpecHull SpecRegion SpecTri RBase VecFacts2 NumHom RComp
  HullFacts4 AffineFacts CentroidFacts ConvexFacts3 ConvexFacts4 RegionFacts PolyCache PolyCache2 PolyCache3 PropPoly PropPolyEq PropPnp PropSimple PropHull PropHullWide PropHullPoly PropRegion PropTrans.
Import ListNotations.
Local Open Scope R_scope.

Lemma img_inj (m : affine R) a b : det m <> 0 -> img m a = img m b -> a = b.
Proof. intros D K. rewrite <- (inv_img m a), <- (inv_img m b), K; auto. Qed.
Lemma img_mid (m : affine R) a b t : img m (between a b t) = between (img m a) (img m b) t.
Proof. apply vec_ext; ug; unfold img; cbn; ring. Qed.
(** The smallest convex set around the images is the image of the smallest
    convex set. *)
Lemma hull_img (m : affine R) (pts : list pt) q : det m <> 0 -> (in_hull (map (img m) pts) (img m q) <-> in_hull pts q).
Proof.
  intro D. split; intros H S C I.
  - specialize (H (fun v => exists u, v = img m u /\ S u)). destruct H as (u & E & Hu).
    + intros a b t (x & -> & Hx) (y & -> & Hy) Ht. exists (between x y t). split; [symmetry; apply img_mid|apply C; auto].
    + intros v Hv. apply in_map_iff in Hv as (u & <- & Hu). exists u. auto.
    + apply img_inj in E; auto. subst. auto.
  - apply (H (fun v => S (img m v))).
    + intros a b t Ha Hb Ht. rewrite img_mid. apply C; auto.
    + intros v Hv. apply I, in_map, Hv.
Qed.
Lemma hull_same (l l' : list pt) q : (forall v, In v l <-> In v l') -> in_hull l q <-> in_hull l' q.
Proof. intro H. split; apply in_hull_mono; intros v Hv; apply in_hull_in, H, Hv. Qed.
Lemma in_images (m : affine R) (pts pts' : list pt) : (forall v, In v pts' <-> exists u, In u pts /\ v = aapply m u) -> forall v, In v pts' <-> In v (map (img m) pts).
Proof. intros H v. rewrite H, in_map_iff. split; intros (u & A & B); exists u; rewrite ?aapply_R in *; auto. Qed.
Lemma encl_map (m : affine R) (l : list pt) q : 0 < det m -> (encloses (map (img m) l) (img m q) <-> encloses l q).
Proof.
  intro D. unfold encloses. rewrite cyc_map. split; intros H a b Hab.
  - specialize (H (img m a) (img m b)). rewrite orient_img in H. assert (X : det m * orient a b q <= 0) by (apply H, in_map_iff; exists (a, b); auto). nra.
  - apply in_map_iff in Hab as ([a' b'] & E & Hab). cbn [fst snd] in E. injection E as <- <-. rewrite orient_img. specialize (H a' b' Hab). nra.
Qed.

(** The hull of the images bounds the image of what the hull bounds. *)
Theorem C109_region : forall (so so' : list pt -> list pt) (m : affine R) (pts pts' : list pt) (p p' : poly R), reorders so -> reorders so' -> det m <> 0 ->
  (forall v, In v pts' <-> exists u, In u pts /\ v = aapply m u) -> spread pts -> hull_sound pts -> hull_sound pts' ->
  convex_hull so pts = Ok p -> convex_hull so' pts' = Ok p' -> forall q, encloses (pverts p') (aapply m q) <-> encloses (pverts p) q.
Proof.
  intros so so' m pts pts' p p' Hso Hso' D I Sp HS HS' E E' q. pose proof (in_images m pts pts' I) as I'.
  assert (Sp' : spread pts') by (destruct (spread_img m pts D Sp) as (a & b & c & Ha & Hb & Hc & O); exists a, b, c; rewrite !I'; auto).
  rewrite (C107_region so pts p Hso Sp HS E q), (C107_region so' pts' p' Hso' Sp' HS' E' _), aapply_R, (hull_same pts' (map (img m) pts)); auto. apply hull_img; auto.
Qed.
Print Assumptions C109_region.

(** Both hulls exist as soon as the points are not on a line. *)
Theorem C109_exists : forall (so so' : list pt -> list pt) (m : affine R) (pts pts' : list pt), reorders so -> reorders so' -> det m <> 0 ->
  (forall v, In v pts' <-> exists u, In u pts /\ v = aapply m u) -> spread pts ->
  exists p p', convex_hull so pts = Ok p /\ convex_hull so' pts' = Ok p'.
Proof.
  intros so so' m pts pts' Hso Hso' D I Sp. pose proof (in_images m pts pts' I) as I'.
  assert (Sp' : spread pts') by (destruct (spread_img m pts D Sp) as (a & b & c & Ha & Hb & Hc & O); exists a, b, c; rewrite !I'; auto).
  assert (X : forall s l, reorders s -> spread l -> exists p, convex_hull s l = Ok p).
  { intros s l Hs (a & b & c & Ha & Hb & Hc & O). pose proof (C66_raises s l Hs) as K. destruct (convex_hull s l) as [p|]; [eauto|exfalso].
    destruct K as [[K _]|(_ & _ & K)]; [rewrite K in Ha; contradiction|]. destruct (K a b c Ha Hb Hc) as [ -> | [ -> | -> ]]; apply O; ug; ring. }
  destruct (X so pts Hso Sp) as (p & E). destruct (X so' pts' Hso' Sp') as (p' & E'). eauto.
Qed.
Print Assumptions C109_exists.

Lemma vertex_iff (so : list pt -> list pt) (pts : list pt) (p : poly R) v : reorders so -> spread pts -> hull_sound pts -> convex_hull so pts = Ok p -> no_three (pverts p) ->
  In v (pverts p) <-> extreme (in_hull pts) v.
Proof.
  intros Hso Sp HS E NT. split; [|apply (C107_corners so); auto]. intro Hv. destruct (C106_shape so pts p Hso Sp HS E) as (N & Cw & Sh & _).
  pose proof (C107_region so pts p Hso Sp HS E) as RG. destruct (vertex_extreme (pverts p) v N Cw Sh NT Hv) as (X1 & X2). split; [apply RG; auto|]. intros a b Ha Hb. apply X2; apply RG; auto.
Qed.
Lemma extreme_img (m : affine R) (pts : list pt) v : det m <> 0 -> extreme (in_hull pts) v -> extreme (in_hull (map (img m) pts)) (img m v).
Proof.
  intros D (H & X). split; [apply hull_img; auto|]. intros a b Ha Hb (t & Ht & E).
  assert (W : forall w, in_hull (map (img m) pts) w -> exists u, w = img m u /\ in_hull pts u).
  { intros w Hw. apply (Hw (fun w => exists u, w = img m u /\ in_hull pts u)).
    - intros x y s (x' & -> & Hx) (y' & -> & Hy) Hs. exists (between x' y' s). split; [symmetry; apply img_mid|apply in_hull_convex; auto].
    - intros u Hu. apply in_map_iff in Hu as (u' & <- & Hu). exists u'. split; auto. apply in_hull_in; auto. }
  destruct (W a Ha) as (a' & -> & Ha'). destruct (W b Hb) as (b' & -> & Hb'). rewrite <- img_mid in E. apply img_inj in E; auto.
  destruct (X a' b' Ha' Hb') as [ -> | -> ]; auto. exists t. auto.
Qed.
Lemma nodup_img (m : affine R) (l : list pt) : det m <> 0 -> NoDup l -> NoDup (map (img m) l).
Proof.
  intros D N. induction N as [|a l H N IH]; constructor; auto. intro K. apply in_map_iff in K as (b & E & K). apply img_inj in E; auto. subst. auto.
Qed.
(** Clockwise cycles through the same points. *)
Lemma cw_rotated (l l' : list pt) : NoDup l -> NoDup l' -> convex_cw l -> convex_cw l' -> spread l -> no_three l -> (forall w, In w l <-> In w l') -> rotated l l'.
Proof.
  intros N N' C C' Sp NT I. destruct l as [|v s]; [destruct Sp as (? & _ & _ & [] & _)|].
  assert (Hv : In v l') by (apply I; left; auto). apply in_split in Hv as (u & w & ->).
  assert (P : Permutation (u ++ v :: w) (v :: w ++ u)) by (rewrite Permutation_app_comm; reflexivity).
  assert (NW : NoDup (v :: w ++ u)) by (eapply Permutation_NoDup; eauto).
  assert (CW : convex_cw (v :: w ++ u)).
  { intros a b x Hab Hx. apply C'; [|eapply Permutation_in; [symmetry; apply P|auto]]. change (v :: w ++ u) with ((v :: w) ++ u) in Hab. eapply Permutation_in; [apply cyc_rot|exact Hab]. }
  assert (s = w ++ u) as ->.
  { apply (same_list v); auto. intro x. rewrite I. split; apply Permutation_in; auto using Permutation_sym. }
  exists (v :: w), u. split; reflexivity.
Qed.
Lemma cw_rev (l : list pt) : convex_ccw l -> convex_cw (rev l).
Proof.
  intros C a b v Hab Hv. apply (Permutation_in _ (cyc_rev l)) in Hab. apply in_map_iff in Hab as ([x y] & E & Hab). unfold swap in E. cbn [fst snd] in E. injection E as <- <-.
  apply in_rev in Hv. specialize (C x y v Hab Hv). revert C. ug. lra.
Qed.
(** If moreover no three vertices of the hulls are on a line, the hull of the
    images compares equal to the image of the hull. *)
Theorem C109_equal : forall (so so' : list pt -> list pt) (m : affine R) (pts pts' : list pt) (p p' : poly R), reorders so -> reorders so' -> det m <> 0 ->
  (forall v, In v pts' <-> exists u, In u pts /\ v = aapply m u) -> spread pts -> hull_sound pts -> hull_sound pts' ->
  convex_hull so pts = Ok p -> convex_hull so' pts' = Ok p' -> no_three (pverts p) -> no_three (pverts p') ->
  poly_eqb p' (poly_mul p m) = Ok true /\ length (pverts p') = length (pverts p) /\ (forall v, In v (pverts p') <-> exists u, In u (pverts p) /\ v = aapply m u).
Proof.
  intros so so' m pts pts' p p' Hso Hso' D I Sp HS HS' E E' NT NT'. pose proof (in_images m pts pts' I) as I'.
  assert (Sp' : spread pts') by (destruct (spread_img m pts D Sp) as (a & b & c & Ha & Hb & Hc & O); exists a, b, c; rewrite !I'; auto).
  destruct (C106_shape so pts p Hso Sp HS E) as (N & Cw & Sh & _). destruct (C106_shape so' pts' p' Hso' Sp' HS' E') as (N' & Cw' & Sh' & _).
  assert (HM : forall w, in_hull pts' w <-> in_hull (map (img m) pts) w) by (intro w; apply hull_same; auto).
  assert (X : forall v, In v (pverts p') <-> In v (map (img m) (pverts p))).
  { assert (X1 : forall v, In v (pverts p) -> In (img m v) (pverts p')).
    { intros v Hv. apply (vertex_iff so pts p v) in Hv; auto. apply (C107_corners so' pts' p'); auto. apply (extreme_img m) in Hv; auto. destruct Hv as (A & B). split; [apply HM; auto|].
      intros a b Ha Hb. rewrite HM in Ha, Hb. apply B; auto. }
    intro v. split; [|intro Hv; apply in_map_iff in Hv as (u & <- & Hu); auto]. intro Hv.
    apply (vertex_iff so' pts' p' v) in Hv; auto. assert (Hi : exists u, In u pts /\ v = img m u).
    { destruct (C106_shape so' pts' p' Hso' Sp' HS' E') as (_ & _ & _ & _ & J & _). assert (K : In v pts') by (apply J, (vertex_iff so' pts' p' v); auto). apply I' in K. apply in_map_iff in K as (u & <- & K). eauto. }
    destruct Hi as (u & Hu & ->). apply in_map. apply (C107_corners so pts p); auto. destruct Hv as (A & B). split; [apply in_hull_in; auto|]. intros a b Ha Hb (t & Ht & EQ).
    enough (K : img m u = img m a \/ img m u = img m b) by (destruct K as [K|K]; apply img_inj in K; auto).
    apply B.
    - apply HM; auto. apply hull_img; auto.
    - apply HM; auto. apply hull_img; auto.
    - exists t. split; auto. rewrite EQ. apply img_mid. }
  pose proof (nodup_img m _ D N) as NM. assert (NTM : no_three (map (img m) (pverts p))).
  { intros a b c Ha Hb Hc. rewrite <- X in Ha, Hb, Hc. apply NT'; auto. }
  assert (SpM : spread (map (img m) (pverts p))) by (apply spread_img; auto).
  assert (CY : same_cycle (pverts p') (map (img m) (pverts p))).
  { destruct (sided_img m (pverts p) D (or_intror (proj2 (proj2 (sided_ccw _)) Cw))) as [K|K].
    - right. apply sided_ccw in K. apply cw_rotated; auto using cw_rev, NoDup_rev. intro w. rewrite <- in_rev. auto.
    - left. apply sided_ccw in K. apply cw_rotated; auto. }
  assert (LN : length (pverts p') = length (pverts p)).
  { rewrite <- (map_length (img m) (pverts p)). apply Permutation_length, NoDup_Permutation; auto. }
  split; [|split; auto].
  - rewrite mul_fresh. apply (C64_same_cycle_equal R RNum (fun _ => True) R_ordlaws _ _ (map (img m) (pverts p))); auto.
    + rewrite LN. apply (three (pverts p)); auto.
    + apply Forall_forall. intros; split; auto.
    + apply Forall_forall. intros; split; auto.
    + cbn [pverts pfresh]. clear. unfold same_points. induction (map (img m) (pverts p)) as [|a l IH]; constructor; auto. apply vec_eqb_R; auto.
  - intro v. rewrite X, in_map_iff. split; intros (u & A & B); exists u; rewrite ?aapply_R in *; auto.
Qed.
Print Assumptions C109_equal.

(** The conditions on the points hold for the images as well when there are at
    most seven points, or the transform is a translation and a magnification. *)
Theorem C109_sound_images : forall (m : affine R) (pts : list pt), hull_sound pts ->
  (length pts <= 7)%nat \/ (aa m = ae m /\ 0 < aa m /\ ab m = 0 /\ ad m = 0) -> hull_sound (map (aapply m) pts).
Proof.
  intros m pts HS [L|(K1 & K2 & K3 & K4)]; [left; rewrite map_length; auto|]. destruct HS as [HS|HS]; [left; rewrite map_length; auto|]. right.
  assert (X : forall u, vx (aapply m u) = aa m * vx u + ac m). { intro u. rewrite aapply_R. unfold img. cbn [vx]. rewrite ?K3, ?K4. ring. }
  assert (Y : forall u, vy (aapply m u) = aa m * vy u + af m). { intro u. rewrite aapply_R. unfold img. cbn [vy]. rewrite ?K3, ?K4, <- ?K1. ring. }
  intros l r q [Hl Ll] [Hr Lr] Hq. apply in_map_iff in Hl as (l' & <- & Hl). apply in_map_iff in Hr as (r' & <- & Hr). apply in_map_iff in Hq as (q' & <- & Hq).
  destruct (HS l' r' q') as (A & B); auto.
  - split; auto. intros w Hw. specialize (Ll _ (in_map (aapply m) _ _ Hw)). rewrite !X in Ll. nra.
  - split; auto. intros w Hw. specialize (Lr _ (in_map (aapply m) _ _ Hw)). rewrite !X in Lr. nra.
  - assert (P : forall u v w z, pdot (psub (aapply m u) (aapply m v)) (psub (aapply m w) (aapply m z)) = (aa m * aa m) * pdot (psub u v) (psub w z)).
    { intros u v w z. unfold pdot, psub. cbn [vx vy]. rewrite !X, !Y. ring. }
    rewrite !P. assert (0 < aa m * aa m) by (apply Rmult_lt_0_compat; auto). split; nra.
Qed.
Print Assumptions C109_sound_images.

(** Without the conditions it fails: the eight points of C67_refuted, of which
    the hull loses one, and their images when the x axis is stretched, whose
    hull is right. *)
Theorem C109_refuted : exists (pts : list pt) (m : affine R) (q : pt), spread pts /\ det m <> 0 /\ In q pts /\
  forall so so', reorders so -> reorders so' -> exists p p', convex_hull so pts = Ok p /\ convex_hull so' (map (aapply m) pts) = Ok p' /\
    encloses (pverts p') (aapply m q) /\ ~ encloses (pverts p) q.
Proof.
  set (m := mkA 1000 0 0 0 1 0). exists (map zv hull_w), m, (zv (10,1200)%Z).
  assert (Sp : spread (map zv hull_w)). { exists (zv (0,0)%Z), (zv (4000,-3000)%Z), (zv (3000,-1000)%Z). cbn [map hull_w In]. split; [auto|]. split; [auto|]. split; [auto|]. unfold zv. ug. cbn. lra. }
  split; auto. split; [unfold m, det; cbn; lra|]. split; [apply in_map; cbn; auto 10|]. intros so so' Hso Hso'.
  assert (MM : map (aapply m) (map zv hull_w) = map zv (map (fun z => (1000 * fst z, snd z)%Z) hull_w)).
  { rewrite !map_map. apply map_ext. intro z. rewrite aapply_R. unfold img, m, zv. cbn [vx vy fst snd aa ab ac ad ae af]. rewrite mult_IZR. apply vec_ext; cbn [vx vy]; ring. }
  destruct (C109_exists so so' m (map zv hull_w) (map (aapply m) (map zv hull_w)) Hso Hso') as (p & p' & E & E'); auto; [unfold m, det; cbn; lra| |].
  { intro v. rewrite in_map_iff. split; intros (u & A & B); exists u; auto. }
  exists p, p'. split; auto. split; auto. split.
  - assert (W : between_ends (map (aapply m) (map zv hull_w))).
    { rewrite MM. set (l8 := map (fun z => (1000 * fst z, snd z)%Z) hull_w). cbv in l8.
      assert (A : forall l, leftmost (map zv l8) l -> l = zv (0,0)%Z).
      { intros l [Hl HL]. specialize (HL (zv (0,0)%Z) (in_map zv l8 (0,0)%Z (or_introl eq_refl))). cbn [vx zv fst snd] in HL. apply in_map_iff in Hl. destruct Hl as (z & <- & Hz). cbn [vx zv fst snd] in HL.
        unfold l8 in Hz. cbn [In] in Hz. repeat (destruct Hz as [<-|Hz]; [cbn [fst snd] in HL; try (exfalso; lra); reflexivity|]). destruct Hz. }
      assert (B : forall r, rightmost (map zv l8) r -> r = zv (4000000,-3000)%Z).
      { intros l [Hl HL]. specialize (HL (zv (4000000,-3000)%Z) (in_map zv l8 (4000000,-3000)%Z (or_intror (or_introl eq_refl)))). cbn [vx zv fst snd] in HL. apply in_map_iff in Hl. destruct Hl as (z & <- & Hz). cbn [vx zv fst snd] in HL.
        unfold l8 in Hz. cbn [In] in Hz. repeat (destruct Hz as [<-|Hz]; [cbn [fst snd] in HL; try (exfalso; lra); reflexivity|]). destruct Hz. }
      intros l r q Hl Hr Hq. rewrite (A l Hl), (B r Hr). apply in_map_iff in Hq. destruct Hq as (z & <- & Hz).
      unfold l8 in Hz. cbn [In] in Hz. repeat (destruct Hz as [<-|Hz]; [unfold pdot, psub, zv; cbn [vx vy fst snd]; lra|]). destruct Hz. }
    apply (C67_between_partial so' (map (aapply m) (map zv hull_w)) p' Hso'); auto; [|apply in_map, in_map; cbn; auto 10].
    rewrite MM. exists (zv (0,0)%Z), (zv (4000000,-3000)%Z). split; [apply in_map; cbn; auto|]. split; [apply in_map; cbn; auto|]. cbn. lra.
  - pose proof (new_verts (map zv hull_w_h)) as NV. cbn [map hull_w_h length Nat.ltb Nat.leb] in NV. destruct NV as (p0 & E0 & Ep).
    unfold convex_hull in E. rewrite hull_w_run in E by auto. cbn [bind] in E. assert (p0 = p) as ->. { change (poly_new (map zv hull_w_h) (Some true) None = Ok p) in E. change (poly_new (map zv hull_w_h) (Some true) None = Ok p0) in E0. congruence. }
    rewrite Ep. intro H. specialize (H (zv (1,1000)%Z) (zv (500,800)%Z)). cbn in H. specialize (H (or_intror (or_introl eq_refl))). unfold orient, pcross, psub, zv in H. cbn [vx vy fst snd] in H. lra.
Qed.
Print Assumptions C109_refuted.

(** ** Example: the five points of C106, mirrored. *)
Example C109_ex : let m := mkA (-1) 0 0 0 1 0 in exists p p', convex_hull (fun x => x) (map zv four_one) = Ok p /\ convex_hull (fun x => x) (map (aapply m) (map zv four_one)) = Ok p' /\
  det m <> 0 /\ spread (map zv four_one) /\ hull_sound (map zv four_one) /\ hull_sound (map (aapply m) (map zv four_one)) /\ no_three (pverts p) /\ no_three (pverts p').
Proof.
  intro m. destruct C106_ex as (R0 & Sp & HS & p & EP & VP & L & _). destruct C107_ex as (p1 & EP1 & NT & _). assert (p1 = p) as -> by congruence.
  assert (D : det m <> 0) by (unfold m, det; cbn; lra).
  assert (SS : hull_sound (map (aapply m) (map zv four_one))) by (apply C109_sound_images; auto; left; cbn; lia).
  destruct (C109_exists (fun x => x) (fun x => x) m (map zv four_one) (map (aapply m) (map zv four_one)) R0 R0 D) as (q & p' & Eq & E'); auto.
  { intro v. rewrite in_map_iff. split; intros (u & A & B); exists u; auto. }
  exists p, p'. split; auto. split; auto. split; auto. split; auto. split; auto. split; auto. split; auto.
  destruct (C66_from_input (fun x => x) _ p' R0 E') as (F & _). intros a b c Ha Hb Hc. apply F in Ha, Hb, Hc. apply in_map_iff in Ha as (a' & <- & Ha), Hb as (b' & <- & Hb), Hc as (c' & <- & Hc).
  intros N1 N2 N3. rewrite !aapply_R, orient_img. apply Rmult_integral_contrapositive. split; auto.
  assert (a' <> b') by congruence. assert (b' <> c') by congruence. assert (a' <> c') by congruence.
  cbn in Ha, Hb, Hc. pick Ha; subst a'; pick Hb; subst b'; try congruence; pick Hc; subst c'; try congruence; unfold zv; ug; cbn; lra.
Qed.
